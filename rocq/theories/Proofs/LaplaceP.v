(** Proofs about Model/Laplace.v. *)
From mathcomp Require Import all_ssreflect all_algebra.
From Coq Require Import Ring.
From Verif Require Import Model.Laplace Spec.CholSpec Spec.GaussW2Spec Spec.LaplaceSpec Proofs.PosDef Proofs.SpectralP.
Set Implicit Arguments.
Unset Strict Implicit.
Unset Printing Implicit Defensive.
Import Order.TTheory GRing.Theory Num.Theory.
Local Open Scope ring_scope.

Section Scalars.
Variables (T : Type) (zero one : T) (add mul sub : T -> T -> T) (opp : T -> T).
Hypothesis th : ring_theory zero one add mul sub opp eq.
Add Ring Tring : th.
Local Notation "a +' b" := (add a b) (at level 50, left associativity).
Local Notation "a -' b" := (sub a b) (at level 50, left associativity).
Local Notation "a *' b" := (mul a b) (at level 40, left associativity).
Lemma scalars_diff (f lx ly k xx xy yy : T) :
  (f +' (lx +' ly) +' k *' (xx +' xy +' (xy +' yy))) -' (f +' (lx -' ly) +' k *' (xx -' xy -' (xy -' yy)))
  -' (f +' (opp lx +' ly) +' k *' (xx -' xy -' (xy -' yy))) +' (f +' (opp lx -' ly) +' k *' (xx +' xy +' (xy +' yy)))
  = (k +' k) *' ((xy +' xy) +' (xy +' xy)).
Proof. ring. Qed.
Lemma scalars_quad (c p q k xx xy yy : T) : k +' k = one ->
  c +' (p +' q) +' k *' (xx +' xy +' (xy +' yy)) = c +' p +' k *' xx +' (q +' xy) +' k *' yy.
Proof.
  intros K. transitivity (c +' p +' k *' xx +' (q +' (k +' k) *' xy) +' k *' yy); [ring|]. rewrite K. ring.
Qed.
Lemma scalars_shift (xx xy yy : T) : xx -' xy +' (opp xy +' yy) = xx -' xy -' (xy -' yy).
Proof. ring. Qed.
End Scalars.

Section LaplaceP.
Variable R : rcfType.
Lemma Rth : @ring_theory R 0 1 +%R *%R (fun a b => a - b) -%R eq.
Proof.
  split=> //; [exact: add0r|exact: addrC|exact: addrA|exact: mul1r|exact: mulrC|exact: mulrA|exact: mulrDl|exact: subrr].
Qed.
Lemma half2 : (2%:R^-1 + 2%:R^-1 : R) = 1.
Proof. by rewrite -mulr2n -(mulr_natl (2%:R^-1)) mulfV ?pnatr_eq0. Qed.
Lemma step_neq0 : step R != 0. Proof. by rewrite invr_eq0 pnatr_eq0. Qed.
Lemma unit_stepE n (i : 'I_n) : unit_step R i = step R *: delta_mx i 0.
Proof. by apply/colP => k; rewrite !mxE eqxx andbT; case: (k == i); rewrite ?mulr1 ?mulr0. Qed.
Lemma nudgeD n (u : 'cV[R]_n) i : nudge u i (step R) = u + unit_step R i.
Proof. by apply/colP => k; rewrite !mxE. Qed.
Lemma nudgeB n (u : 'cV[R]_n) i : nudge u i (- step R) = u - unit_step R i.
Proof. by apply/colP => k; rewrite !mxE; case: (k == i); rewrite ?oppr0. Qed.
Lemma diff_sym n mean (u : 'cV[R]_n) i j : second_difference mean u i j = second_difference mean u j i.
Proof.
  rewrite /second_difference (addrAC u (unit_step R j)) (addrAC u (unit_step R j) (- _)) (addrAC u (- unit_step R j)) (addrAC u (- unit_step R j) (- _)).
  by rewrite (addrAC (neg_mean mean (u + unit_step R i + unit_step R j))).
Qed.
Lemma hess_entry n mean (u : 'cV[R]_n) i j : hessian mean u i j = second_difference mean u i j.
Proof. by rewrite !mxE; case: ifP => // _; apply: diff_sym. Qed.
Lemma hess_sym n mean (u : 'cV[R]_n) : (hessian mean u)^T = hessian mean u.
Proof. by apply/matrixP => i j; rewrite mxE !hess_entry; apply: diff_sym. Qed.
Definition bil n (H : 'M[R]_n) (x y : 'cV[R]_n) : R := (x^T *m H *m y) 0 0.
Lemma bilC n (H : 'M[R]_n) x y : H^T = H -> bil H x y = bil H y x.
Proof.
  move=> S; rewrite /bil. have -> : x^T *m H *m y = (y^T *m H *m x)^T by rewrite !trmx_mul trmxK S mulmxA.
  by rewrite mxE.
Qed.
Lemma bilDl n (H : 'M[R]_n) x y z : bil H (x + y) z = bil H x z + bil H y z.
Proof. by rewrite /bil linearD /= !mulmxDl mxE. Qed.
Lemma bilDr n (H : 'M[R]_n) x y z : bil H z (x + y) = bil H z x + bil H z y.
Proof. by rewrite /bil mulmxDr mxE. Qed.
Lemma bilNl n (H : 'M[R]_n) x z : bil H (- x) z = - bil H x z.
Proof. by rewrite /bil linearN /= !mulNmx mxE. Qed.
Lemma bilNr n (H : 'M[R]_n) x z : bil H z (- x) = - bil H z x.
Proof. by rewrite /bil mulmxN mxE. Qed.
Lemma bil_delta n (H : 'M[R]_n) i j : bil H (delta_mx i 0) (delta_mx j 0) = H i j.
Proof. by rewrite /bil trmx_delta -rowE -colE !mxE. Qed.
Lemma bilZ n (H : 'M[R]_n) a b x y : bil H (a *: x) (b *: y) = a * b * bil H x y.
Proof.
  rewrite /bil; have -> : (a *: x)^T = a *: x^T by apply/matrixP => ? ?; rewrite !mxE.
  by rewrite -!scalemxAl -scalemxAr scalerA mxE.
Qed.
Lemma quad_add n c b (H : 'M[R]_n) u d : H^T = H ->
  quad c b H (u + d) = quad c b H u + ((b^T *m d) 0 0 + bil H u d) + 2%:R^-1 * bil H d d.
Proof.
  move=> S; rewrite /quad mulmxDr [X in c + X]mxE -/(bil H (u + d) (u + d)) -/(bil H u u) bilDl !bilDr (bilC d u S).
  apply: (scalars_quad Rth); exact: half2.
Qed.
Lemma difference_quad n c b (H : 'M[R]_n) mean u i j : H^T = H -> (forall x, neg_mean mean x = quad c b H x) ->
  second_difference mean u i j = H i j.
Proof.
  move=> S Q; rewrite /second_difference !Q !unit_stepE.
  set x := step R *: delta_mx i 0; set y := step R *: delta_mx j 0.
  rewrite -!(addrA u) !quad_add //.
  set f := quad c b H u; set k := 2%:R^-1.
  set l := fun d : 'cV[R]_n => (b^T *m d) 0 0 + bil H u d.
  have lD d e : l (d + e) = l d + l e by rewrite /l mulmxDr mxE bilDr -!addrA; congr (_ + _); rewrite addrCA.
  have lN d : l (- d) = - l d by rewrite /l mulmxN mxE bilNr -opprD.
  rewrite -/(l (x + y)) -/(l (x - y)) -/(l (- x + y)) -/(l (- x - y)) !lD !lN.
  rewrite !(bilDl, bilDr, bilNl, bilNr) !opprK (bilC y x S).
  set lx := l x; set ly := l y; set xx := bil H x x; set xy := bil H x y; set yy := bil H y y.
  rewrite (scalars_shift Rth xx xy yy) (scalars_diff Rth f lx ly k xx xy yy) half2 mul1r.
  have -> : xy + xy + (xy + xy) = 4%:R * step R * step R * H i j.
    by rewrite -mulr2n -mulr2n -mulrnA /xy /x /y bilZ bil_delta -[LHS]mulr_natl !mulrA.
  by rewrite mulrAC mulfV ?mul1r // !mulf_neq0 ?step_neq0 ?pnatr_eq0.
Qed.
(** the diagonal matrix of the inverse spans *)
Definition jac n (span : 'rV[R]_n) : 'M[R]_n := diag_mx (map_mx (fun s => 1 / s) span).
Lemma jacE n (span : 'rV[R]_n) (A : 'M[R]_n) i j : (jac span *m A *m jac span) i j = A i j / (span 0 i * span 0 j).
Proof.
  by rewrite /jac mul_diag_mx mul_mx_diag !mxE !div1r invfM mulrC mulrCA mulrA mulrC mulrA mulrAC mulrC.
Qed.
Lemma curvature_eq n ev mean u (span : 'rV[R]_n) : (@laplace_posterior R n ev mean u span).2 = jac span *m hessian mean u *m jac span.
Proof.
  rewrite /laplace_posterior -/(jac span); set A := jac span *m _ *m _.
  have S : A^T = A by rewrite /A !trmx_mul hess_sym /jac tr_diag_mx mulmxA.
  have -> : 2%:R^-1 *: (A + A^T) = A by rewrite S scalerDr -scalerDl half2 scale1r.
  by case: ifP.
Qed.
Lemma laplaceE n ev mean u (span : 'rV[R]_n) : let A := (@laplace_posterior R n ev mean u span).2 in
  A^T = A /\ (@laplace_posterior R n ev mean u span).1 = if [exists k, ev A 0 k <= 0] then None else Some (invmx A).
Proof.
  move=> A; have EA : A = jac span *m hessian mean u *m jac span := curvature_eq ev mean u span.
  have S : A^T = A by rewrite EA !trmx_mul hess_sym /jac tr_diag_mx mulmxA.
  split=> //; rewrite /laplace_posterior -/(jac span) -EA.
  have -> : 2%:R^-1 *: (A + A^T) = A by rewrite S scalerDr -scalerDl half2 scale1r.
  by case: ifP.
Qed.
Lemma eigen_posdef n (ev : 'M[R]_n -> 'rV[R]_n) (A : 'M[R]_n) : eigenvalues_contract ev -> A^T = A ->
  (posdef A <-> [exists k, ev A 0 k <= 0] = false).
Proof.
  move=> C S; have [V [O E]] := C A S; have O' := mulmx1C O; split.
    move=> P; apply/negbTE; rewrite negb_exists; apply/forallP => k; rewrite -ltNge.
    have := P (V *m delta_mx k 0); rewrite trmx_mul {1}E !mulmxA -(mulmxA _ V^T V) O' mulmx1 -(mulmxA _ V^T V) O' mulmx1.
    rewrite trmx_delta -rowE -[row k _ *m _]colE; move=> H; move: H; rewrite [X in _ -> 0 < X]mxE [X in _ -> 0 < X]mxE [X in _ -> 0 < X]mxE eqxx mulr1n; apply.
    apply/eqP => Z; have : V^T *m (V *m delta_mx k 0) = 0 :> 'cV_n by rewrite Z mulmx0.
    rewrite mulmxA O' mul1mx => /matrixP /(_ k 0); rewrite !mxE !eqxx => /eqP; by rewrite oner_eq0.
  move=> /negbT; rewrite negb_exists => /forallP P.
  rewrite E -{1}[V]trmxK; apply: posdef_cong; last by rewrite unitmx_tr; case/mulmx1_unit: O.
  by apply: posdef_diagmx => k; rewrite ltNge.
Qed.
Lemma move_eq n (u : 'cV[R]_n) span d : scaled_move u span d = u + jac span *m d.
Proof. by apply/colP => k; rewrite /jac mul_diag_mx !mxE div1r [_^-1 * _]mulrC. Qed.
Lemma eigenvalues_exist n : exists ev : 'M[R]_n -> 'rV[R]_n, eigenvalues_contract ev.
Proof.
  have [eigh C] := eigh_exists R n; exists (fun A => (eigh A).1) => A S; exists (eigh A).2; exact: C.
Qed.
(** a quadratic without a linear part at its least point *)
Lemma min_flat (l B : R) : (forall t, 0 <= t * l + 2%:R^-1 * (t ^+ 2 * B)) -> l = 0.
Proof.
  move=> H; apply/eqP; apply/negPn/negP => N.
  set w : R := `|B| + 1; have W : 0 < w by rewrite ltr_paddl ?ltr01.
  have := H (- l / w); rewrite leNgt => /negP; apply.
  have -> : - l / w * l + 2%:R^-1 * ((- l / w) ^+ 2 * B) = l ^+ 2 / w * (2%:R^-1 * (B / w) - 1).
    rewrite mulrBr mulr1 addrC; congr (_ + _); last by rewrite !mulNr mulrAC -expr2.
    by rewrite mulNr sqrrN expr_div_n [RHS]mulrCA; congr (_ * _); rewrite [RHS]mulrACA mulrAC [w ^+ 2]expr2 invfM.
  rewrite pmulr_rlt0; last by rewrite divr_gt0 // exprn_even_gt0.
  rewrite subr_lt0; have L : B / w <= 1 by rewrite ler_pdivr_mulr // mul1r (le_trans (ler_norm B)) // ler_addl ler01.
  apply: (@le_lt_trans _ _ 2%:R^-1); first by rewrite -[X in _ <= X]mulr1 ler_pmul2l // invr_gt0 ltr0n.
  by rewrite invf_lt1 ?ltr1n ?ltr0n.
Qed.
End LaplaceP.
