(** Every symmetric matrix over a real closed field has an orthonormal basis of eigenvectors: the contract of np.linalg.eigh can be met. *)
From mathcomp Require Import all_ssreflect all_algebra complex.
From Verif Require Import Spec.CholSpec Proofs.CholP Spec.GaussW2Spec.
Set Implicit Arguments.
Unset Strict Implicit.
Unset Printing Implicit Defensive.
Import Order.TTheory GRing.Theory Num.Theory.
Local Open Scope ring_scope.
Local Open Scope complex_scope.

Section Spectral.
Variable R : rcfType.
Lemma row0 n (x : 'rV[R]_n) : (x *m x^T) 0 0 = 0 -> x = 0.
Proof.
move=> h; apply/eqP; apply/negPn/negP => x0; have y0 : x^T != 0 by rewrite trmx_eq0.
by have := quad_gt0 y0; rewrite trmxK h ltxx.
Qed.
(** a real eigenvector *)
Lemma eigenvector n (A : 'M[R]_(1 + n)) : A^T = A -> exists (l : R) (x : 'cV[R]_(1 + n)), x != 0 /\ A *m x = l *: x.
Proof.
move=> sA; pose AC := map_mx (real_complex R) A.
have [l rl] : exists l, root (char_poly AC) l by apply/closed_rootP; rewrite size_char_poly.
move: rl; rewrite -eigenvalue_root_char => /eigenvalueP [v hv v0].
pose a : 'rV[R]_(1 + n) := map_mx (@complex.Re R) v; pose b : 'rV[R]_(1 + n) := map_mx (@complex.Im R) v.
have ReM (z : R[i]) (r : R) : complex.Re (z * r%:C) = complex.Re z * r by case: z => x y /=; rewrite mulr0 subr0.
have ImM (z : R[i]) (r : R) : complex.Im (z * r%:C) = complex.Im z * r by case: z => x y /=; rewrite mulr0 add0r.
have hr : a *m A = complex.Re l *: a - complex.Im l *: b.
  apply/rowP => j; move/rowP/(_ j)/(congr1 (@complex.Re R)): hv; rewrite !mxE raddf_sum /= => e.
  transitivity (complex.Re (l * v 0 j)); last by case: (l) (v 0 j) => [p q] [r s].
  by rewrite -e; apply: eq_bigr => k _; rewrite !mxE ReM.
have hi : b *m A = complex.Im l *: a + complex.Re l *: b.
  apply/rowP => j; move/rowP/(_ j)/(congr1 (@complex.Im R)): hv; rewrite !mxE raddf_sum /= => e.
  transitivity (complex.Im (l * v 0 j)); last by case: (l) (v 0 j) => [p q] [r s] /=; rewrite addrC.
  by rewrite -e; apply: eq_bigr => k _; rewrite !mxE ImM.
set al := complex.Re l in hr hi; set be := complex.Im l in hr hi.
have ab : (a *m A *m b^T) 0 0 = (b *m A *m a^T) 0 0.
  have -> : a *m A *m b^T = (b *m A *m a^T)^T by rewrite !trmx_mul !trmxK sA mulmxA.
  by rewrite mxE.
have qa : 0 <= (a *m a^T) 0 0 by have := quad_ge0 a^T; rewrite trmxK.
have qb : 0 <= (b *m b^T) 0 0 by have := quad_ge0 b^T; rewrite trmxK.
have n0 : (a != 0) || (b != 0).
  rewrite -negb_and; apply: contra v0 => /andP [/eqP a0 /eqP b0]; apply/eqP/rowP => j; rewrite mxE.
  by move/rowP/(_ j): a0; move/rowP/(_ j): b0; rewrite !mxE; case: (v 0 j) => [x y] /= -> ->.
have be0 : be = 0.
  have ba : b *m a^T = (a *m b^T)^T by rewrite trmx_mul trmxK.
  move: ab; rewrite hr hi mulmxBl mulmxDl -!scalemxAl ba.
  rewrite [LHS]mxE [RHS]mxE [X in _ + X = _]mxE !(mxE scalemx_key) [(a *m b^T)^T 0 0]mxE.
  rewrite [_ + al * _]addrC => /addrI /eqP; rewrite -subr_eq0 -opprD oppr_eq0 -mulrDr mulf_eq0 => /orP [/eqP //|].
  rewrite paddr_eq0 // => /andP [/eqP z1 /eqP z2]; move: n0.
  by rewrite (row0 z1) (row0 z2) eqxx.
move: hr hi; rewrite be0 !scale0r subr0 add0r => hr hi; exists al.
case/orP: n0 => z0; [exists a^T|exists b^T]; rewrite trmx_eq0; split=> //.
- by have := congr1 trmx hr; rewrite trmx_mul sA linearZ.
- by have := congr1 trmx hi; rewrite trmx_mul sA linearZ.
Qed.

(** a reflection which takes the first unit vector to x *)
Lemma reflection n (x : 'cV[R]_(1 + n)) : (x^T *m x) 0 0 = 1 ->
  exists H : 'M[R]_(1 + n), [/\ H^T = H, H *m H = 1%:M & H *m delta_mx (lshift n 0) 0 = x].
Proof.
move=> x1; pose u := x - delta_mx (lshift n 0) 0; set d : 'cV[R]_(1 + n) := delta_mx (lshift n 0) 0 in u *.
have d1 : d^T *m d = 1%:M.
  by rewrite /d trmx_delta mul_delta_mx_cond eqxx mulr1n; apply/matrixP => i j; rewrite !ord1 !mxE eqxx.
have xx : x^T *m x = 1%:M by apply/matrixP => i j; rewrite !ord1 x1 mxE eqxx.
have [u0|u0] := eqVneq u 0.
  exists 1%:M; split; [exact: trmx1|exact: mulmx1|]; rewrite mul1mx; apply/eqP; rewrite eq_sym -subr_eq0; exact/eqP.
have q0 := quad_gt0 u0; set q := (u^T *m u) 0 0 in q0.
have uu : u^T *m u = q%:M by apply/matrixP => i j; rewrite !ord1 [RHS]mxE eqxx mulr1n.
pose c := 2%:R / q; exists (1%:M - c *: (u *m u^T)).
have dx : d^T *m x = x^T *m d.
  have -> : d^T *m x = (x^T *m d)^T by rewrite trmx_mul trmxK.
  by apply/matrixP => i j; rewrite !ord1 mxE.
have qE : q%:M = 2%:R *: (1%:M - d^T *m x) :> 'M[R]_1.
  by rewrite -uu /u [(x - d)^T]linearB /= mulmxBl !mulmxBr d1 xx -dx opprB -mulr2n scaler_nat.
split.
- by rewrite linearB /= trmx1 linearZ /= trmx_mul trmxK.
- rewrite mulmxBl mul1mx mulmxBr mulmx1 -scalemxAl -scalemxAr scalerA mulmxA -[_ *m u^T *m u]mulmxA uu mul_mx_scalar -scalemxAl scalerA.
  have -> : c * c * q = c + c by rewrite -mulrA /c divfK ?gt_eqF // mulr_natr mulr2n.
  by rewrite scalerDl opprB addrK subrK.
- rewrite mulmxBl mul1mx -scalemxAl -mulmxA.
  have -> : u^T *m d = (- (q / 2%:R))%:M.
    have -> : u^T *m d = - (1%:M - d^T *m x) by rewrite /u [(x - d)^T]linearB /= mulmxBl d1 -dx opprB.
    have h : 1%:M - d^T *m x = (q / 2%:R)%:M.
      by rewrite mulrC -scale_scalar_mx qE scalerA mulVf ?pnatr_eq0 // scale1r.
    by rewrite h -raddfN.
  rewrite mul_mx_scalar scalerA /c mulrN mulrA divfK ?gt_eqF // divff ?pnatr_eq0 // scaleN1r opprK /u.
  by rewrite addrC subrK.
Qed.

Lemma spectral n (A : 'M[R]_n) : A^T = A -> exists (d : 'rV[R]_n) (V : 'M[R]_n), V *m V^T = 1%:M /\ A = V *m diag_mx d *m V^T.
Proof.
elim: n A => [|n IH] A sA.
  by exists 0, 0; split; apply/matrixP => [[]].
move: A sA; rewrite -[n.+1]/(1 + n)%N => A sA.
have [l [y [y0 hy]]] := eigenvector sA.
pose s := Num.sqrt ((y^T *m y) 0 0); have s0 : 0 < s by rewrite sqrtr_gt0; exact: quad_gt0.
pose x : 'cV[R]_(1 + n) := s^-1 *: y.
have x1 : (x^T *m x) 0 0 = 1.
  rewrite /x [(s^-1 *: y)^T]linearZ /= -scalemxAl -scalemxAr scalerA mxE -invfM -expr2 sqr_sqrtr ?mulVf // ?gt_eqF ?quad_gt0 //.
  exact: quad_ge0.
have hx : A *m x = l *: x by rewrite /x -scalemxAr hy scalerA mulrC -scalerA.
have [H [sH HH Hd]] := reflection x1.
pose B : 'M[R]_(1 + n) := H *m A *m H.
have sB : B^T = B by rewrite /B !trmx_mul sA sH mulmxA.
set e1 : 'cV[R]_(1 + n) := delta_mx (lshift n 0) 0 in Hd.
have Bd : B *m e1 = l *: e1 by rewrite /B -!mulmxA Hd hx -scalemxAr -Hd mulmxA HH mul1mx.
have B00 i : B i (lshift n 0) = (l *: e1) i 0 by rewrite -Bd /e1 -colE [RHS]mxE.
have BE : B = H *m A *m H by []. clearbody B.
have ul : ulsubmx B = l%:M by apply/matrixP => i j; rewrite !ord1 !mxE B00 !mxE !eqxx mulr1 mulr1n.
have dl : dlsubmx B = 0 by apply/matrixP => i j; rewrite !ord1 !mxE B00 !mxE eq_rlshift mulr0.
have ur : ursubmx B = 0 by rewrite -sB -[B^T]submxK -trmx_dlsub ?dl; first rewrite block_mxKur trmx0.
have sD : (drsubmx B)^T = drsubmx B by rewrite trmx_drsub sB.
have [d [V [oV eD]]] := IH _ sD.
pose W : 'M[R]_(1 + n) := block_mx 1%:M 0 0 V; exists (row_mx l%:M d), (H *m W).
have oW : W *m W^T = 1%:M.
  by rewrite /W tr_block_mx !trmx0 trmx1 mulmx_block !mulmx0 !mul0mx !addr0 !add0r mulmx1 oV -scalar_mx_block.
have eB : B = W *m diag_mx (row_mx l%:M d) *m W^T.
  rewrite -[LHS]submxK ul ur dl eD diag_mx_row /W tr_block_mx !trmx0 trmx1 !mulmx_block !mulmx0 !mul0mx !addr0 !add0r mul1mx mulmx1.
  congr block_mx; rewrite ?mul0mx ?mulmx0 ?addr0 //.
  by apply/matrixP => i j; rewrite !ord1 !mxE eqxx !mulr1n.
split; first by rewrite trmx_mul mulmxA -[_ *m W *m _]mulmxA oW mulmx1 sH.
rewrite trmx_mul sH -!mulmxA [W *m _]mulmxA [W *m _ *m _]mulmxA -eB BE !mulmxA HH mul1mx -mulmxA HH mulmx1 //.
Qed.
Lemma eigh_exists n : exists eigh : 'M[R]_n -> 'rV[R]_n * 'M[R]_n, eigh_contract eigh.
Proof.
pose P (A : 'M[R]_n) (p : 'rV[R]_n * 'M[R]_n) := (A^T == A) ==> (p.2 *m p.2^T == 1%:M) && (A == p.2 *m diag_mx p.1 *m p.2^T).
have ex A : exists p, P A p.
  have [/eqP s|s] := boolP (A^T == A); last by exists 0; rewrite /P (negbTE s).
  by have [d [V [oV eA]]] := spectral s; exists (d, V); rewrite /P /= oV -eA !eqxx implybT.
exists (fun A => xchoose (ex A)) => A sA; have /implyP h := xchooseP (ex A); have /h /andP [/eqP h1 /eqP h2] : A^T == A by apply/eqP.
by split.
Qed.
End Spectral.
