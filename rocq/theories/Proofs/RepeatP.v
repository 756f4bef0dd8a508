(** Proofs about averaging repeated measurements (Spec/RepeatSpec.v) for Model/Observations.v. *)
From Coq Require Import Reals.
From mathcomp Require Import all_ssreflect all_algebra.
From Verif Require Import Proofs.RealMx Model.Likelihood Model.Posterior Model.Observations Spec.RepeatSpec.
From Verif Require Import Spec.CholSpec Spec.KernelSpec Spec.PosteriorSpec Proofs.PosDef Proofs.CholP Proofs.PosteriorP Proofs.ObservationsP.
Set Implicit Arguments.
Unset Strict Implicit.
Unset Printing Implicit Defensive.
Import Order.TTheory GRing.Theory Num.Theory.
Local Open Scope ring_scope.

Section Algebra.
Variables (F : fieldType) (N n c : nat) (G : 'M[F]_(N, n)) (K : 'M[F]_n) (V' : 'M[F]_N) (W : 'M[F]_n).
Hypothesis UV : V' \in unitmx.
Hypothesis UW : W \in unitmx.
Hypothesis WE : G^T *m invmx V' *m G = W.
Let A := K + invmx W.
Let A' := G *m K *m G^T + V'.
Hypothesis UA : A \in unitmx.
Lemma det_rep : \det A' = \det V' * (\det A * \det W).
Proof.
have E1 := det_schur G (- (K *m G^T)) 1%:M UV.
have E2 : \det (block_mx V' G (- (K *m G^T)) 1%:M) = \det A'.
  have -> : block_mx V' G (- (K *m G^T)) 1%:M = block_mx A' G 0 1%:M *m block_mx 1%:M 0 (- (K *m G^T)) 1%:M.
    by rewrite mulmx_block !mulmx0 !mul0mx !mulmx1 !mul1mx !add0r mulmxN /A' mulmxA addrC addKr.
  by rewrite det_mulmx det_ublock det_lblock !det1 !mulr1.
rewrite -E2 E1; congr (_ * _); rewrite -det_mulmx; congr (\det _).
by rewrite /A mulmxDl mulVmx // !mulNmx opprK -!mulmxA (mulmxA G^T) WE addrC.
Qed.
Let UA' : A' \in unitmx.
Proof. by rewrite unitmxE det_rep !unitrM -!unitmxE UV UA UW. Qed.
(** the solution of the long system from that of the short one *)
Lemma solve_rep m (y : 'M[F]_(N, m)) :
  invmx A' *m y = invmx V' *m (y - G *m K *m (invmx A *m (invmx W *m (G^T *m invmx V' *m y)))).
Proof.
set al := invmx A *m _; set al' := RHS.
have Ga : G^T *m al' = al.
  have E : invmx W *m (G^T *m invmx V' *m y) = A *m al by rewrite /al mulKVmx.
  have E' : G^T *m invmx V' *m y = W *m (A *m al) by rewrite -E mulKVmx.
  rewrite /al' mulmxA mulmxBr E' (mulmxA _ (G *m K)) (mulmxA _ G K) WE -!mulmxA -mulmxBr /A mulmxDl addrC addKr.
  by rewrite mulKVmx.
apply: (can_inj (mulKmx UA')); rewrite mulKVmx // /A' mulmxDl -(mulmxA (G *m K)) Ga /al' mulKVmx //.
by rewrite addrC subrK.
Qed.
Lemma pull_rep m (y : 'M[F]_(N, m)) : G^T *m (invmx A' *m y) = invmx A *m (invmx W *m (G^T *m invmx V' *m y)).
Proof.
rewrite solve_rep; set al := invmx A *m _.
have E : invmx W *m (G^T *m invmx V' *m y) = A *m al by rewrite /al mulKVmx.
have E' : G^T *m invmx V' *m y = W *m (A *m al) by rewrite -E mulKVmx.
rewrite mulmxA mulmxBr E' (mulmxA _ (G *m K)) (mulmxA _ G K) WE -!mulmxA -mulmxBr /A mulmxDl addrC addKr.
by rewrite mulKVmx.
Qed.
Lemma pull_G m (k : 'M[F]_(n, m)) : (G *m k)^T *m invmx A' *m (G *m k) = k^T *m invmx A *m k.
Proof. by rewrite trmx_mul -!mulmxA pull_rep (mulmxA _ G k) WE mulKmx. Qed.
(** the quadratic form: that of the averages plus the spread *)
Lemma quad_rep (y : 'M[F]_(N, c)) : V'^T = V' -> W^T = W ->
  let yb := invmx W *m (G^T *m invmx V' *m y) in
  \tr (y^T *m (invmx A' *m y)) = \tr (yb^T *m (invmx A *m yb)) + \tr ((y - G *m yb)^T *m invmx V' *m (y - G *m yb)).
Proof.
move=> SV SW yb; rewrite -raddfD /=; congr (\tr _).
have TV : (invmx V')^T = invmx V' by rewrite trmx_inv SV.
have E : G^T *m invmx V' *m y = W *m yb by rewrite /yb mulKVmx.
have E' : y^T *m invmx V' *m G = yb^T *m W.
  apply: trmx_inj; rewrite (trmx_mul _ G) (trmx_mul y^T) trmxK TV mulmxA E (trmx_mul yb^T) trmxK SW; reflexivity.
have T : (y - G *m yb)^T *m invmx V' *m (y - G *m yb) = y^T *m invmx V' *m y - yb^T *m W *m yb.
  have T1 : y^T *m invmx V' *m (G *m yb) = yb^T *m W *m yb by rewrite (mulmxA _ G yb) E'.
  have T2 : (G *m yb)^T *m invmx V' *m y = yb^T *m W *m yb by rewrite trmx_mul -!mulmxA (mulmxA G^T) E.
  have T3 : (G *m yb)^T *m invmx V' *m (G *m yb) = yb^T *m W *m yb.
    by rewrite trmx_mul -WE !mulmxA.
  by rewrite [(y - _)^T]raddfB /= mulmxBr !mulmxBl T1 T2 T3 subrr subr0.
rewrite T solve_rep -/yb; set al := invmx A *m yb.
have H : yb^T *m W *m yb = yb^T *m W *m K *m al + yb^T *m al.
  have -> : yb^T *m W *m yb = yb^T *m W *m (A *m al) by rewrite /al mulKVmx.
  by rewrite /A mulmxDl mulmxDr !mulmxA mulmxK.
rewrite H; clear H; clearbody al; by rewrite !mulmxBr !mulmxA E' opprD [RHS]addrC -[RHS]addrA subrK.
Qed.
End Algebra.

Section Repeat.
Variables (X : Type) (kern : X -> X -> R) (m : X -> R) (N n c : nat) (g : 'I_N -> 'I_n) (x : 'I_n -> X) (d : obs X N c).
Hypothesis Vk : valid_covariance kern.
Hypothesis Rd : repeats g x d.
Hypothesis Pd : forall i, 0 < o_nv d i 0.
Let mk := GivenMean m.
Let nk : noise_arg X := MeasuredNoise.
Let b := averaged g x d.
Let G : 'M[R]_(N, n) := \matrix_(i, a) (g i == a)%:R.
Let V' : 'M[R]_N := noise_mx (V nk d).
Let W : 'M[R]_n := diag_mx (\row_a precision g d a).
Let K := Kmx kern x.
Lemma precision_gt0 a : 0 < precision g d a.
Proof.
have [i <-] := Rd.2 a; rewrite /precision (bigD1 i) //=; apply: ltr_spaddl; first by rewrite invr_gt0.
by apply: sumr_ge0=> j _; rewrite invr_ge0 ltW.
Qed.
Let ND : nk <> DefaultNoise. Proof. by []. Qed.
Let VE : V' = diag_mx (o_nv d)^T. Proof. by rewrite /V' V_diag. Qed.
Let Pb a : 0 < o_nv b a 0. Proof. by rewrite mxE invr_gt0 precision_gt0. Qed.
Lemma inv_diag k (v : 'rV[R]_k) : (forall i, 0 < v 0 i) -> diag_mx v *m diag_mx (\row_i (v 0 i)^-1) = 1%:M.
Proof.
move=> P; apply/matrixP=> i j; rewrite mul_diag_mx !mxE; case: eqP=> [->|_]; last by rewrite mulr0n mulr0.
by rewrite mulr1n mulfV // gt_eqF.
Qed.
Lemma invmx_diag k (v : 'rV[R]_k) : (forall i, 0 < v 0 i) -> diag_mx v \in unitmx /\ invmx (diag_mx v) = diag_mx (\row_i (v 0 i)^-1).
Proof.
move=> P; have [U _] := mulmx1_unit (inv_diag P); split=> //.
by rewrite -[LHS]mulmx1 -(inv_diag P) mulKmx.
Qed.
Let PV' i : 0 < (o_nv d)^T 0 i. Proof. by rewrite mxE. Qed.
Let PW a : 0 < (\row_a precision g d a) 0 a. Proof. by rewrite mxE precision_gt0. Qed.
Let UV : V' \in unitmx. Proof. by rewrite VE; exact: (invmx_diag PV').1. Qed.
Let UW : W \in unitmx. Proof. exact: (invmx_diag PW).1. Qed.
Let VbE : noise_mx (V nk b) = invmx W.
Proof. by rewrite V_diag //= (invmx_diag PW).2; congr diag_mx; apply/rowP=> a; rewrite !mxE. Qed.
Let GtE k (B : 'M[R]_(N, k)) a j : (G^T *m B) a j = \sum_(i | g i == a) B i j.
Proof.
rewrite mxE [RHS]big_mkcond /=; apply: eq_bigr=> i _; rewrite !mxE.
by case: eqP=> _; rewrite ?mul1r ?mul0r.
Qed.
Let GE k (B : 'M[R]_(n, k)) i j : (G *m B) i j = B (g i) j.
Proof.
rewrite mxE (bigD1 (g i)) //= mxE eqxx mul1r big1 ?addr0 // => a /negbTE h.
by rewrite mxE eq_sym h mul0r.
Qed.
Let iVE k (B : 'M[R]_(N, k)) i j : (invmx V' *m B) i j = B i j / o_nv d i 0.
Proof. by rewrite VE (invmx_diag PV').2 mul_diag_mx !mxE mulrC. Qed.
Let WE : G^T *m invmx V' *m G = W.
Proof.
apply/matrixP=> a e; rewrite -mulmxA GtE [RHS]mxE mxE /precision -sumrMnl; apply: eq_bigr=> i /eqP <-.
by rewrite iVE mxE; case: eqP=> _; rewrite ?mul1r ?mul0r.
Qed.
Let KVb : KVmx kern (o_x b) (V nk b) = K + invmx W.
Proof. by rewrite /KVmx VbE. Qed.
Lemma kmat_rep q (xp : 'I_q -> X) : kmat kern (o_x d) xp = G *m kmat kern x xp.
Proof. by apply/matrixP=> i j; rewrite GE !mxE Rd.1. Qed.
Let KVd : KVmx kern (o_x d) (V nk d) = G *m K *m G^T + V'.
Proof.
rewrite /KVmx /Kmx kmat_rep -/V'; congr (_ + _); rewrite -mulmxA; congr (_ *m _).
apply: trmx_inj; rewrite trmx_mul trmxK; apply/matrixP=> i a; rewrite GE !mxE Rd.1; by [].
Qed.
Let PVb : posdef (noise_mx (V nk b)).
Proof. by rewrite V_diag //=; apply: posdef_diagmx=> i; rewrite (_ : _ 0 i = o_nv b i 0) //; exact: mxE. Qed.
Let PVd : posdef V'.
Proof. by rewrite VE; apply: posdef_diagmx. Qed.
Let PA : posdef (K + invmx W). Proof. rewrite -KVb; exact: KV_pd Vk PVb. Qed.
Let UA : K + invmx W \in unitmx. Proof. by rewrite -KVb; apply: posdef_unit; [exact: KV_sym Vk (noise_sym ND b)|rewrite KVb]. Qed.
Let res k (f : obs X k c) : 'M[R]_(k, c) := \matrix_(i, j) (o_y f i j - m (o_x f i)).
Lemma res_rep : invmx W *m (G^T *m invmx V' *m res d) = res b.
Proof.
apply/matrixP=> a j; rewrite (invmx_diag PW).2 mul_diag_mx -mulmxA mxE [X in X * _]mxE [X in X^-1 * _]mxE GtE.
have -> : \sum_(i | g i == a) (invmx V' *m res d) i j = \sum_(i | g i == a) o_y d i j / o_nv d i 0 - precision g d a * m (x a).
  rewrite /precision mulr_suml -sumrB; apply: eq_bigr=> i /eqP <-.
  by rewrite iVE mxE Rd.1 mulrBl [m _ / _]mulrC.
by rewrite mulrBr mulKf ?gt_eqF ?precision_gt0 // !mxE mulrC.
Qed.
Lemma predict_mean_rep q (xp : 'I_q -> X) : predict_mean kern mk nk d xp = predict_mean kern mk nk b xp.
Proof.
rewrite /predict_mean /posterior_mean /KVinvYp KVb KVd kmat_rep trmx_mul -[mean_at mk d]/m -[mean_at mk b]/m -/(res d) -/(res b).
by rewrite -(mulmxA _ G^T (invmx _ *m _)) (pull_rep UV UW WE UA) res_rep.
Qed.
Lemma predict_cov_rep q (xp : 'I_q -> X) : predict_cov kern nk d xp false = predict_cov kern nk b xp false.
Proof. by rewrite /predict_cov /posterior_covariance KVb KVd kmat_rep (pull_G UV UW WE UA). Qed.
Lemma loglik_rep : loglik kern mk nk d = loglik kern mk nk b
  - (1 / 2%:R) * (spread g x d / c%:R + (\sum_i ln (o_nv d i 0) - \sum_a ln (o_nv b a 0)) + (N%:R - n%:R) * ln (2%:R * PI)%R).
Proof.
rewrite !loglikE /KVinvYp KVb KVd -[mean_at mk d]/m -[mean_at mk b]/m -/(res d) -/(res b).
rewrite (det_rep K UV UW WE) (quad_rep UV UW WE UA) ?res_rep; first last.
- by rewrite /W tr_diag_mx.
- by rewrite VE tr_diag_mx.
have -> : \tr ((res d - G *m res b)^T *m invmx V' *m (res d - G *m res b)) = spread g x d.
  rewrite -mulmxA -frob /spread; apply: eq_bigr=> i _; apply: eq_bigr=> j _.
  have E : (res d - G *m res b) i j = o_y d i j - o_y b (g i) j.
    by rewrite [LHS]mxE [X in _ + X]mxE GE !mxE Rd.1 opprB addrA subrK.
  by rewrite iVE E expr2 mulrA.
have -> : ln (\det V' * (\det (K + invmx W) * \det W)) = \sum_i ln (o_nv d i 0) + (ln (\det (K + invmx W)) - \sum_a ln (o_nv b a 0)).
  have LV : ln (\det V') = \sum_i ln (o_nv d i 0) by rewrite VE det_diag PosteriorP.ln_prod //; apply: eq_bigr=> i _; rewrite mxE.
  have LW : ln (\det W) = - \sum_a ln (o_nv b a 0).
    rewrite /W det_diag PosteriorP.ln_prod // -sumrN; apply: eq_bigr=> a _; rewrite !mxE rinvE; last by rewrite gt_eqF ?precision_gt0.
    rewrite ln_Rinv; last exact/RltP/precision_gt0.
    by rewrite [RHS]opprK.
  have DV : 0 < \det V' by apply: posdef_det=> //; rewrite VE tr_diag_mx.
  have DA : 0 < \det (K + invmx W) by rewrite -KVb; apply: posdef_det; [exact: KV_sym Vk (noise_sym ND b)|rewrite KVb].
  have DW : 0 < \det W by rewrite /W det_diag; apply: prodr_gt0.
  by rewrite ln_mult ?ln_mult ?LV ?LW //; apply/RltP=> //; apply: mulr_gt0.
rewrite [(_ + spread g x d) / _]mulrDl.
set D := \det _; move: (_ / c%:R) (_ / c%:R) (\sum_i ln _) (\sum_a ln (o_nv b a 0)) (ln D) (N%:R) (n%:R) (ln _) (1 / 2%:R).
move=> t1 t2 t3 t4 t5 t6 t7 t8 t9.
by toR; ring.
Qed.
End Repeat.
