(** Proofs about unrelated observations and about the variance at measured points, for Model/Observations.v. *)
From Coq Require Import Reals Lra.
From mathcomp Require Import all_ssreflect all_algebra.
From Verif Require Import Proofs.RealMx Model.Likelihood Model.Posterior Model.Observations Spec.ObservationsSpec Spec.LocalSpec.
From Verif Require Import Spec.CholSpec Spec.KernelSpec Spec.PosteriorSpec Proofs.PosDef Proofs.CholP Proofs.PosteriorP Proofs.ObservationsP.
Set Implicit Arguments.
Unset Strict Implicit.
Unset Printing Implicit Defensive.
Import Order.TTheory GRing.Theory Num.Theory.
Local Open Scope ring_scope.

(** ** Unrelated observations *)
Section Apart.
Variables (X : Type) (kern : X -> X -> R) (m : X -> R) (nk : noise_arg X) (n p c : nat) (d : obs X n c) (e : obs X p c).
Hypothesis ND : nk <> DefaultNoise.
Hypothesis Vk : valid_covariance kern.
Hypothesis (Pd : forall i, 0 < noise_mx (V nk d) i i) (Pe : forall i, 0 < noise_mx (V nk e) i i).
Hypothesis DE : apart kern (o_x d) (o_x e).
Let mk := GivenMean m.
Let j := joined d e.
Let A := KVmx kern (o_x d) (V nk d).
Let B := KVmx kern (o_x e) (V nk e).
Let UA : A \in unitmx. Proof. apply: KV_unit Vk (noise_sym ND d) (noise_pd ND Pd). Qed.
Let UB : B \in unitmx. Proof. apply: KV_unit Vk (noise_sym ND e) (noise_pd ND Pe). Qed.
Let KVj : KVmx kern (o_x j) (V nk j) = block_mx A 0 0 B.
Proof.
rewrite KV_join //; have -> : kmat kern (o_x d) (o_x e) = 0 by apply/matrixP=> a b; rewrite !mxE DE.
by rewrite trmx0.
Qed.
Let invj : invmx (KVmx kern (o_x j) (V nk j)) = block_mx (invmx A) 0 0 (invmx B).
Proof. by rewrite KVj inv_blockdiag. Qed.
Let res k (f : obs X k c) : 'M[R]_(k, c) := \matrix_(i, l) (o_y f i l - m (o_x f i)).
Let resj : res j = col_mx (res d) (res e).
Proof. by apply/matrixP=> a b; rewrite !mxE /=; case: split=> a'; rewrite !mxE. Qed.
Let alj : KVinvYp kern m (o_x j) (o_y j) (V nk j) = col_mx (invmx A *m res d) (invmx B *m res e).
Proof. by rewrite /KVinvYp invj -/(res j) resj mul_block_col !mul0mx addr0 add0r. Qed.
Section Pred.
Variables (q : nat) (xp : 'I_q -> X).
Hypothesis EX : apart kern (o_x e) xp.
Let kj : kmat kern (o_x j) xp = col_mx (kmat kern (o_x d) xp) 0.
Proof. rewrite kmat_join; congr col_mx; by apply/matrixP=> a b; rewrite !mxE EX. Qed.
Lemma predict_mean_apart : predict_mean kern mk nk j xp = predict_mean kern mk nk d xp.
Proof.
rewrite /predict_mean /posterior_mean -[mean_at mk j]/m -[mean_at mk d]/m alj kj tr_col_mx trmx0 mul_row_col mul0mx addr0.
by [].
Qed.
Lemma predict_cov_apart : predict_cov kern nk j xp false = predict_cov kern nk d xp false.
Proof.
rewrite /predict_cov /posterior_covariance invj kj tr_col_mx trmx0 mul_row_block !mulmx0 !mul0mx !addr0 mul_row_col !mulmx0 addr0.
by [].
Qed.
End Pred.
Lemma loglik_apart : loglik kern mk nk j = loglik kern mk nk d + loglik kern mk nk e.
Proof.
rewrite !loglikE -[mean_at mk j]/m -[mean_at mk d]/m -[mean_at mk e]/m alj -/(res j) -/(res d) -/(res e) resj KVj.
rewrite tr_col_mx mul_row_col mxtraceD /KVinvYp -/A -/B -/(res d) -/(res e).
have -> : ln (\det (block_mx A 0 0 B)) = ln (\det A) + ln (\det B).
  rewrite det_ublock ln_mult //; apply/RltP; apply: posdef_det.
  - exact: KV_sym Vk (noise_sym ND d).
  - exact: KV_pd Vk (noise_pd ND Pd).
  - exact: KV_sym Vk (noise_sym ND e).
  - exact: KV_pd Vk (noise_pd ND Pe).
rewrite natrD [(_ + \tr _) / _]mulrDl; set DA := \det A; set DB := \det B.
move: (_ / c%:R) (_ / c%:R) (ln DA) (ln DB) (n%:R) (p%:R) (ln _) (- (1 / 2%:R)) => t1 t2 t3 t4 t5 t6 t7 t8.
by toR; ring.
Qed.
End Apart.

(** ** The variance at a measured point *)
Section Measured.
Variables (n q : nat) (A : 'M[R]_n) (k : 'cV[R]_n) (kk : R).
Hypothesis (SA : A^T = A) (PA : posdef A).
(** any linear predictor is at least as uncertain *)
Lemma linear_predictor (w : 'cV[R]_n) :
  kk - (k^T *m invmx A *m k) 0 0 <= kk - ((w^T *m k) 0 0 + (w^T *m k) 0 0) + (w^T *m A *m w) 0 0.
Proof.
have UA := posdef_unit SA PA.
have Q : 0 <= ((w - invmx A *m k)^T *m A *m (w - invmx A *m k)) 0 0 by apply: posdef_psd.
have E : (w - invmx A *m k)^T *m A *m (w - invmx A *m k) = w^T *m A *m w - w^T *m k - (w^T *m k)^T + k^T *m invmx A *m k.
  have T : (invmx A *m k)^T *m A = k^T by rewrite trmx_mul trmx_inv SA mulmxKV.
  rewrite [(w - _)^T]raddfB /= mulmxBl T mulmxBr !mulmxBl -[w^T *m A *m (_ *m _)]mulmxA mulKVmx // trmx_mul trmxK mulmxA opprB.
  by rewrite [X in _ + X = _]addrC addrA; congr (_ + _); rewrite addrAC.
move: Q; rewrite E [X in _ <= X]mxE [X in X + _]mxE [X in X + _ + _]mxE [X in _ + X + _]mxE [X in _ + X + _ + _]mxE [X in _ - X + _]mxE.
move: (_ 0 0) (_ 0 0) (_ 0 0) => t1 t2 t3.
by move=> /RleP H; apply/RleP; move: H; toR; lra.
Qed.
End Measured.
Section Point.
Variables (X : Type) (kern : X -> X -> R) (nk : noise_arg X) (n c : nat) (d : obs X n c).
Hypothesis Vk : valid_covariance kern.
Hypothesis Pd : forall i, 0 < noise_mx (V nk d) i i.
Lemma any_noise_diag : exists v, V nk d = NDiag v.
Proof. by rewrite /V /noise_for; case: nk=> [||v]; eexists. Qed.
Let SV : (noise_mx (V nk d))^T = noise_mx (V nk d).
Proof. by have [v ->] := any_noise_diag; rewrite /= tr_diag_mx. Qed.
Let PV : posdef (noise_mx (V nk d)).
Proof.
move: Pd; have [v ->] := any_noise_diag; rewrite /= => P; apply: posdef_diagmx=> i; have := P i; rewrite !mxE eqxx mulr1n; exact.
Qed.
Let A := KVmx kern (o_x d) (V nk d).
Let SA : A^T = A. Proof. exact: KV_sym Vk SV. Qed.
Let PA : posdef A. Proof. exact: KV_pd Vk PV. Qed.
Lemma predict_cov_any q (xp : 'I_q -> X) :
  let S := schur kern (o_x d) (V nk d) xp in predict_cov kern nk d xp false = (\col_i S i i, Some S).
Proof.
move=> S; rewrite /predict_cov (@Props.PosteriorProps.posterior_covariance_exact _ _ _ _ (V nk d)) //; last by left.
have -> : gram kern xp xp - gram kern xp (o_x d) *m invmx (gram kern (o_x d) (o_x d) + noise_mx (V nk d)) *m gram kern (o_x d) xp = S.
  by rewrite /S /schur -(gram_sym (o_x d) xp Vk).
by [].
Qed.
Variables (q : nat) (xp : 'I_q -> X) (a : 'I_q) (P : pred 'I_n).
Hypothesis At : forall i, P i -> o_x d i = xp a.
Let p := measured_precision nk d P.
Let kk := kern (xp a) (xp a).
Let p0 : 0 <= p. Proof. by apply: sumr_ge0=> i _; rewrite invr_ge0 ltW. Qed.
Let kk0 : 0 <= kk. Proof. by have := psd_diag a (gram_psd xp Vk); rewrite mxE. Qed.
Let k : 'cV[R]_n := \col_i kern (o_x d i) (xp a).
Let w (s : R) : 'cV[R]_n := \col_i (if P i then s / noise_mx (V nk d) i i else 0).
Lemma sum_w s (f : 'I_n -> R) : \sum_i w s i 0 * f i = s * \sum_(i | P i) (noise_mx (V nk d) i i)^-1 * f i.
Proof.
rewrite mulr_sumr [RHS]big_mkcond /=; apply: eq_bigr=> i _; rewrite mxE.
by case: (P i); rewrite ?mul0r // mulrA.
Qed.
Lemma wk s : ((w s)^T *m k) 0 0 = s * p * kk.
Proof.
rewrite mxE; under eq_bigr do rewrite [X in X * _]mxE.
rewrite sum_w -mulrA; congr (_ * _); rewrite mulr_suml; apply: eq_bigr=> i Pi; congr (_ * _).
by rewrite mxE At.
Qed.
Lemma wAw s : ((w s)^T *m A *m w s) 0 0 = s * p * (s * p) * kk + s * s * p.
Proof.
have Kw : Kmx kern (o_x d) *m w s = (s * p) *: k.
  apply/colP=> i; rewrite mxE [RHS]mxE; under eq_bigr do rewrite mulrC.
  rewrite sum_w -mulrA; congr (_ * _); rewrite mulr_suml; apply: eq_bigr=> j Pj; congr (_ * _).
  by rewrite /Kmx [LHS]mxE [RHS]mxE (At Pj).
have Vw i : (noise_mx (V nk d) *m w s) i 0 = if P i then s else 0.
  have [v E] := any_noise_diag; have := Pd i; rewrite E /= mul_diag_mx !mxE E /= !mxE eqxx mulr1n => vi.
  by case: (P i); rewrite ?mulr0 // mulrCA mulfV ?mulr1 // gt_eqF.
rewrite -mulmxA /A /KVmx mulmxDl mulmxDr mxE Kw -scalemxAr [X in X + _]mxE wk; congr (_ + _); first by rewrite !mulrA.
rewrite mxE; under eq_bigr do rewrite [X in X * _]mxE Vw.
rewrite sum_w -mulrA; congr (_ * _); rewrite mulrC mulr_suml; apply: eq_bigr=> i Pi.
by rewrite Pi.
Qed.
Lemma measured_bound : (predict_cov kern nk d xp false).1 a 0 * (1 + kk * p) <= kk.
Proof.
have -> : (predict_cov kern nk d xp false).1 a 0 = kk - (k^T *m invmx A *m k) 0 0.
  rewrite predict_cov_any /= mxE schur_ii; congr (_ - _); first by rewrite mxE.
  rewrite mxE exchange_big /=; apply: eq_bigr=> l _; rewrite [X in X * _]mxE mulr_suml; apply: eq_bigr=> i _.
  by rewrite !mxE.
have H s := @linear_predictor _ A k kk SA PA (w s); move: H; move: (_ - _) => S H.
have D : 0 < 1 + kk * p by apply: ltr_paddr; [exact: mulr_ge0|exact: ltr01].
have := H (kk / (1 + kk * p)); rewrite wk wAw; set D1 := 1 + kk * p in D *; move=> L.
have E : kk - (kk / D1 * p * kk + kk / D1 * p * kk) + (kk / D1 * p * (kk / D1 * p) * kk + kk / D1 * (kk / D1) * p) = kk / D1.
  have D0 : D1 != 0 by rewrite gt_eqF.
  have K (t u v : R) : (v = 1 + t * u -> v <> 0 -> t - (t * / v * u * t + t * / v * u * t) + (t * / v * u * (t * / v * u) * t + t * / v * (t * / v) * u) = t * / v)%coqR.
    by move=> -> N; field.
  by rewrite rinvE //; apply: K=> //; exact/eqP.
by rewrite E in L; rewrite -ler_pdivl_mulr.
Qed.
End Point.
