(** Proofs about Model/Observations.v. *)
From Coq Require Import Reals.
From mathcomp Require Import all_ssreflect all_algebra all_fingroup.
From Verif Require Import Proofs.RealMx Model.Likelihood Model.Posterior Model.Observations Spec.ObservationsSpec.
From Verif Require Import Spec.CholSpec Spec.KernelSpec Spec.LikelihoodSpec Spec.PosteriorSpec Proofs.PosDef Proofs.PosteriorP Props.PosteriorProps.
Set Implicit Arguments.
Unset Strict Implicit.
Unset Printing Implicit Defensive.
Import Order.TTheory GRing.Theory Num.Theory.
Local Open Scope ring_scope.

Lemma frob n c (A B : 'M[R]_(n, c)) : \sum_i \sum_j A i j * B i j = \tr (A^T *m B).
Proof. by rewrite exchange_big /=; apply: eq_bigr=> j _; rewrite [RHS]mxE; apply: eq_bigr=> i _; rewrite mxE. Qed.
Lemma loglikE X (kern : X -> X -> R) (mk : mean_arg X) (nk : noise_arg X) n c (d : obs X n c) :
  loglik kern mk nk d = (- (1 / 2%:R) * (\tr ((\matrix_(i, j) (o_y d i j - mean_at mk d (o_x d i)))^T *m KVinvYp kern (mean_at mk d) (o_x d) (o_y d) (V nk d)) / c%:R
    + ln (\det (KVmx kern (o_x d) (V nk d))) + n%:R * ln (2%:R * PI)%R))%R.
Proof.
have E : y_mean (whole_model kern mk nk d) (o_y d) 0 = \matrix_(i, j) (o_y d i j - mean_at mk d (o_x d i)) by apply/matrixP=> i j; rewrite !mxE.
by rewrite /loglik /log_likelihood frob E /KVinvY E.
Qed.

(** ** Reordering *)
Section Reorder.
Variables (X : Type) (kern : X -> X -> R) (mk : mean_arg X) (nk : noise_arg X) (n c : nat) (s : 'S_n) (d : obs X n c).
Let d' := reordered s d.
Lemma np_mean_perm (f : R -> R) : np_mean (map_mx f (o_y d')) = np_mean (map_mx f (o_y d)).
Proof.
rewrite /np_mean; congr (_ / _)%R; rewrite [RHS](reindex_inj (@perm_inj _ s)) /=.
by apply: eq_bigr=> i _; apply: eq_bigr=> j _; rewrite !mxE.
Qed.
Lemma np_mean_id m k (y : 'M[R]_(m, k)) : np_mean y = np_mean (map_mx id y).
Proof. by rewrite /np_mean; congr (_ / _)%R; apply: eq_bigr=> i _; apply: eq_bigr=> j _; rewrite mxE. Qed.
Lemma mean_at_perm : mean_at mk d' =1 mean_at mk d.
Proof. by move=> x; rewrite /mean_at; case: mk=> // ; rewrite np_mean_id np_mean_perm -np_mean_id. Qed.
Lemma V_perm : noise_mx (V nk d') = row_perm s (col_perm s (noise_mx (V nk d))).
Proof.
rewrite /V /noise_for; case: nk=> [||v] /=; apply/matrixP=> i j; rewrite !mxE (inj_eq (@perm_inj _ s)).
- by rewrite np_mean_perm.
- rewrite !eqxx; have E (k : 'I_n) : insub (nat_of_ord k) = Some k :> option 'I_n by exact: valK.
  by rewrite !E !mxE.
- by [].
Qed.
Lemma KV_perm : KVmx kern (o_x d') (V nk d') = row_perm s (col_perm s (KVmx kern (o_x d) (V nk d))).
Proof.
rewrite /KVmx V_perm; apply/matrixP=> i j; rewrite [LHS]mxE [RHS]mxE [RHS]mxE [RHS]mxE; congr (_ + _).
  by rewrite !mxE.
by rewrite !mxE.
Qed.
Lemma perm2E (A : 'M[R]_n) : row_perm s (col_perm s A) = perm_mx s *m A *m (perm_mx s)^T.
Proof. by rewrite row_permE col_permE tr_perm_mx mulmxA. Qed.
Lemma inv_perm2 (A : 'M[R]_n) : invmx (row_perm s (col_perm s A)) = row_perm s (col_perm s (invmx A)).
Proof.
rewrite !perm2E; set P := perm_mx s; have PP : P *m P^T = 1%:M by rewrite /P tr_perm_mx -perm_mxM mulgV perm_mx1.
have PP' : P^T *m P = 1%:M by rewrite /P tr_perm_mx -perm_mxM mulVg perm_mx1.
have UP : P \in unitmx by exact: unitmx_perm.
have UT : P^T \in unitmx by rewrite unitmx_tr.
case: (boolP (A \in unitmx))=> U; last first.
  have N : P *m A *m P^T \notin unitmx by rewrite !unitmx_mul UP UT andbT.
  by rewrite !invmx_out.
have UA : P *m A *m P^T \in unitmx by rewrite !unitmx_mul UP UT U.
have E : (P *m A *m P^T) *m (P *m invmx A *m P^T) = 1%:M.
  by rewrite !mulmxA -(mulmxA _ P^T P) PP' mulmx1 -(mulmxA _ A) mulmxV // mulmx1.
by rewrite -[LHS]mulmx1 -E mulKmx.
Qed.
Let P : 'M[R]_n := perm_mx s.
Let PP' : P^T *m P = 1%:M.
Proof. by rewrite /P tr_perm_mx -perm_mxM mulVg perm_mx1. Qed.
Let PP : P *m P^T = 1%:M.
Proof. by rewrite /P tr_perm_mx -perm_mxM mulgV perm_mx1. Qed.
Lemma kmat_perm q (xp : 'I_q -> X) : kmat kern (o_x d') xp = P *m kmat kern (o_x d) xp.
Proof. by rewrite -row_permE; apply/matrixP=> i j; rewrite !mxE. Qed.
Lemma product_perm q (k : 'M[R]_(n, q)) :
  (P *m k)^T *m invmx (KVmx kern (o_x d') (V nk d')) *m (P *m k) = k^T *m invmx (KVmx kern (o_x d) (V nk d)) *m k.
Proof.
rewrite KV_perm inv_perm2 perm2E -/P trmx_mul !mulmxA -(mulmxA _ P^T P) PP' mulmx1.
by rewrite -(mulmxA _ P^T P) PP' mulmx1.
Qed.
Lemma resid_perm : (\matrix_(i, j) (o_y d' i j - mean_at mk d' (o_x d' i))) = P *m (\matrix_(i, j) (o_y d i j - mean_at mk d (o_x d i))).
Proof. by rewrite -row_permE; apply/matrixP=> i j; rewrite !mxE mean_at_perm. Qed.
Lemma KVinvY_perm : KVinvYp kern (mean_at mk d') (o_x d') (o_y d') (V nk d') = P *m KVinvYp kern (mean_at mk d) (o_x d) (o_y d) (V nk d).
Proof. by rewrite /KVinvYp resid_perm KV_perm inv_perm2 perm2E -/P -!mulmxA (mulmxA P^T P) PP' mul1mx. Qed.
Lemma predict_mean_perm q (xp : 'I_q -> X) : predict_mean kern mk nk d' xp = predict_mean kern mk nk d xp.
Proof.
rewrite /predict_mean /posterior_mean KVinvY_perm kmat_perm; apply/matrixP=> i j; rewrite [LHS]mxE [RHS]mxE mean_at_perm.
by rewrite trmx_mul -mulmxA (mulmxA P^T P) PP' mul1mx.
Qed.
Lemma noise_for_perm q (xp : 'I_q -> X) : (nk = MeasuredNoise -> q != n) -> noise_for nk d' xp = noise_for nk d xp.
Proof.
rewrite /noise_for; case: nk=> [_|/(_ erefl) N|v _] //; first by rewrite np_mean_perm.
rewrite /measured_noise_function; congr NDiag; apply/colP=> i; rewrite !mxE (negbTE N); congr (_ / _).
by rewrite [RHS](reindex_inj (@perm_inj _ s)) /=; apply: eq_bigr=> j _; rewrite !mxE.
Qed.
Lemma predict_cov_perm q (xp : 'I_q -> X) (noisy : bool) : (noisy -> nk = MeasuredNoise -> q != n) -> predict_cov kern nk d' xp noisy = predict_cov kern nk d xp noisy.
Proof.
move=> N; rewrite /predict_cov /posterior_covariance kmat_perm product_perm.
case: noisy N=> [|_] //= N; rewrite /add_noise noise_for_perm //; exact: N.
Qed.
Lemma det_perm2 (A : 'M[R]_n) : \det (row_perm s (col_perm s A)) = \det A.
Proof. by rewrite perm2E -/P !det_mulmx mulrAC -det_mulmx PP det1 mul1r. Qed.
Lemma loglik_perm : loglik kern mk nk d' = loglik kern mk nk d.
Proof.
rewrite !loglikE resid_perm KVinvY_perm KV_perm det_perm2; congr (_ * (\tr _ / _ + _ + _))%R.
by rewrite trmx_mul -mulmxA (mulmxA P^T P) PP' mul1mx.
Qed.
End Reorder.

(** ** Moving the origin *)
Section Move.
Variables (X : Type) (kern : X -> X -> R) (mk : mean_arg X) (nk : noise_arg X) (n c : nat) (b : R) (d : obs X n.+1 c.+1).
Hypothesis ND : nk <> DefaultNoise.
Let d' := moved b d.
Lemma np_mean_move m k (y : 'M[R]_(m.+1, k.+1)) : np_mean (\matrix_(i, j) (y i j + b)) = np_mean y + b.
Proof.
rewrite /np_mean; set N := (m.+1 * k.+1)%:R.
have N0 : N != 0 :> R by rewrite pnatr_eq0.
have -> : \sum_i \sum_j (\matrix_(i, j) (y i j + b)) i j = \sum_i \sum_j y i j + N * b :> R.
  under eq_bigr do (under eq_bigr do rewrite mxE; rewrite big_split /= sumr_const card_ord).
  by rewrite big_split /= sumr_const card_ord -mulrnA mulnC [N * b]mulrC mulr_natr.
by rewrite mulrDl [N * b]mulrC mulfK.
Qed.
Lemma mean_at_move x : mean_at (shift_mean b mk) d' x = mean_at mk d x + b.
Proof. by rewrite /mean_at /shift_mean; case: mk=> //; exact: np_mean_move. Qed.
Lemma noise_for_move q (xp : 'I_q -> X) : noise_for nk d' xp = noise_for nk d xp.
Proof. by rewrite /noise_for; case: nk ND. Qed.
Lemma V_move : V nk d' = V nk d. Proof. exact: noise_for_move. Qed.
Lemma resid_move : (\matrix_(i, j) (o_y d' i j - mean_at (shift_mean b mk) d' (o_x d' i))) = \matrix_(i, j) (o_y d i j - mean_at mk d (o_x d i)).
Proof. by apply/matrixP=> i j; rewrite !mxE mean_at_move opprD addrACA subrr addr0. Qed.
Lemma predict_mean_move q (xp : 'I_q -> X) i j : predict_mean kern (shift_mean b mk) nk d' xp i j = predict_mean kern mk nk d xp i j + b.
Proof.
rewrite /predict_mean /posterior_mean /KVinvYp resid_move V_move [LHS]mxE [X in _ = X + _]mxE mean_at_move.
by rewrite addrAC.
Qed.
Lemma predict_cov_move q (xp : 'I_q -> X) noisy : predict_cov kern nk d' xp noisy = predict_cov kern nk d xp noisy.
Proof.
rewrite /predict_cov /posterior_covariance V_move.
by case: noisy=> //=; rewrite /add_noise noise_for_move.
Qed.
Lemma loglik_move : loglik kern (shift_mean b mk) nk d' = loglik kern mk nk d.
Proof. by rewrite !loglikE /KVinvYp resid_move V_move. Qed.
End Move.

(** ** Joining *)
Section Join.
Variables (X : Type) (kern : X -> X -> R) (nk : noise_arg X) (n p c : nat) (d : obs X n c) (e : obs X p c).
Hypothesis ND : nk <> DefaultNoise.
Let j := joined d e.
Definition variances m k (f : obs X m k) : 'cV[R]_m := match nk with DefaultNoise => 0 | MeasuredNoise => o_nv f | NoiseFunction v => \col_i v (o_x f i) end.
Lemma V_diag m k (f : obs X m k) : V nk f = NDiag (variances f).
Proof.
rewrite /V /noise_for /variances; case: nk ND=> // _; congr NDiag.
apply/colP=> i; rewrite mxE eqxx; have -> : insub (nat_of_ord i) = Some i :> option 'I_m by exact: valK.
by [].
Qed.
Lemma variances_join : variances j = col_mx (variances d) (variances e).
Proof. by rewrite /variances; case: nk ND=> // v _; apply/colP=> i; rewrite !mxE /=; case: split=> a; rewrite mxE. Qed.
Lemma V_join : noise_mx (V nk j) = block_mx (noise_mx (V nk d)) 0 0 (noise_mx (V nk e)).
Proof. by rewrite !V_diag /= variances_join tr_col_mx diag_mx_row. Qed.
Lemma kmat_join q (xp : 'I_q -> X) : kmat kern (o_x j) xp = col_mx (kmat kern (o_x d) xp) (kmat kern (o_x e) xp).
Proof. by apply/matrixP=> a b; rewrite !mxE /=; case: split=> a'; rewrite mxE. Qed.
Lemma K_join : kmat kern (o_x j) (o_x j) =
  block_mx (kmat kern (o_x d) (o_x d)) (kmat kern (o_x d) (o_x e)) (kmat kern (o_x e) (o_x d)) (kmat kern (o_x e) (o_x e)).
Proof.
rewrite kmat_join /block_mx; congr col_mx; apply/matrixP=> a b; rewrite !mxE /=; case: split=> b'; by rewrite mxE.
Qed.
Hypothesis Vk : valid_covariance kern.
Let A := KVmx kern (o_x d) (V nk d).
Let b := kmat kern (o_x d) (o_x e).
Let dd := KVmx kern (o_x e) (V nk e).
Lemma KV_join : KVmx kern (o_x j) (V nk j) = block_mx A b b^T dd.
Proof.
rewrite /KVmx /Kmx V_join K_join add_block_mx !addr0; congr block_mx.
exact/esym/(gram_sym (o_x d) (o_x e) Vk).
Qed.
Definition positive m k (f : obs X m k) := forall i, 0 < noise_mx (V nk f) i i.
Hypothesis (Pd : positive d) (Pe : positive e).
Lemma noise_sym m k (f : obs X m k) : (noise_mx (V nk f))^T = noise_mx (V nk f).
Proof. by rewrite V_diag /= tr_diag_mx. Qed.
Lemma noise_pd m k (f : obs X m k) : positive f -> posdef (noise_mx (V nk f)).
Proof. by rewrite /positive V_diag /= => P; apply: posdef_diagmx=> i; have := P i; rewrite !mxE eqxx mulr1n. Qed.
Lemma positive_join : positive j.
Proof. by move=> i; rewrite V_join; case: (split_ordP i)=> k ->; rewrite ?block_mxEul ?block_mxEdr. Qed.
Let SA : A^T = A. Proof. exact: KV_sym Vk (noise_sym d). Qed.
Let PA : posdef A. Proof. exact: KV_pd Vk (noise_pd Pd). Qed.
Let dA : 0 < \det A. Proof. exact: posdef_det. Qed.
Let UA : A \in unitmx. Proof. exact: posdef_unit. Qed.
Let S2 := dd - b^T *m invmx A *m b.
Let PJ : posdef (block_mx A b b^T dd).
Proof. rewrite -KV_join; exact: KV_pd Vk (noise_pd positive_join). Qed.
Let SS2 : S2^T = S2.
Proof.
rewrite [LHS]raddfB /= !trmx_mul trmxK trmx_inv SA mulmxA; congr (_ - _); exact: KV_sym Vk (noise_sym e).
Qed.
Let PS2 : posdef S2. Proof. exact: schur_posdef. Qed.
Let dS2 : 0 < \det S2. Proof. exact: posdef_det. Qed.
Lemma predict_covE m k (f : obs X m k) q (xp : 'I_q -> X) : positive f ->
  let S := schur kern (o_x f) (V nk f) xp in predict_cov kern nk f xp false = (\col_i S i i, Some S).
Proof.
move=> P S; rewrite /predict_cov (@posterior_covariance_exact _ _ _ _ (V nk f)) //; first last.
- by left.
- exact: noise_pd.
- exact: noise_sym.
have -> : gram kern xp xp - gram kern xp (o_x f) *m invmx (gram kern (o_x f) (o_x f) + noise_mx (V nk f)) *m gram kern (o_x f) xp = S.
  by rewrite /S /schur -(gram_sym (o_x f) xp Vk).
by [].
Qed.
Lemma cov_join_le q (xp : 'I_q -> X) : psd (schur kern (o_x d) (V nk d) xp - schur kern (o_x j) (V nk j) xp).
Proof.
move=> w; rewrite /schur -/A KV_join kmat_join; set k1 := kmat kern (o_x d) xp; set k2 := kmat kern (o_x e) xp.
set kk := kmat kern xp xp; set Q := (_ *m k1 : 'M_q); set QJ := (_ *m col_mx k1 k2 : 'M_q).
have -> : kk - Q - (kk - QJ) = - Q + QJ by rewrite opprB [LHS]addrC addrA subrK addrC.
rewrite /Q /QJ.
have -> : w^T *m (- (k1^T *m invmx A *m k1) + (col_mx k1 k2)^T *m invmx (block_mx A b b^T dd) *m col_mx k1 k2) *m w
  = (k2 *m w - b^T *m invmx A *m (k1 *m w))^T *m invmx S2 *m (k2 *m w - b^T *m invmx A *m (k1 *m w)).
  have := @quad_cond _ _ A b dd SA dA dS2 (k1 *m w) (k2 *m w); rewrite -mul_col_mx => E.
  have {E} E : w^T *m ((col_mx k1 k2)^T *m invmx (block_mx A b b^T dd) *m col_mx k1 k2) *m w = 
    w^T *m (k1^T *m invmx A *m k1) *m w + (k2 *m w - b^T *m invmx A *m (k1 *m w))^T *m invmx S2 *m (k2 *m w - b^T *m invmx A *m (k1 *m w)).
    have T m (K : 'M[R]_(m, q)) M : w^T *m (K^T *m M *m K) *m w = (K *m w)^T *m M *m (K *m w) by rewrite trmx_mul !mulmxA.
    by rewrite !T E.
  by rewrite [w^T *m _]mulmxDr [LHS]mulmxDl E mulmxN mulNmx addKr.
by apply: posdef_psd; exact: posdef_inv.
Qed.
End Join.

(** ** Two batches *)
Section Chain.
Variables (X : Type) (kern : X -> X -> R) (m : X -> R) (nk : noise_arg X) (n p : nat) (d : obs X n 1) (e : obs X p 1).
Let mk : mean_arg X := GivenMean m.
Hypothesis ND : nk <> DefaultNoise.
Lemma loglik_gauss mk' nk' k (f : obs X k 1) :
  loglik kern mk' nk' f = log_gauss (o_y f) (mean_vec (mean_at mk' f) (o_x f)) (KVmx kern (o_x f) (V nk' f)).
Proof.
have E : \matrix_(i, j) (o_y f i j - mean_at mk' f (o_x f i)) = o_y f - mean_vec (mean_at mk' f) (o_x f).
  by apply/matrixP=> i j; rewrite !mxE.
rewrite loglikE /log_gauss /neg_log_gauss /KVinvYp !E divr1 mulmxA /mxtrace big_ord1.
by rewrite mulNr.
Qed.
Hypothesis Vk : valid_covariance kern.
Hypothesis (Pd : positive nk d) (Pe : positive nk e).
Lemma mean_at_given k c (f : obs X k c) : mean_at mk f = m. Proof. by []. Qed.
Lemma chain :
  loglik kern mk nk (joined d e) = loglik kern mk nk d
    + log_gauss (o_y e) (predict_mean kern mk nk d (o_x e)) (schur kern (o_x d) (V nk d) (o_x e) + noise_mx (V nk e)).
Proof.
rewrite !loglik_gauss !mean_at_given (KV_join d e ND Vk).
set A := KVmx _ _ _; set b := kmat _ _ _; set dd := KVmx kern (o_x e) _.
have SA : A^T = A by exact: KV_sym Vk (noise_sym ND d).
have PA : posdef A by exact: KV_pd Vk (noise_pd ND Pd).
have PJ : posdef (block_mx A b b^T dd) by rewrite -(KV_join d e ND Vk); exact: KV_pd Vk (noise_pd ND (positive_join ND Pd Pe)).
have ES : schur kern (o_x d) (V nk d) (o_x e) + noise_mx (V nk e) = dd - b^T *m invmx A *m b by rewrite /schur /dd /KVmx /Kmx addrAC.
have UA : A \in unitmx by exact: posdef_unit.
have PS : posdef (dd - b^T *m invmx A *m b) by exact: schur_posdef.
have SS : (dd - b^T *m invmx A *m b)^T = dd - b^T *m invmx A *m b.
  by rewrite [LHS]raddfB /= !trmx_mul trmxK trmx_inv SA mulmxA; congr (_ - _); exact: KV_sym Vk (noise_sym ND e).
have EM : mean_vec m (o_x (joined d e)) = col_mx (mean_vec m (o_x d)) (mean_vec m (o_x e)).
  by apply/colP=> i; rewrite !mxE /=; case: split=> a; rewrite mxE.
rewrite EM ES (@log_gauss_cond _ _ A b dd SA (posdef_det SA PA) (posdef_det SS PS)); congr (_ + log_gauss _ _ _).
rewrite /predict_mean /posterior_mean; apply/matrixP=> i j; rewrite [LHS]mxE [RHS]mxE mean_at_given mxE; congr (_ + (_ *m (_ *m _)) _ _).
by apply/matrixP=> a a'; rewrite !mxE (ord1 a').
Qed.
End Chain.

(** ** Outputs *)
Lemma col_mulx a b c (A : 'M[R]_(a, b)) (B : 'M[R]_(b, c)) k : col k (A *m B) = A *m col k B.
Proof. by rewrite !colE mulmxA. Qed.
Section Output.
Variables (X : Type) (kern : X -> X -> R) (m : X -> R) (nk : noise_arg X) (n c : nat) (d : obs X n c).
Hypothesis ND : nk <> DefaultNoise.
Let mk : mean_arg X := GivenMean m.
Lemma V_output k : V nk (output k d) = V nk d.
Proof. by rewrite /V /noise_for; case: nk ND. Qed.
Lemma noise_output q (xp : 'I_q -> X) k : noise_for nk (output k d) xp = noise_for nk d xp.
Proof. by rewrite /noise_for; case: nk ND. Qed.
Lemma KVinvY_output k : KVinvYp kern m (o_x d) (col k (o_y d)) (V nk d) = col k (KVinvYp kern m (o_x d) (o_y d) (V nk d)).
Proof. by rewrite /KVinvYp [RHS]col_mulx; congr (_ *m _); apply/matrixP=> i j; rewrite !mxE. Qed.
Lemma predict_mean_output q (xp : 'I_q -> X) k : predict_mean kern mk nk (output k d) xp = col k (predict_mean kern mk nk d xp).
Proof.
rewrite /predict_mean /posterior_mean V_output /= -/mk.
have -> : mean_at mk (output k d) = m by []. have -> : mean_at mk d = m by [].
by rewrite KVinvY_output -col_mulx; apply/matrixP=> i j; rewrite [LHS]mxE [RHS]mxE [X in _ = X]mxE [X in _ + X = _]mxE.
Qed.
Lemma predict_cov_output q (xp : 'I_q -> X) k noisy : predict_cov kern nk (output k d) xp noisy = predict_cov kern nk d xp noisy.
Proof.
rewrite /predict_cov /posterior_covariance V_output.
by case: noisy=> //=; rewrite /add_noise noise_output.
Qed.
Lemma loglik_output : (0 < c)%N -> loglik kern mk nk d = (\sum_k loglik kern mk nk (output k d)) / c%:R.
Proof.
move=> c0; have C0 : c%:R != 0 :> R by rewrite pnatr_eq0 -lt0n.
rewrite loglikE; set l := ln (\det _); set z := (n%:R * _)%R.
have E k : loglik kern mk nk (output k d) = - (1 / 2%:R) * (((\matrix_(i, j) (o_y d i j - m (o_x d i)))^T *m KVinvYp kern m (o_x d) (o_y d) (V nk d)) k k + l + z).
  rewrite loglikE V_output divr1 KVinvY_output; congr (_ * (_ + _ + _)).
  rewrite /mxtrace big_ord1 mxE [RHS]mxE; apply: eq_bigr=> i _; by rewrite !mxE.
rewrite (eq_bigr _ (fun k _ => E k)) -mulr_sumr -[RHS]mulrA; congr (_ * _).
rewrite !big_split /= !sumr_const card_ord -/(mxtrace _) !mulrDl.
have K (a : R) : a *+ c / c%:R = a by rewrite -[a *+ c]mulr_natr mulfK.
by rewrite !K.
Qed.
End Output.

(** ** Changing the unit *)
Section Unit.
Variables (X : Type) (kern : X -> X -> R) (mk : mean_arg X) (nk : noise_arg X) (n c : nat) (a : R) (d : obs X n c).
Hypothesis a0 : a != 0.
Let a2 : 0 < a ^+ 2. Proof. by rewrite lt_def sqrf_eq0 a0 sqr_ge0. Qed.
Let d' := rescaled a d.
Let kern' x y := a ^+ 2 * kern x y.
Let mk' := scale_mean a mk.
Let nk' := scale_noise a nk.
Lemma np_mean_scale m k (b : R) (f : R -> R) (y : 'M[R]_(m, k)) (g : R -> R) : (forall i j, f (a * y i j) = b * g (y i j)) ->
  np_mean (map_mx f (\matrix_(i, j) (a * y i j))) = b * np_mean (map_mx g y).
Proof.
move=> E; rewrite /np_mean mulrA; congr (_ / _); rewrite mulr_sumr; apply: eq_bigr=> i _; rewrite mulr_sumr.
by apply: eq_bigr=> j _; rewrite !mxE E.
Qed.
Lemma mean_at_scale x : mean_at mk' d' x = a * mean_at mk d x.
Proof.
rewrite /mean_at /mk' /scale_mean; case: mk=> //=; rewrite np_mean_id [in RHS]np_mean_id.
by apply: np_mean_scale.
Qed.
Lemma sqr_mul (u w : R) : (u * w) ^+ 2 = u ^+ 2 * w ^+ 2. Proof. exact: exprMn. Qed.
Lemma noise_scale q (xp : 'I_q -> X) : noise_mx (noise_for nk' d' xp) = a ^+ 2 *: noise_mx (noise_for nk d xp) /\
  exists v, noise_for nk d xp = NDiag v /\ noise_for nk' d' xp = NDiag (a ^+ 2 *: v).
Proof.
have K : exists v, noise_for nk d xp = NDiag v /\ noise_for nk' d' xp = NDiag (a ^+ 2 *: v).
  rewrite /noise_for /nk' /scale_noise; case: nk=> [||v] /=.
  - eexists; split; first by []; congr NDiag; apply/colP=> i; rewrite !mxE.
    rewrite (@np_mean_scale _ _ (Rabs a) Rabs (o_y d) Rabs); last by move=> *; exact: Rabs_mult.
    rewrite -mulrA sqr_mul; congr (_ * _); rewrite expr2.
    by have := pow2_abs a; rewrite -!Rsqr_pow2.
  - eexists; split; first by []; congr NDiag; apply/colP=> i; rewrite !mxE; case: ifP=> _.
      by case: insubP=> [k _ _|_]; rewrite ?mxE ?mulr0.
    by rewrite mulrA mulr_sumr; congr (_ / _); apply: eq_bigr=> k _; rewrite mxE.
  - by eexists; split; first by []; congr NDiag; apply/colP=> i; rewrite !mxE.
split=> //; case: K=> v [-> ->] /=; by rewrite -linearZ /= linearZ.
Qed.
Let A := KVmx kern (o_x d) (V nk d).
Lemma kmat_scale m k (x1 : 'I_m -> X) (x2 : 'I_k -> X) : kmat kern' x1 x2 = a ^+ 2 *: kmat kern x1 x2.
Proof. by apply/matrixP=> i j; rewrite !mxE. Qed.
Lemma KV_scale : KVmx kern' (o_x d') (V nk' d') = a ^+ 2 *: A.
Proof. by rewrite /KVmx /Kmx kmat_scale (proj1 (noise_scale (o_x d))) -scalerDr. Qed.
Hypothesis UA : A \in unitmx.
Lemma inv_scale : invmx (a ^+ 2 *: A) = (a ^+ 2)^-1 *: invmx A.
Proof. by rewrite invmxZ // unitmxZ // unitfE gt_eqF. Qed.
Lemma resid_scale : (\matrix_(i, j) (o_y d' i j - mean_at mk' d' (o_x d' i))) = a *: (\matrix_(i, j) (o_y d i j - mean_at mk d (o_x d i))).
Proof. by apply/matrixP=> i j; rewrite !mxE mean_at_scale mulrBr. Qed.
Lemma KVinvY_scale : KVinvYp kern' (mean_at mk' d') (o_x d') (o_y d') (V nk' d') = (a / a ^+ 2) *: KVinvYp kern (mean_at mk d) (o_x d) (o_y d) (V nk d).
Proof. by rewrite /KVinvYp resid_scale KV_scale inv_scale -scalemxAl -scalemxAr scalerA mulrC. Qed.
Lemma predict_mean_scale q (xp : 'I_q -> X) : predict_mean kern' mk' nk' d' xp = a *: predict_mean kern mk nk d xp.
Proof.
rewrite /predict_mean /posterior_mean KVinvY_scale kmat_scale; apply/matrixP=> i j; rewrite [LHS]mxE [RHS]mxE [X in _ = _ * X]mxE mean_at_scale mulrDr.
rewrite [(_ *: _)^T]linearZ /= -scalemxAl -scalemxAr scalerA mxE; congr (_ + _ * _).
by rewrite mulrC divfK // gt_eqF.
Qed.
Lemma predict_cov_scale q (xp : 'I_q -> X) noisy : predict_cov kern' nk' d' xp noisy = scale_cov a (predict_cov kern nk d xp noisy).
Proof.
rewrite /predict_cov /posterior_covariance kmat_scale KV_scale inv_scale !kmat_scale.
have -> : a ^+ 2 *: kmat kern xp xp - (a ^+ 2 *: kmat kern (o_x d) xp)^T *m ((a ^+ 2)^-1 *: invmx A) *m (a ^+ 2 *: kmat kern (o_x d) xp)
   = a ^+ 2 *: (kmat kern xp xp - (kmat kern (o_x d) xp)^T *m invmx A *m kmat kern (o_x d) xp).
  rewrite [(_ *: _)^T]linearZ /= -!scalemxAl -!scalemxAr -!scalemxAl !scalerA scalerBr; congr (_ - _ *: _).
  by rewrite -mulrA mulfV ?mulr1 // gt_eqF.
pose T := kmat kern xp xp - (kmat kern (o_x d) xp)^T *m invmx A *m kmat kern (o_x d) xp.
rewrite -/A -/T; have V1 : \col_i (a ^+ 2 *: T) i i = a ^+ 2 *: \col_i T i i :> 'cV_q by apply/colP=> i; rewrite !mxE.
rewrite V1; set v := \col_i T i i.
have N i : ((a ^+ 2 *: v) i 0 < 0) = (v i 0 < 0) by rewrite mxE pmulr_rlt0.
have Ex : [exists i, (a ^+ 2 *: v) i 0 < 0] = [exists i, v i 0 < 0] by apply: eq_existsb=> i; rewrite N.
rewrite Ex.
have K (w : 'cV[R]_q) (M : 'M[R]_q) : (if noisy then add_noise (noise_for nk' d') xp (a ^+ 2 *: w) (Some (a ^+ 2 *: M)) else (a ^+ 2 *: w, Some (a ^+ 2 *: M)))
    = scale_cov a (if noisy then add_noise (noise_for nk d) xp w (Some M) else (w, Some M)).
  case: noisy=> //; rewrite /add_noise; case: (noise_scale xp)=> _ [u [-> ->]]; rewrite /scale_cov /= !scalerDr; congr (_, Some (_ + _)).
  by rewrite -linearZ /= linearZ.
case: ifP=> _; last exact: K.
rewrite -K.
have -> : \col_i (if (a ^+ 2 *: v) i 0 < 0 then 0 else (a ^+ 2 *: v) i 0) = a ^+ 2 *: \col_i (if v i 0 < 0 then 0 else v i 0) :> 'cV_q.
  by apply/colP=> i; rewrite [LHS]mxE N [RHS]mxE [in RHS]mxE; case: ifP=> _; rewrite ?mulr0 // mxE.
have -> // : forall w : 'cV[R]_q, fill_diagonal (a ^+ 2 *: T) (a ^+ 2 *: w) = a ^+ 2 *: fill_diagonal T w.
by move=> w; apply/matrixP=> i j; rewrite [LHS]mxE [RHS]mxE [in RHS]mxE; case: ifP=> _; rewrite mxE.
Qed.
Lemma ln_mulr (u w : R) : 0 < u -> 0 < w -> let t := u * w in ln t = ln u + ln w.
Proof. by move=> u0 w0; apply: ln_mult; apply/RltP. Qed.
Lemma ln_prod (k : nat) (u w : R) : 0 < u -> 0 < w -> let t := u ^+ k * w in ln t = k%:R * ln u + ln w.
Proof.
move=> u0 w0 /=; elim: k=> [|k IH]; first by rewrite expr0 mul1r mul0r add0r.
rewrite exprS -mulrA [LHS]ln_mulr // ?IH ?mulr_gt0 ?exprn_gt0 //.
by rewrite mulrS mulrDl mul1r addrA.
Qed.
Lemma loglik_scale : 0 < \det A -> loglik kern' mk' nk' d' = loglik kern mk nk d - n%:R * ln (Rabs a).
Proof.
move=> dA; rewrite !loglikE resid_scale KVinvY_scale KV_scale detZ ln_prod //.
rewrite [(_ *: _)^T]linearZ /= -scalemxAl -scalemxAr scalerA.
have -> : a * (a / a ^+ 2) = 1 by rewrite mulrA -expr2 mulfV // gt_eqF.
rewrite scale1r -/A; set t := _ / c%:R; set l := ln (\det A).
have -> : ln (a ^+ 2) = 2%:R * ln (Rabs a).
  have -> : a ^+ 2 = Rabs a ^+ 2 by rewrite !expr2; have := pow2_abs a; rewrite -!Rsqr_pow2.
  have p : 0 < Rabs a by apply/RltP; apply: Rabs_pos_lt; apply/eqP.
  have l1 : let t : R := 1 in ln t = 0 by exact: ln_1.
  by have := ln_prod 2 p ltr01; rewrite /= mulr1 [ln 1]l1 addr0.
set z := ln (Rabs a); set w := ln _.
rewrite mulrDr mulrDr [X in _ = X - _]mulrDr [X in _ = X + _ - _]mulrDr mulrDr.
have -> : - (1 / 2%:R) * (n%:R * (2%:R * z)) = - (n%:R * z).
  by rewrite mulrCA [_ * (2%:R * z)]mulrA mulNr -mulrA mulVf ?pnatr_eq0 // mulr1 mulN1r mulrN.
by rewrite addrA -!addrA; congr (_ + _); rewrite addrC -!addrA; congr (_ + _); rewrite addrC.
Qed.
End Unit.
