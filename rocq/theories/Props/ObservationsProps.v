(** What a posterior does when the observations are reordered, moved, rescaled, added to or split: C180-C184. *)
From Coq Require Import Reals Lra.
From mathcomp Require Import all_ssreflect all_algebra all_fingroup.
From Verif Require Import Proofs.RealMx Model.Likelihood Model.Posterior Model.Observations Spec.ObservationsSpec.
From Verif Require Import Spec.CholSpec Spec.KernelSpec Spec.LikelihoodSpec Spec.PosteriorSpec Proofs.PosDef Proofs.PosteriorP Proofs.ObservationsP.
From Verif Require Import Props.PosteriorProps.
Set Implicit Arguments.
Unset Strict Implicit.
Unset Printing Implicit Defensive.
Import Order.TTheory GRing.Theory Num.Theory.
Local Open Scope ring_scope.

(** C180: the likelihood, the mean and the covariance do not depend on the order of the observations; the covariance
    with noise only if the noise is not read off the stored variances by position *)
Theorem order_of_observations_partial : forall X (kern : X -> X -> R) (mk : mean_arg X) (nk : noise_arg X) n c (s : 'S_n) (d : obs X n c),
  loglik kern mk nk (reordered s d) = loglik kern mk nk d /\
  (forall q (xp : 'I_q -> X), predict_mean kern mk nk (reordered s d) xp = predict_mean kern mk nk d xp) /\
  (forall q (xp : 'I_q -> X) (noisy : bool), (noisy -> nk = MeasuredNoise -> q != n) ->
     predict_cov kern nk (reordered s d) xp noisy = predict_cov kern nk d xp noisy).
Proof.
move=> X kern mk nk n c s d; split; first exact: loglik_perm.
by split=> [q xp|q xp noisy H]; [exact: predict_mean_perm|exact: predict_cov_perm].
Qed.
Print Assumptions order_of_observations_partial.

(** the stored variances are added to as many points, whatever they are, in the order of the data: at the very same
    points the reported variance changes by the difference of the variances that traded places *)
Lemma noisy_by_position X (kern : X -> X -> R) n c (d : obs X n c) (xp : 'I_n -> X) i :
  (predict_cov kern MeasuredNoise d xp true).1 i 0 = (predict_cov kern MeasuredNoise d xp false).1 i 0 + o_nv d i 0.
Proof.
rewrite /predict_cov /posterior_covariance; set g := if [exists i, _] then _ else _; case: g=> v Sg /=.
rewrite !mxE eqxx; have -> : insub (nat_of_ord i) = Some i :> option 'I_n by exact: valK.
by [].
Qed.
Theorem order_of_observations_refuted : forall X (kern : X -> X -> R) n c (s : 'S_n) (d : obs X n c) (xp : 'I_n -> X) i,
  o_nv d (s i) 0 != o_nv d i 0 ->
  (predict_cov kern MeasuredNoise (reordered s d) xp true).1 i 0 - (predict_cov kern MeasuredNoise d xp true).1 i 0
    = o_nv d (s i) 0 - o_nv d i 0 /\
  predict_cov kern MeasuredNoise (reordered s d) xp true <> predict_cov kern MeasuredNoise d xp true.
Proof.
move=> X kern n c s d xp i N.
have E : (predict_cov kern MeasuredNoise (reordered s d) xp true).1 i 0 - (predict_cov kern MeasuredNoise d xp true).1 i 0
    = o_nv d (s i) 0 - o_nv d i 0.
  by rewrite !noisy_by_position predict_cov_perm // [o_nv (reordered s d) i 0]mxE opprD addrACA subrr add0r.
split=> // H; move: E; rewrite H subrr => /esym/eqP; rewrite subr_eq0; exact/negP.
Qed.
Print Assumptions order_of_observations_refuted.

(** example: two observations of variance 1 and 2 in the other order; predicted at the two points themselves, the
    reported variance of the first goes up by 1 *)
Definition two : obs R 2 1 := Obs (fun i => if i == 0 then 0 else 1) 0 (\col_i (if i == 0 then 1 else 2%:R)).
Example order_of_observations_ex : forall kern,
  let v d := (predict_cov kern MeasuredNoise d (o_x two) true).1 0 0 in v (reordered (tperm 0 1) two) - v two = 1 /\
  forall mk q (xp : 'I_q -> R), predict_mean kern mk MeasuredNoise (reordered (tperm 0 1) two) xp = predict_mean kern mk MeasuredNoise two xp.
Proof.
move=> kern; split; last by move=> mk q xp; exact: (order_of_observations_partial kern mk MeasuredNoise (tperm 0 1) two).2.1.
have [|-> _] := @order_of_observations_refuted _ kern _ _ (tperm 0 1) two (o_x two) 0; rewrite tpermL /= !mxE /=.
  by rewrite pnatr_eq1.
by rewrite mulr2n addrK.
Qed.

(** C181: the origin of the values; the mean function moves along, the noise is not the default *)
Theorem origin_and_unit_partial :
  (forall X (kern : X -> X -> R) (mk : mean_arg X) (nk : noise_arg X) n c b (d : obs X n.+1 c.+1), nk <> DefaultNoise ->
     let mk' := shift_mean b mk in let d' := moved b d in
     loglik kern mk' nk d' = loglik kern mk nk d /\
     (forall q (xp : 'I_q -> X) i j, predict_mean kern mk' nk d' xp i j = predict_mean kern mk nk d xp i j + b) /\
     (forall q (xp : 'I_q -> X) noisy, predict_cov kern nk d' xp noisy = predict_cov kern nk d xp noisy)) /\
  (** and the unit, kernel, mean and noise functions converted or left to the default *)
  (forall X (kern : X -> X -> R) (mk : mean_arg X) (nk : noise_arg X) n c a (d : obs X n c), a != 0 -> valid_covariance kern ->
     (forall i, 0 < noise_mx (V nk d) i i) ->
     let kern' x y := a ^+ 2 * kern x y in let mk' := scale_mean a mk in let nk' := scale_noise a nk in let d' := rescaled a d in
     loglik kern' mk' nk' d' = loglik kern mk nk d - n%:R * ln (Rabs a) /\
     (forall q (xp : 'I_q -> X), predict_mean kern' mk' nk' d' xp = a *: predict_mean kern mk nk d xp) /\
     (forall q (xp : 'I_q -> X) noisy, predict_cov kern' nk' d' xp noisy = scale_cov a (predict_cov kern nk d xp noisy))).
Proof.
split=> [X kern mk nk n c b d ND mk' d'|X kern mk nk n c a d a0 Vk P].
  split; first exact: loglik_move.
  by split=> [q xp i j|q xp noisy]; [exact: predict_mean_move|exact: predict_cov_move].
have [v EV] : exists v, V nk d = NDiag v by rewrite /V /noise_for; case: (nk)=> [||v]; eexists.
have PV : posdef (noise_mx (V nk d)).
  by move: P; rewrite EV /= => P; apply: posdef_diagmx=> i; have := P i; rewrite !mxE eqxx mulr1n.
have SV : (noise_mx (V nk d))^T = noise_mx (V nk d) by rewrite EV /= tr_diag_mx.
have PA : posdef (KVmx kern (o_x d) (V nk d)) by exact: KV_pd Vk PV.
have SA : (KVmx kern (o_x d) (V nk d))^T = KVmx kern (o_x d) (V nk d) by exact: KV_sym Vk SV.
split; first by apply: loglik_scale=> //; [exact: posdef_unit|exact: posdef_det].
by split=> [q xp|q xp noisy]; [apply: predict_mean_scale=> //|apply: predict_cov_scale=> //]; exact: posdef_unit.
Qed.
Print Assumptions origin_and_unit_partial.

(** ** one observation at 1 of a function a x, with the default noise *)
Definition rms n c (d : obs R n c) : R := (np_mean (map_mx Rabs (o_y d)) / 100%:R) ^+ 2.
Lemma default_noise kern n c (d : obs R n c) q (xp : 'I_q -> R) noisy :
  predict_cov kern DefaultNoise d xp noisy = predict_cov kern (NoiseFunction (fun _ => rms d)) d xp noisy.
Proof.
have E q' (x : 'I_q' -> R) : noise_for DefaultNoise d x = noise_for (NoiseFunction (fun _ => rms d)) d x.
  by rewrite /noise_for; congr NDiag; apply/colP=> i; rewrite !mxE.
by rewrite /predict_cov /posterior_covariance /V E; case: noisy=> //; rewrite /add_noise E.
Qed.
Lemma frac_ge0 (s : R) : 0 <= s -> 1 - 1 / (1 + s) = s / (1 + s) /\ 0 <= s / (1 + s).
Proof.
move=> s0; have p : 0 < 1 + s by apply: ltr_paddr => //; exact: ltr01.
by rewrite divr_ge0 // ?ltW //; split=> //; rewrite -[X in X - _](@divff _ (1 + s)) ?gt_eqF // -mulrBl addrC addKr.
Qed.
Lemma one_observation c (d : obs R 1 c) : o_x d 0 = 1 -> (predict_cov lin DefaultNoise d at1 false).1 0 0 = rms d / (1 + rms d).
Proof.
move=> x1; rewrite default_noise; set s := rms d; have s0 : 0 <= s by exact: sqr_ge0.
have p : 0 < 1 + s by apply: ltr_paddr => //; exact: ltr01.
have [E G] := frac_ge0 s0.
have KVE : KVmx lin (o_x d) (V (NoiseFunction (fun _ => s)) d) = (1 + s)%:M.
  by apply/matrixP=> i j; rewrite !ord1 !mxE x1 eqxx !mulr1n /lin Rmult_1_r.
have kE : kmat lin (o_x d) at1 = 1%:M by apply/matrixP=> i j; rewrite !ord1 !mxE x1 eqxx !mulr1n /lin Rmult_1_r.
have kkE : kmat lin at1 at1 = 1%:M by apply/matrixP=> i j; rewrite !ord1 !mxE eqxx !mulr1n /lin Rmult_1_r.
rewrite /predict_cov /posterior_covariance KVE kE kkE trmx1 mul1mx mulmx1 invmx_scalar ?gt_eqF //.
have -> : \col_i (1%:M - (1 + s)^-1%:M : 'M[R]_1) i i = (s / (1 + s))%:M :> 'cV_1.
  by apply/colP=> i; rewrite !ord1 !mxE eqxx !mulr1n -E mul1r.
case: existsP=> [[i]|_]; last by rewrite mxE.
by rewrite ord1 mxE eqxx mulr1n ltNge G.
Qed.
Lemma abs_nat k : Rabs (k%:R : R) = k%:R.
Proof. by apply: Rabs_pos_eq; apply/RleP; exact: ler0n. Qed.
Lemma rms1 n c (d : obs R n.+1 c.+1) (f : 'I_n.+1 -> 'I_c.+1 -> nat) : (forall i j, o_y d i j = (f i j)%:R) ->
  (\sum_i \sum_j f i j = 100 * (n.+1 * c.+1))%N -> rms d = 1.
Proof.
move=> E S; rewrite /rms /np_mean.
have -> : \sum_i \sum_j map_mx Rabs (o_y d) i j = (\sum_i \sum_j f i j)%N%:R.
  rewrite natr_sum; apply: eq_bigr=> i _; rewrite natr_sum; apply: eq_bigr=> j _; by rewrite mxE E abs_nat.
have Z : (n.+1 * c.+1)%N%:R != 0 :> R by rewrite pnatr_eq0 muln_eq0.
have H : 100%:R != 0 :> R by rewrite pnatr_eq0.
by rewrite S natrM mulfK // divff // expr1n.
Qed.
Lemma half1 : (1 / (1 + 1) : R) = 2%:R^-1. Proof. by rewrite mul1r -mulr2n. Qed.
(** one observation with the values y *)
Definition one c (y : 'I_c -> nat) : obs R 1 c := Obs at1 (\matrix_(i, j) (y j)%:R) 0.
Lemma rms_one k : rms (one (fun _ : 'I_1 => k)) = (k%:R / 100%:R) ^+ 2.
Proof. by rewrite /rms /np_mean !big_ord1 !mxE abs_nat divr1. Qed.

(** C181 refuted: the default noise variance is (mean|y|/100)^2; a value 0 is taken as exact, the same value written as
    100 from another origin as half as uncertain as the prior *)
Theorem origin_and_unit_refuted : exists d : obs R 1 1,
  let v d := (predict_cov lin DefaultNoise d at1 false).1 0 0 in v d = 0 /\ v (moved 100%:R d) = 2%:R^-1.
Proof.
exists (one (fun=> 0%N)); split; rewrite one_observation //; first by rewrite rms_one mul0r expr0n mul0r.
rewrite (@rms1 _ _ _ (fun _ _ => 100%N)) ?half1 // => [i j|]; first by rewrite !mxE add0r.
by rewrite !big_ord1.
Qed.
Print Assumptions origin_and_unit_refuted.
(** example: both of the above are about the same prior, with a noise function the numbers agree *)
Example origin_and_unit_ex : forall b v, let nk := NoiseFunction v in let d := one (fun _ : 'I_1 => 0%N) in
  predict_cov lin nk (moved b d) at1 true = predict_cov lin nk d at1 true /\
  forall i j, predict_mean lin DefaultMean nk (moved b d) at1 i j = predict_mean lin DefaultMean nk d at1 i j + b.
Proof.
move=> b v nk d; have ND : nk <> DefaultNoise by [].
have [_ [M C]] := origin_and_unit_partial.1 R lin DefaultMean nk _ _ b d ND.
by split=> [|i j]; [exact: C|exact: M].
Qed.

(** C182: with more observations every posterior variance is at most what it was, and the covariance matrix falls in
    the order of the positive semi-definite matrices *)
Theorem more_data_less_variance_partial : forall X (kern : X -> X -> R) (nk : noise_arg X) n p c (d : obs X n c) (e : obs X p c),
  nk <> DefaultNoise -> valid_covariance kern ->
  (forall i, 0 < noise_mx (V nk d) i i) -> (forall i, 0 < noise_mx (V nk e) i i) -> forall q (xp : 'I_q -> X),
  exists S S' : 'M[R]_q, predict_cov kern nk d xp false = (\col_i S i i, Some S) /\
    predict_cov kern nk (joined d e) xp false = (\col_i S' i i, Some S') /\
    psd (S - S') /\ forall i, S' i i <= S i i.
Proof.
move=> X kern nk n p c d e ND Vk Pd Pe q xp; exists (schur kern (o_x d) (V nk d) xp).
exists (schur kern (o_x (joined d e)) (V nk (joined d e)) xp).
have L := @cov_join_le _ kern _ _ _ _ d e ND Vk Pd Pe q xp.
split; first exact: predict_covE. split; first exact/predict_covE/positive_join.
split=> // i; have := psd_diag i L; rewrite [X in _ <= X]mxE [X in _ + X]mxE subr_ge0; exact.
Qed.
Print Assumptions more_data_less_variance_partial.

(** C182 refuted: with the default noise a large value elsewhere makes the observation near the point less certain *)
Lemma two_observations (d e : obs R 1 1) : o_x d 0 = 1 -> o_x e 0 = 0 -> 0 < rms (joined d e) ->
  (predict_cov lin DefaultNoise (joined d e) at1 false).1 0 0 = rms (joined d e) / (1 + rms (joined d e)).
Proof.
move=> x1 x0; rewrite default_noise; set s := rms _; move=> s0.
have p : 0 < 1 + s by apply: ltr_paddr; [exact: ltW|exact: ltr01].
have [E G] := frac_ge0 (ltW s0).
have KVE : KVmx lin (o_x (joined d e)) (V (NoiseFunction (fun _ => s)) (joined d e)) = block_mx (1 + s)%:M 0 0 s%:M.
  rewrite KV_join //; last exact: lin_valid.
  congr block_mx; apply/matrixP=> i j; rewrite !ord1 !mxE ?x1 ?x0 ?eqxx ?mulr1n /lin ?Rmult_1_r ?Rmult_0_r //.
  by rewrite [0%coqR + s]add0r.
have kE : kmat lin (o_x (joined d e)) at1 = col_mx 1%:M 0.
  rewrite kmat_join; congr col_mx; apply/matrixP=> i j; rewrite !ord1 !mxE ?x1 ?x0 ?eqxx ?mulr1n /lin ?Rmult_1_r //.
have kkE : kmat lin at1 at1 = 1%:M by apply/matrixP=> i j; rewrite !ord1 !mxE eqxx !mulr1n /lin Rmult_1_r.
rewrite /predict_cov /posterior_covariance KVE kE kkE inv_blockdiag; first last.
- by rewrite unitmxE det_scalar1 unitfE gt_eqF.
- by rewrite unitmxE det_scalar1 unitfE gt_eqF.
rewrite tr_col_mx trmx1 trmx0 mul_row_block !mulmx0 !mul0mx !addr0 mul1mx mul_row_col mulmx1 mulmx0 addr0 invmx_scalar ?gt_eqF //.
have -> : \col_i (1%:M - (1 + s)^-1%:M : 'M[R]_1) i i = (s / (1 + s))%:M :> 'cV_1.
  by apply/colP=> i; rewrite !ord1 !mxE eqxx !mulr1n -E mul1r.
case: existsP=> [[i]|_]; last by rewrite mxE.
by rewrite ord1 mxE eqxx mulr1n ltNge G.
Qed.
Definition far : obs R 1 1 := Obs (fun=> 0) (const_mx 200%:R) 0.
Theorem more_data_less_variance_refuted : exists d e : obs R 1 1, valid_covariance lin /\
  let v n (f : obs R n 1) := (predict_cov lin DefaultNoise f at1 false).1 0 0 in v _ d = 0 /\ v _ (joined d e) = 2%:R^-1.
Proof.
exists (one (fun=> 0%N)), far; split; first exact: lin_valid.
have J : rms (joined (one (fun _ : 'I_1 => 0%N)) far) = 1.
  refine (@rms1 1 0 (@joined R 1 1 1 (one (fun=> 0%N)) far) (fun i _ => if i == 0 then 0%N else 200%N) _ _) => [i j|]; last by rewrite big_ord_recl !big_ord1.
  rewrite /= mxE; case: (@split_ordP 1 1 i)=> k ->; by rewrite !ord1 mxE.
split; first by rewrite one_observation // rms_one mul0r expr0n mul0r.
by rewrite two_observations // J ?half1 // ltr01.
Qed.
Print Assumptions more_data_less_variance_refuted.
(** example: the same prior and noise variance 1; after one observation at 1 the variance there is a half, and stays at
    most a half whatever else is observed *)
Example more_data_less_variance_ex : let nk : noise_arg R := NoiseFunction (fun=> 1) in let d := one (fun _ : 'I_1 => 100%N) in
  (predict_cov lin nk d at1 false).1 0 0 = 2%:R^-1 /\
  forall p (e : obs R p 1), (predict_cov lin nk (joined d e) at1 false).1 0 0 <= 2%:R^-1.
Proof.
move=> nk d; have P k c (f : obs R k c) i : 0 < noise_mx (V nk f) i i by rewrite !mxE eqxx mulr1n ltr01.
have r1 : rms d = 1 by rewrite rms_one divff ?expr1n // pnatr_eq0.
have H : (predict_cov lin nk d at1 false).1 0 0 = 2%:R^-1.
  have := @one_observation 1 d erefl; rewrite default_noise r1 half1; exact.
split=> // p e; have ND : nk <> DefaultNoise by [].
have [S0 [S1 [E0 [E1 [_ L]]]]] := more_data_less_variance_partial ND lin_valid (P _ _ d) (P _ _ e) at1.
by move: H; rewrite E0 E1 /= [X in X = _ -> _]mxE => <-; rewrite mxE; exact: L.
Qed.

(** C183: the likelihood of two batches is that of the first times the predictive density of the second, with the noise
    of the second batch; if the noise is a function, that is the predicted covariance with noise *)
Theorem batches_chain_partial : forall X (kern : X -> X -> R) (m : X -> R) (nk : noise_arg X) n p (d : obs X n 1) (e : obs X p 1),
  let mk := GivenMean m in nk <> DefaultNoise -> valid_covariance kern ->
  (forall i, 0 < noise_mx (V nk d) i i) -> (forall i, 0 < noise_mx (V nk e) i i) ->
  let ll S := loglik kern mk nk d + log_gauss (o_y e) (predict_mean kern mk nk d (o_x e)) S in
  (exists S : 'M[R]_p, predict_cov kern nk d (o_x e) false = (\col_i S i i, Some S) /\ loglik kern mk nk (joined d e) = ll (S + noise_mx (V nk e))) /\
  (nk <> MeasuredNoise -> exists v S, predict_cov kern nk d (o_x e) true = (v, Some S) /\ loglik kern mk nk (joined d e) = ll S).
Proof.
move=> X kern m nk n p d e mk ND Vk Pd Pe ll; have L := @chain _ kern m nk _ _ d e ND Vk Pd Pe.
have C := @predict_covE _ kern nk ND Vk _ _ d _ (o_x e) Pd.
split; first by eexists; split; [exact: C|exact: L].
move=> NM; move: C L; case: nk ND Pd Pe NM @ll=> // v ND Pd Pe _ ll /= C L.
suff [w E] : exists w, predict_cov kern (NoiseFunction v) d (o_x e) true
    = (w, Some (schur kern (o_x d) (NDiag (\col_i v (o_x d i))) (o_x e) + diag_mx (\col_i v (o_x e i))^T)).
  by exists w; eexists; split; [exact: E|exact: L].
move: C; rewrite /predict_cov /posterior_covariance; set g := if [exists i, _] then _ else _; case: g=> w [T|] //= [_ ->].
by exists (w + \col_i v (o_x e i)).
Qed.
Print Assumptions batches_chain_partial.

(** C183 refuted: with the default mean the second batch changes the mean of the first; with measured variances the
    prediction at the second batch does not know its noise *)
Definition at_0 (y nv : nat) : obs R 1 1 := Obs (fun=> 0) (const_mx y%:R) (const_mx nv%:R).
Lemma log_gauss1 (y m s : R) : 0 < s -> log_gauss (const_mx y : 'cV_1) (const_mx m) s%:M = - (1 / 2%:R * ((y - m) ^+ 2 / s + ln s + ln (2%:R * PI)%R)).
Proof.
move=> s0; rewrite /log_gauss /neg_log_gauss det_scalar1 [1%:R * ln _]mul1r invmx_scalar ?gt_eqF //; congr (- (_ * (_ + _ + _))).
by rewrite mul_mx_scalar -scalemxAl !mxE big_ord1 !mxE mulrC -expr2.
Qed.
Lemma mean_0 mk nk (d : obs R 1 1) : (forall i, o_x d i = 0) -> predict_mean lin mk nk d (fun _ : 'I_1 => 0) = const_mx (mean_at mk d 0).
Proof.
move=> x0; apply/matrixP=> i j; rewrite /predict_mean /posterior_mean mxE [RHS]mxE.
have -> : kmat lin (o_x d) (fun _ : 'I_1 => 0) = 0 by apply/matrixP=> i' j'; rewrite !mxE /lin Rmult_0_r.
by rewrite trmx0 mul0mx mxE addr0.
Qed.
Lemma cov_0 nk (d : obs R 1 1) : (forall i, o_x d i = 0) -> predict_cov lin nk d (fun _ : 'I_1 => 0) false = (0, Some 0).
Proof.
move=> x0; rewrite /predict_cov /posterior_covariance.
have -> : kmat lin (o_x d) (fun _ : 'I_1 => 0) = 0 by apply/matrixP=> i' j'; rewrite !mxE /lin Rmult_0_r.
have -> : kmat lin (fun _ : 'I_1 => 0) (fun _ : 'I_1 => 0) = 0 by apply/matrixP=> i' j'; rewrite !mxE /lin Rmult_0_r.
rewrite mulmx0 subr0; have -> : \col_i (0 : 'M[R]_1) i i = 0 :> 'cV_1 by apply/colP=> i; rewrite !mxE.
by case: existsP=> // [[i]]; rewrite mxE ltxx.
Qed.

Section At0.
Variables (nk : noise_arg R) (d e : obs R 1 1) (sd se : R).
Hypotheses (xd : forall i, o_x d i = 0) (xe : o_x e = fun=> 0) (ND : nk <> DefaultNoise).
Hypotheses (Vd : noise_mx (V nk d) = sd%:M) (Ve : noise_mx (V nk e) = se%:M) (sd0 : 0 < sd) (se0 : 0 < se).
Lemma pos_scalar (f : obs R 1 1) s : noise_mx (V nk f) = s%:M -> 0 < s -> forall i, 0 < noise_mx (V nk f) i i.
Proof. by move=> -> s0 i; rewrite mxE eqxx mulr1n. Qed.
Lemma loglik1 mk : loglik lin mk nk d = log_gauss (o_y d) (const_mx (mean_at mk d 0)) sd%:M.
Proof.
rewrite loglik_gauss; congr log_gauss; first by apply/colP=> i; rewrite !mxE xd.
by rewrite /KVmx Vd; apply/matrixP=> i j; rewrite !mxE !xd /lin Rmult_0_r [LHS]add0r.
Qed.
Lemma loglik2 m : loglik lin (GivenMean m) nk (joined d e) =
  log_gauss (o_y d) (const_mx (m 0)) sd%:M + log_gauss (o_y e) (const_mx (m 0)) se%:M.
Proof.
have [[T [C ->]] _] := @batches_chain_partial R lin m nk _ _ d e ND lin_valid (pos_scalar Vd sd0) (pos_scalar Ve se0).
move: C; rewrite xe cov_0 // => - [_ <-]; by rewrite add0r Ve loglik1 mean_0.
Qed.
End At0.
Theorem batches_chain_refuted :
  (exists d e : obs R 1 1, valid_covariance lin /\ let nk : noise_arg R := NoiseFunction (fun=> 1) in
     exists v S, predict_cov lin nk d (o_x e) true = (v, Some S) /\
     loglik lin DefaultMean nk (joined d e) <> loglik lin DefaultMean nk d + log_gauss (o_y e) (predict_mean lin DefaultMean nk d (o_x e)) S) /\
  (exists d e : obs R 1 1, valid_covariance lin /\ let mk : mean_arg R := GivenMean (fun=> 0) in
     exists v S, predict_cov lin MeasuredNoise d (o_x e) true = (v, Some S) /\
     loglik lin mk MeasuredNoise (joined d e) <> loglik lin mk MeasuredNoise d + log_gauss (o_y e) (predict_mean lin mk MeasuredNoise d (o_x e)) S).
Proof.
have N (z : nat) : (0 < z)%N -> 0 < z%:R :> R by rewrite ltr0n.
split.
- set nk : noise_arg R := NoiseFunction (fun=> 1).
  have Vn (f : obs R 1 1) : noise_mx (V nk f) = 1%:M by apply/matrixP=> i j; rewrite !ord1 !mxE eqxx mulr1n.
  exists (at_0 0 1), (at_0 2 1); split; first exact: lin_valid.
  exists (\col_i 1), 1%:M; split.
    have := cov_0 nk (d := at_0 0 1) (fun=> erefl); rewrite /predict_cov /posterior_covariance; set g := if [exists i, _] then _ else _.
    case: g=> w [T|] //= [-> ->]; rewrite /add_noise /= !add0r; congr (_, Some _); apply/matrixP=> i j; by rewrite !ord1 !mxE.
  have mJ : np_mean (o_y (joined (at_0 0 1) (at_0 2 1))) = 1.
    by rewrite /np_mean /= [X in X / _]big_split_ord /= !big_ord1 col_mxEu col_mxEd !mxE add0r mulfV // pnatr_eq0.
  have E2 : loglik lin DefaultMean nk (joined (at_0 0 1) (at_0 2 1)) = log_gauss (const_mx 0 : 'cV_1) (const_mx 1) 1%:M + log_gauss (const_mx 2%:R : 'cV_1) (const_mx 1) 1%:M.
    have E := @loglik2 nk (at_0 0 1) (at_0 2 1) 1 1 (fun=> erefl) erefl (fun H => ltac:(discriminate H)) (Vn _) (Vn _) ltr01 ltr01 (fun=> np_mean (o_y (joined (at_0 0 1) (at_0 2 1)))).
    by etransitivity; [exact: E|rewrite mJ].
  have m0 : mean_at DefaultMean (at_0 0 1) 0 = 0 by rewrite /= /np_mean !big_ord1 mxE mul0r.
  have E1 := @loglik1 nk (at_0 0 1) 1 (fun=> erefl) (Vn _) DefaultMean.
  have E0 := @mean_0 DefaultMean nk (at_0 0 1) (fun=> erefl).
  rewrite m0 in E1 E0; rewrite E2 E1 E0 !log_gauss1 ?ltr01 //.
  have -> : let t : R := 1 in ln t = 0 by exact: ln_1.
  have i2 : (2%:R : R)^-1 = (/ 2)%coqR by rewrite rinvE ?pnatr_eq0 // r2E.
  rewrite !divr1 ?mulr0n !expr2 i2 r2E !raddE !roppE !rmulE r0E r1E; move: (ln _) => w H; lra.
- set mk : mean_arg R := GivenMean (fun=> 0).
  have Vn y (k : nat) : noise_mx (V MeasuredNoise (at_0 y k)) = k%:R%:M.
    by rewrite V_diag //=; apply/matrixP=> i j; rewrite !ord1 !mxE.
  exists (at_0 0 1), (at_0 0 2); split; first exact: lin_valid.
  exists (\col_i 1), 1%:M; split.
    have Vx : noise_for MeasuredNoise (at_0 0 1) (fun _ : 'I_1 => 0) = NDiag (const_mx 1) by have := @V_diag R MeasuredNoise (fun H => ltac:(discriminate H)) 1 1 (at_0 0 1).
    have := cov_0 MeasuredNoise (d := at_0 0 1) (fun=> erefl); rewrite /predict_cov /posterior_covariance; set g := if [exists i, _] then _ else _.
    case: g=> w [T|] //= [-> ->]; rewrite /add_noise Vx /= !add0r; congr (_, Some _); apply/matrixP=> i j; by rewrite !ord1 !mxE.
  have E2 := @loglik2 MeasuredNoise (at_0 0 1) (at_0 0 2) 1%:R 2%:R (fun=> erefl) erefl (fun H => ltac:(discriminate H)) (Vn _ _) (Vn _ _) (N 1%N isT) (N 2%N isT) (fun=> 0).
  have E1 := @loglik1 MeasuredNoise (at_0 0 1) 1%:R (fun=> erefl) (Vn _ _) mk.
  have E0 := @mean_0 mk MeasuredNoise (at_0 0 1) (fun=> erefl).
  rewrite E2 E1 E0 /= !log_gauss1 ?ltr01 ?N //.
  have -> : let t : R := 1 in ln t = 0 by exact: ln_1.
  have i2 : (2%:R : R)^-1 = (/ 2)%coqR by rewrite rinvE ?pnatr_eq0 // r2E.
  have := ln_lt_2; rewrite !divr1 ?mulr0n !expr2 i2 r2E !raddE !roppE !rmulE r0E r1E; move: (ln (2 * PI)) (ln 2) => w l L H.
  lra.
Qed.
Print Assumptions batches_chain_refuted.
(** example: after the value 100 at 1 with noise variance 1 the next value there is expected to be 50 with variance 3/2 *)
Example batches_chain_ex : let nk : noise_arg R := NoiseFunction (fun=> 1) in let mk : mean_arg R := GivenMean (fun=> 0) in
  let d := one (fun _ : 'I_1 => 100%N) in forall y nv, let e : obs R 1 1 := Obs at1 y nv in
  loglik lin mk nk (joined d e) = loglik lin mk nk d + log_gauss y (const_mx 50%:R) (3%:R / 2%:R)%:M.
Proof.
move=> nk mk d y nv e; have P k c (f : obs R k c) i : 0 < noise_mx (V nk f) i i by rewrite !mxE eqxx mulr1n ltr01.
have ND : nk <> DefaultNoise by [].
have KVE : KVmx lin at1 (V nk d) = 2%:R%:M by apply/matrixP=> i j; rewrite !ord1 !mxE eqxx !mulr1n /lin Rmult_1_r.
have kE : kmat lin at1 at1 = 1%:M by apply/matrixP=> i j; rewrite !ord1 !mxE eqxx !mulr1n /lin Rmult_1_r.
have Z : 2%:R != 0 :> R by rewrite pnatr_eq0.
have [[S0 [C ->]] _] := @batches_chain_partial R lin (fun=> 0) nk _ _ d e ND lin_valid (P _ _ _) (P _ _ _).
have M : predict_mean lin mk nk d at1 = const_mx 50%:R.
  rewrite /predict_mean /posterior_mean /KVinvYp KVE kE trmx1 mul1mx invmx_scalar //.
  apply/matrixP=> i j; rewrite !mxE big_ord1 !mxE !ord1 add0r subr0 mulr1n -[100%N]/(2 * 50)%N natrM mulKf //.
rewrite M; congr (_ + log_gauss _ _ _).
move: C; rewrite (@predict_covE _ lin nk ND lin_valid _ _ d _ at1 (P _ _ _)) => - [_ <-].
rewrite /schur KVE kE trmx1 mul1mx mulmx1 invmx_scalar //; apply/matrixP=> i j; rewrite !ord1 !mxE eqxx !mulr1n.
rewrite rinvE // r2E rnatE /= !raddE !roppE !rmulE r1E; lra.
Qed.

(** C184: the columns of y are independent Gaussian processes with the same kernel; the likelihood is their average *)
Theorem outputs_independent_partial : forall X (kern : X -> X -> R) (m : X -> R) (nk : noise_arg X) n c (d : obs X n c),
  let mk := GivenMean m in nk <> DefaultNoise ->
  (forall q (xp : 'I_q -> X) k, predict_mean kern mk nk (output k d) xp = col k (predict_mean kern mk nk d xp)) /\
  (forall q (xp : 'I_q -> X) k noisy, predict_cov kern nk (output k d) xp noisy = predict_cov kern nk d xp noisy) /\
  ((0 < c)%N -> loglik kern mk nk d = (\sum_k loglik kern mk nk (output k d)) / c%:R).
Proof.
move=> X kern m nk n c d mk ND; split; first by move=> q xp k; exact: predict_mean_output.
by split=> [q xp k noisy|c0]; [exact: predict_cov_output|exact: loglik_output].
Qed.
Print Assumptions outputs_independent_partial.

(** C184 refuted: the default mean and the default noise are averages over all outputs. Values 0 and 200 at one point:
    where the kernel says nothing both outputs are predicted to be 100, and the output that alone would be taken as
    exact is given half the prior variance *)
Definition pair : obs R 1 2 := one (fun k : 'I_2 => if k == 0 then 0%N else 200%N).
Theorem outputs_independent_refuted :
  (forall nk, let mu c (d : obs R 1 c) := predict_mean lin DefaultMean nk d (fun _ : 'I_1 => 0) in
     mu _ (output 0 pair) 0 0 = 0 /\ mu _ pair 0 0 = 100%:R) /\
  (let v c (d : obs R 1 c) := (predict_cov lin DefaultNoise d at1 false).1 0 0 in v _ (output 0 pair) = 0 /\ v _ pair = 2%:R^-1).
Proof.
have S2 : \sum_(j < 2) (o_y pair) 0 j = 200%:R by rewrite big_ord_recl big_ord1 !mxE /= add0r.
split=> [nk mu|v].
  have K c (d : obs R 1 c) j : mu c d 0 j = np_mean (o_y d).
    rewrite /mu /predict_mean /posterior_mean mxE.
    have -> : kmat lin (o_x d) (fun _ : 'I_1 => 0) = 0 by apply/matrixP=> i' j'; rewrite !mxE /lin Rmult_0_r.
    by rewrite trmx0 mul0mx mxE addr0.
  rewrite !K /np_mean !big_ord1 !mxE /= mul0r; split=> //; rewrite S2.
  by rewrite -[200%N]/(100 * 2)%N natrM mulfK // pnatr_eq0.
have r0 : rms (output 0 pair) = 0 by rewrite /rms /np_mean !big_ord1 !mxE /= (abs_nat 0) mul0r mul0r expr0n.
have r1 : rms pair = 1.
  apply: (@rms1 0 1 pair (fun _ j => if j == 0 then 0%N else 200%N)) => [i j|]; first by rewrite !mxE.
  by rewrite !big_ord1 big_ord_recl big_ord1.
by rewrite /v !one_observation // r0 r1 mul0r half1.
Qed.
Print Assumptions outputs_independent_refuted.
(** example: with mean 0 and noise variance 1 the values 0 and 200 give the predictions 0 and 100 at the same point, the
    second being what the second output alone gives *)
Example outputs_independent_ex : let nk : noise_arg R := NoiseFunction (fun=> 1) in let mk : mean_arg R := GivenMean (fun=> 0) in
  predict_mean lin mk nk pair at1 = \matrix_(i, j) (if j == 0 then 0 else 100%:R) /\
  predict_mean lin mk nk (output 1 pair) at1 = const_mx 100%:R.
Proof.
move=> nk mk; have ND : nk <> DefaultNoise by [].
have KVE : KVmx lin at1 (V nk pair) = 2%:R%:M by apply/matrixP=> i j; rewrite !ord1 !mxE eqxx !mulr1n /lin Rmult_1_r.
have kE : kmat lin at1 at1 = 1%:M by apply/matrixP=> i j; rewrite !ord1 !mxE eqxx !mulr1n /lin Rmult_1_r.
have Z : 2%:R != 0 :> R by rewrite pnatr_eq0.
have M : predict_mean lin mk nk pair at1 = \matrix_(i, j) (if j == 0 then 0 else 100%:R).
  rewrite /predict_mean /posterior_mean /KVinvYp KVE kE trmx1 mul1mx invmx_scalar //.
  apply/matrixP=> i j; rewrite !mxE big_ord1 !mxE !ord1 add0r subr0 mulr1n.
  by case: (j == 0); rewrite ?mulr0 // -[200%N]/(2 * 100)%N natrM mulKf.
split=> //; rewrite (outputs_independent_partial lin (fun=> 0) pair ND).1 -/mk M.
by apply/matrixP=> i j; rewrite !mxE.
Qed.
