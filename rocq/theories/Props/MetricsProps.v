(** C45, C82-C85: the validation metrics. *)
From Coq Require Import Reals Lra Lia List Arith Bool Psatz.
From Coquelicot Require Import Coquelicot.
From Verif Require Import Model.Metrics Spec.MetricsSpec Spec.Sums Proofs.NormalP Proofs.MetricsP Proofs.MetricsColP Proofs.GaussP.
Import ListNotations.
Local Open Scope R_scope.

(** an array has as many elements as its shape says *)
Definition wf (a : arr) : Prop := length (vals a) = fold_right Nat.mul 1%nat (shape a).
Lemma wf_len a b : wf a -> wf b -> shape a = shape b -> length (vals a) = length (vals b).
Proof. unfold wf. congruence. Qed.
Lemma rmse_shape mx y r : rmse mx y = Some r -> shape y = shape mx.
Proof. unfold rmse. destruct (shape_eqb _ _) eqn:E; [|discriminate]. intros _. apply shape_eqbP, E. Qed.
Lemma mae_shape mx y r : mae mx y = Some r -> shape y = shape mx.
Proof. unfold mae. destruct (shape_eqb _ _) eqn:E; [|discriminate]. intros _. apply shape_eqbP, E. Qed.

(** the hypotheses about the normal distribution below hold for one pair of functions *)
Theorem normal_exists : exists Phi ppf, normal_cdf Phi /\ quantile Phi ppf.
Proof. destruct std_quantile as [ppf Q]. exists std_cdf, ppf. split; [exact std_normal|exact Q]. Qed.
Print Assumptions normal_exists.

(** * C45 *)
Theorem mae_at_most_rmse : forall mx y a b, wf mx -> wf y -> vals y <> [] -> mae mx y = Some a -> rmse mx y = Some b -> 0 <= a <= b.
Proof. intros mx y a b W1 W2 N A B. pose proof (mae_shape _ _ _ A) as S. exact (mae_rmse_l mx y S (wf_len _ _ W2 W1 S) N a b A B). Qed.
Theorem errors_zero_iff_perfect : forall mx y a b, wf mx -> wf y -> vals y <> [] -> mae mx y = Some a -> rmse mx y = Some b ->
  (a = 0 <-> vals y = vals mx) /\ (b = 0 <-> vals y = vals mx).
Proof.
intros mx y a b W1 W2 N A B. pose proof (mae_shape _ _ _ A) as S. pose proof (wf_len _ _ W2 W1 S) as L.
split; [exact (mae_zero_l mx y S L N a A)|exact (rmse_zero_l mx y S L N b B)].
Qed.
Print Assumptions errors_zero_iff_perfect.
Example errors_ex : exists a b, mae (Arr [2%nat] [1; 4]) (Arr [2%nat] [0; 1]) = Some a /\ rmse (Arr [2%nat] [1; 4]) (Arr [2%nat] [0; 1]) = Some b /\ a = 2 /\ b = sqrt 5.
Proof.
do 2 eexists. repeat split; cbn; unfold zipw, mean_l; cbn.
- rewrite !Rabs_left by lra. lra.
- f_equal. lra.
Qed.

(** the score is not only non-negative: it is at least a positive multiple of the mean standard deviation *)
Theorem crps_lower_bound : forall Phi mx vx y m s, normal_cdf Phi -> wf mx -> wf vx -> wf y -> vals y <> [] ->
  (forall v, In v (vals vx) -> 0 < v) -> crps Phi mx vx y = Some (m, s) ->
  0 < (sqrt 2 - 1) / sqrt PI * (fold_right Rplus 0 (map sqrt (vals vx)) / INR (length (vals vx))) <= m /\ 0 <= s.
Proof.
intros Phi mx vx y m s H W1 W2 W3 N P E. destruct (shapes_of mx vx y (Some _) _ E) as [S1 S2].
pose proof (wf_len _ _ W1 W2 S1). pose proof (wf_len _ _ W3 W2 (eq_sym S2)).
pose proof (crps_lower_l mx vx y H0 H1 N P Phi m s H E) as C. unfold mean_l, sum_l in C. rewrite map_length in C. exact C.
Qed.
Print Assumptions crps_lower_bound.

Definition in_interval (z y m v : R) : Prop := m - z * sqrt v <= y <= m + z * sqrt v.
Theorem interval_score_bound : forall Phi ppf mx vx y interval s, normal_cdf Phi -> quantile Phi ppf -> wf mx -> wf vx -> wf y -> vals y <> [] ->
  0 <= interval < 1 -> interval_score ppf mx vx y interval = Some s ->
  0 <= mpiw ppf vx interval <= s /\
  (s = mpiw ppf vx interval <-> forall i, (i < length (vals y))%nat -> in_interval (ppf ((1 + interval) / 2)) (nth i (vals y) 0) (nth i (vals mx) 0) (nth i (vals vx) 0)).
Proof.
intros Phi ppf mx vx y interval s H Q W1 W2 W3 N [I0 I1] E. destruct (shapes_of mx vx y (Some _) _ E) as [S1 S2].
pose proof (wf_len _ _ W1 W2 S1) as L1. pose proof (wf_len _ _ W3 W2 (eq_sym S2)) as L2.
destruct (interval_score_l Phi ppf H Q mx vx y interval S1 S2 L1 L2 N I0 I1 s E) as [B C]. split; [exact B|]. rewrite C.
assert (Z : z_of ppf interval = ppf ((1 + interval) / 2)) by (unfold z_of; f_equal; field). rewrite Z. unfold in_interval.
set (tr := combine (combine (vals y) (vals mx)) (map sqrt (vals vx))).
assert (Lt : length tr = length (vals y)) by (unfold tr; rewrite combine_length, combine_length, map_length; lia).
split; intros K.
- intros i Li. assert (Li' : (i < length tr)%nat) by lia. specialize (K (nth i tr (0, 0, sqrt 0)) (nth_In _ _ Li')). unfold tr in K. rewrite (trip_nth mx vx y L1 L2 sqrt 0 i Li) in K. exact K.
- intros p Hp. destruct (In_nth _ _ (0, 0, sqrt 0) Hp) as [i [Li <-]]. unfold tr. rewrite (trip_nth mx vx y L1 L2 sqrt 0 i) by lia. apply K. lia.
Qed.
Print Assumptions interval_score_bound.
Theorem mpiw_monotone : forall Phi ppf vx a b, normal_cdf Phi -> quantile Phi ppf -> vals vx <> [] -> 0 <= a -> a <= b -> b < 1 -> mpiw ppf vx a <= mpiw ppf vx b.
Proof.
intros Phi ppf vx a b H Q N A B C. pose proof (z_mono Phi ppf H Q a b A B C) as [Z0 Z1]. unfold mpiw. apply mean_le; [exact N|]. intros v _.
apply Rmult_le_compat_r; [apply sqrt_pos|lra].
Qed.

(** * C85 and the coverage part of C45 *)
(** with one output column and y_true of shape (N,), the coverage is the fraction of observations in their own interval *)
Theorem coverage_is_fraction_partial : forall ppf mean var ys interval, length var = length mean -> length ys = length mean ->
  exists hit : list R, length hit = length mean /\
    (forall i, (i < length mean)%nat -> (nth i hit 0 = 1 /\ in_interval (ppf ((1 + interval) / 2)) (nth i ys 0) (nth i mean 0) (nth i var 0)) \/
                                        (nth i hit 0 = 0 /\ ~ in_interval (ppf ((1 + interval) / 2)) (nth i ys 0) (nth i mean 0) (nth i var 0))) /\
    picp ppf (m_x 1 mean) (v_x 1 var) (Arr [length mean] ys) interval = Some (fold_right Rplus 0 hit / INR (length mean)).
Proof.
intros ppf mean var ys interval Lv Ly. rewrite (picp_val ppf mean var ys Lv Ly). set (hit := map _ (seq 0 (length mean))). exists hit.
assert (Lh : length hit = length mean) by (unfold hit; rewrite map_length, seq_length; reflexivity).
split; [exact Lh|]. split; [|unfold mean_l, sum_l; rewrite Lh; reflexivity].
intros i Li. unfold hit. rewrite nth_seq_map by exact Li. assert (Z : z_of ppf interval = ppf ((1 + interval) / 2)) by (unfold z_of; f_equal; field). rewrite Z.
unfold ind, in_interval. destruct Rle_dec; [destruct Rle_dec|]; [left|right|right]; split; try reflexivity; try split; try assumption; intros [K1 K2]; contradiction.
Qed.
Print Assumptions coverage_is_fraction_partial.
(** one if the observation lies in the interval, zero if not *)
Definition is_hit (z y m v h : R) : Prop := (h = 1 /\ in_interval z y m v) \/ (h = 0 /\ ~ in_interval z y m v).
Lemma ind_hit z y m v : is_hit z y m v (ind z y m v).
Proof. unfold is_hit, ind, in_interval. destruct Rle_dec; [destruct Rle_dec|]; [left|right|right]; split; try reflexivity; try split; try assumption; intros [K1 K2]; contradiction. Qed.
Lemma z_ofE ppf interval : z_of ppf interval = ppf ((1 + interval) / 2).
Proof. unfold z_of. f_equal. field. Qed.
(** with several output columns (the variance of a point is that of each of its columns) and y_true of shape (N, c), the coverage is
    the fraction of all N c observations in their own interval *)
Theorem coverage_of_columns_partial : forall ppf mean var ys c interval, (2 <= c)%nat -> length mean = (length var * c)%nat ->
  let n := length var in
  exists hit, (forall i k, (i < n)%nat -> (k < c)%nat -> is_hit (ppf ((1 + interval) / 2)) (nth (i * c + k) ys 0) (nth (i * c + k) mean 0) (nth i var 0) (hit i k)) /\
    picp ppf (m_x c mean) (v_x c var) (Arr [n; c] ys) interval = Some (rsum (fun i => rsum (hit i) c) n / INR (n * c)).
Proof.
intros ppf mean var ys c interval Hc L n. eexists. split; [|exact (picp_cols ppf mean var ys c interval Hc L)].
intros i k Hi Hk. cbn beta. rewrite z_ofE. apply ind_hit.
Qed.
Print Assumptions coverage_of_columns_partial.
Example coverage_of_columns_ex : (* two points, three columns *)
  let mean := [0; 1; 2; 3; 4; 5] in
  exists p, picp (fun _ => 1) (m_x 3 mean) (v_x 3 [1; 4]) (Arr [2%nat; 3%nat] [0; 3; 2; 5; 2; 8]) (1 / 2) = Some p /\ p = 4 / 6.
Proof.
intros mean. eexists. split; [exact (picp_cols (fun _ => 1) mean [1; 4] _ 3 (1 / 2) ltac:(lia) eq_refl)|].
assert (S4 : sqrt 4 = 2) by (replace 4 with (2 * 2) by lra; apply sqrt_square; lra).
unfold ind, z_of, mean. cbn [rsum length nth Nat.mul Nat.add INR]. rewrite S4, sqrt_1.
repeat (destruct Rle_dec; try lra).
Qed.
(** with one output column and y_true of shape (N, 1), every observation is compared with every interval *)
Theorem coverage_of_column_partial : forall ppf mean var ys interval, length var = length mean -> length ys = length mean -> (length mean <> 1)%nat ->
  let n := length mean in
  exists hit, (forall i j, (i < n)%nat -> (j < n)%nat -> is_hit (ppf ((1 + interval) / 2)) (nth i ys 0) (nth j mean 0) (nth j var 0) (hit i j)) /\
    picp ppf (m_x 1 mean) (v_x 1 var) (Arr [n; 1%nat] ys) interval = Some (rsum (fun i => rsum (hit i) n) n / INR (n * n)).
Proof.
intros ppf mean var ys interval Lv Ly N1 n. eexists. split; [|exact (picp_column ppf mean var ys interval Lv Ly N1)].
intros i j Hi Hj. cbn beta. rewrite z_ofE. apply ind_hit.
Qed.
Print Assumptions coverage_of_column_partial.
(** for observations of any shape that broadcasts *)
Theorem coverage_monotone : forall Phi ppf mx vx y a b p q, normal_cdf Phi -> quantile Phi ppf -> 0 <= a -> a <= b -> b < 1 ->
  picp ppf mx vx y a = Some p -> picp ppf mx vx y b = Some q -> 0 <= p /\ p <= q /\ q <= 1.
Proof. intros Phi ppf mx vx y a b p q H Q A B C. apply picp_mono_l, (z_mono Phi ppf H Q); assumption. Qed.
Print Assumptions coverage_monotone.
(** the coverage curve is the list of these numbers, so it is non-decreasing for increasing targets *)
Theorem coverage_curve_monotone : forall Phi ppf mx vx y ts i j p q, normal_cdf Phi -> quantile Phi ppf ->
  (forall i j, (i <= j < length ts)%nat -> nth i ts 0 <= nth j ts 0) -> (forall t, In t ts -> 0 <= t < 1) -> (i <= j < length ts)%nat ->
  nth i (coverage_curve ppf mx vx y ts) None = Some p -> nth j (coverage_curve ppf mx vx y ts) None = Some q ->
  (0 <= p /\ p <= q /\ q <= 1) /\ picp ppf mx vx y (nth i ts 0) = Some p.
Proof.
intros Phi ppf mx vx y ts i j p q H Q M R IJ. unfold coverage_curve.
assert (NM : forall k, (k < length ts)%nat -> nth k (map (picp ppf mx vx y) ts) None = picp ppf mx vx y (nth k ts 0)).
{ intros k K. rewrite (nth_indep _ None (picp ppf mx vx y 0)) by (rewrite map_length; exact K). apply map_nth. }
rewrite !NM by lia. intros E1 E2. split; [|exact E1]. apply (coverage_monotone Phi ppf mx vx y (nth i ts 0) (nth j ts 0)); auto.
- apply R, nth_In. lia.
- apply R, nth_In. lia.
Qed.
(** a column of observations, shape (N, 1), is compared with everyone else's interval as well: perfect predictions, half the coverage *)
Theorem coverage_of_column_refuted : exists Phi ppf mean var, normal_cdf Phi /\ quantile Phi ppf /\
  picp ppf (m_x 1 mean) (v_x 1 var) (Arr [2%nat; 1%nat] mean) (1 / 2) = Some (1 / 2) /\
  picp ppf (m_x 1 mean) (v_x 1 var) (Arr [2%nat] mean) (1 / 2) = Some 1.
Proof.
destruct normal_exists as [Phi [ppf [H Q]]]. set (z := z_of ppf (1 / 2)). pose proof (z_mono Phi ppf H Q (1/2) (1/2) ltac:(lra) ltac:(lra) ltac:(lra)) as [Z0 _]. fold z in Z0.
exists Phi, ppf, [0; 2 * z + 1], [1; 1]. split; [exact H|]. split; [exact Q|].
unfold picp. fold z. rewrite !sqrt_1 || idtac. unfold m_x, v_x, broadcast, getb, zipw. cbn. rewrite !sqrt_1. split; f_equal; unfold mean_l; cbn.
- repeat (destruct Rle_dec; try (exfalso; lra)). lra.
- repeat (destruct Rle_dec; try (exfalso; lra)). lra.
Qed.
Print Assumptions coverage_of_column_refuted.

(** * C82: one test point *)
Theorem metrics_on_several_points_partial : forall Phi ppf c mean var y y_data interval, let n := length var in
  length mean = (n * c)%nat -> (1 <= c)%nat -> (2 <= n \/ 2 <= c)%nat -> shape y = (if Nat.eqb c 1 then [n] else [n; c]) ->
  let mx := m_x c mean in let vx := v_x c var in
  (exists r, rmse mx y = Some r) /\ (exists r, nrmse mx y = Some r) /\ (exists r, mae mx y = Some r) /\ (exists r, mape mx y = Some r) /\ (exists r, r2 mx y = Some r) /\
  (exists r, crps Phi mx vx y = Some r) /\ (exists r, nlpd mx vx y = Some r) /\ (exists r, interval_score ppf mx vx y interval = Some r) /\ (exists r, msll y_data mx vx y = Some r).
Proof.
intros Phi ppf c mean var y y_data interval n Lm C NC Sy mx vx.
assert (Dn : (length mean / c)%nat = n) by (rewrite Lm; apply Nat.div_mul; lia).
assert (Sm : shape mx = shape y). { unfold mx, m_x. cbn [shape]. rewrite Dn, Sy. destruct (Nat.eqb_spec c 1); [|reflexivity]. destruct (Nat.eqb_spec n 1); [lia|reflexivity]. }
assert (Sv : shape vx = shape y). { unfold vx, v_x. cbn [shape]. rewrite Sy. reflexivity. }
assert (E1 : shape_eqb (shape y) (shape mx) = true) by (apply shape_eqbP; congruence).
assert (E2 : shape_eqb (shape mx) (shape y) = true) by (apply shape_eqbP; congruence).
assert (E3 : shape_eqb (shape mx) (shape vx) && shape_eqb (shape vx) (shape y) = true) by (apply andb_true_iff; split; apply shape_eqbP; congruence).
unfold rmse, nrmse, mae, mape, r2, crps, nlpd, interval_score, msll, rmse. rewrite !E1, E2, E3. cbn [option_map]. repeat split; eexists; reflexivity.
Qed.
Print Assumptions metrics_on_several_points_partial.
Example several_points_ex : shape (m_x 1 [3; 4]) = [2%nat] /\ shape (v_x 1 [1; 1]) = [2%nat] /\ shape (m_x 2 [3; 4]) = [1%nat; 2%nat] /\ shape (v_x 2 [1]) = [1%nat; 2%nat].
Proof. repeat split. Qed.
(** one point, one column: with observations of the documented shape (1,) every one of them raises; four of them raise for every y_test *)
Theorem metrics_on_one_point_refuted : forall Phi ppf m v yv y_data interval, let mx := m_x 1 [m] in let vx := v_x 1 [v] in let y := Arr [1%nat] [yv] in
  (rmse mx y = None /\ nrmse mx y = None /\ mae mx y = None /\ mape mx y = None /\ r2 mx y = None) /\
  (forall y', crps Phi mx vx y' = None /\ nlpd mx vx y' = None /\ interval_score ppf mx vx y' interval = None /\ msll y_data mx vx y' = None).
Proof. intros. split; [repeat split|]. intros y'. repeat split. Qed.
Print Assumptions metrics_on_one_point_refuted.

(** * C83: crps returns the mean and the standard deviation of the scores' defining integrals *)
Theorem crps_is_integral : forall Phi mx vx y m s, normal_cdf Phi -> wf mx -> wf vx -> wf y -> vals y <> [] ->
  (forall v, In v (vals vx) -> 0 < v) -> crps Phi mx vx y = Some (m, s) ->
  exists cs, length cs = length (vals y) /\
    (forall i, (i < length (vals y))%nat -> crps_of (fun t => Phi ((t - nth i (vals mx) 0) / sqrt (nth i (vals vx) 0))) (nth i (vals y) 0) (nth i cs 0)) /\
    m * INR (length (vals y)) = fold_right Rplus 0 cs /\
    0 <= s /\ s ^ 2 * INR (length (vals y)) = fold_right Rplus 0 (map (fun c => (c - m) ^ 2) cs).
Proof.
intros Phi mx vx y m s H W1 W2 W3 N P E. destruct (shapes_of mx vx y (Some _) _ E) as [S1 S2].
exact (crps_scores_l mx vx y (wf_len _ _ W1 W2 S1) (wf_len _ _ W3 W2 (eq_sym S2)) N P Phi m s H E).
Qed.
Print Assumptions crps_is_integral.
(** the integral determines the score *)
Theorem crps_of_unique : forall F x s s', crps_of F x s -> crps_of F x s' -> s = s'.
Proof.
intros F x s s' A B. destruct (Req_dec s s') as [|D]; [assumption|exfalso].
assert (E : 0 < Rabs (s - s') / 2) by (apply Rdiv_lt_0_compat; [apply Rabs_pos_lt; lra|lra]).
destruct (A _ E) as [Ba HA]. destruct (B _ E) as [Bb HB].
set (M := Rabs Ba + Rabs Bb + Rabs x + 1). pose proof (Rle_abs Ba). pose proof (Rle_abs Bb). pose proof (Rle_abs x). pose proof (Rle_abs (- x)). rewrite Rabs_Ropp in H2.
pose proof (Rabs_pos Ba). pose proof (Rabs_pos Bb). pose proof (Rabs_pos x).
specialize (HA (- M) M ltac:(unfold M; lra) ltac:(unfold M; lra) ltac:(unfold M; lra)). specialize (HB (- M) M ltac:(unfold M; lra) ltac:(unfold M; lra) ltac:(unfold M; lra)).
set (I := _ + _) in HA, HB. pose proof (Rabs_triang (I - s') (- (I - s))) as T. replace (I - s' + - (I - s)) with (s - s') in T by ring. rewrite Rabs_Ropp in T. lra.
Qed.

(** * C84 *)
Definition density (m v t : R) : R := normal_pdf ((t - m) / sqrt v) / sqrt v.
Theorem nlpd_is_log_density : forall mx vx y r, wf mx -> wf vx -> wf y -> vals y <> [] -> (forall v, In v (vals vx) -> 0 < v) -> nlpd mx vx y = Some r ->
  r * INR (length (vals y)) = fold_right Rplus 0 (map (fun i => - ln (density (nth i (vals mx) 0) (nth i (vals vx) 0) (nth i (vals y) 0))) (seq 0 (length (vals y)))).
Proof.
intros mx vx y r W1 W2 W3 N P E. destruct (shapes_of mx vx y (Some _) _ E) as [S1 S2].
exact (nlpd_l mx vx y (wf_len _ _ W1 W2 S1) (wf_len _ _ W3 W2 (eq_sym S2)) N P r E).
Qed.
Print Assumptions nlpd_is_log_density.
Definition mean_of (l : list R) : R := fold_right Rplus 0 l / INR (length l).
Definition variance_of (l : list R) : R := mean_of (map (fun v => (v - mean_of l) ^ 2) l).
Theorem msll_is_relative : forall mx vx y y_data r, wf mx -> wf vx -> wf y -> vals y <> [] -> (forall v, In v (vals vx) -> 0 < v) -> 0 < variance_of y_data ->
  msll y_data mx vx y = Some r ->
  (exists g, nlpd mx vx y = Some g /\
     (g - r) * INR (length (vals y)) = fold_right Rplus 0 (map (fun t => - ln (density (mean_of y_data) (variance_of y_data) t)) (vals y))) /\
  ((forall i, (i < length (vals y))%nat -> nth i (vals mx) 0 = mean_of y_data /\ nth i (vals vx) 0 = variance_of y_data) -> r = 0).
Proof.
intros mx vx y y_data r W1 W2 W3 N P V E. destruct (shapes_of mx vx y (Some _) _ E) as [S1 S2].
pose proof (wf_len _ _ W1 W2 S1) as L1. pose proof (wf_len _ _ W3 W2 (eq_sym S2)) as L2.
split; [exact (msll_l mx vx y N y_data r V E)|]. intros B. exact (msll_zero_l mx vx y L1 L2 y_data r B E).
Qed.
Print Assumptions msll_is_relative.
Theorem r2_bounds : forall mx y r, wf mx -> wf y -> (exists a b, In a (vals y) /\ In b (vals y) /\ a <> b) -> r2 mx y = Some r ->
  r <= 1 /\ (r = 1 <-> vals y = vals mx) /\ ((forall p, In p (vals mx) -> p = mean_of (vals y)) -> r = 0).
Proof.
intros mx y r W1 W2 D E. apply (r2_l mx y r); auto. apply wf_len; auto. unfold r2 in E. destruct (shape_eqb _ _) eqn:S; [|discriminate]. symmetry. apply shape_eqbP, S.
Qed.
Print Assumptions r2_bounds.
Example scores_ex : exists r, r2 (Arr [2%nat] [0; 1]) (Arr [2%nat] [0; 2]) = Some r /\ r = 1 / 2.
Proof. eexists. split; [reflexivity|]. unfold zipw, mean_l; cbn. field. Qed.
Example nlpd_ex : exists r, nlpd (Arr [2%nat] [0; 1]) (Arr [2%nat] [1; 1]) (Arr [2%nat] [0; 1]) = Some r /\ r = 1 / 2 * ln (2 * PI).
Proof. eexists. split; [reflexivity|]. unfold zipw, mean_l, nlpd_term; cbn. replace (2 * PI * 1) with (2 * PI) by ring. field. Qed.

(** the relative errors: if every prediction is off by t times the range of the data, nrmse is t; if the relative
    errors are r_1, ..., r_n, mape is the mean of their absolute values *)
Theorem nrmse_is_relative_to_range : forall mx y t hi lo r, wf mx -> wf y -> vals y <> [] ->
  In hi (vals y) -> In lo (vals y) -> (forall v, In v (vals y) -> lo <= v <= hi) -> lo < hi ->
  (forall i, (i < length (vals y))%nat -> Rabs (nth i (vals y) 0 - nth i (vals mx) 0) = t * (hi - lo)) -> nrmse mx y = Some r -> r = t.
Proof.
intros mx y t hi lo r W1 W2 N Hh Hl B D K E. assert (S : shape y = shape mx). { unfold nrmse in E. destruct (rmse mx y) eqn:R; [|discriminate]. exact (rmse_shape _ _ _ R). }
exact (nrmse_l mx y t hi lo r S (wf_len _ _ W2 W1 S) N Hh Hl B D K E).
Qed.
Theorem mape_is_mean_relative_error : forall mx y rs r, wf mx -> wf y -> length rs = length (vals y) -> vals y <> [] ->
  (forall v, In v (vals y) -> v <> 0) -> (forall i, (i < length (vals y))%nat -> nth i (vals mx) 0 = (1 + nth i rs 0) * nth i (vals y) 0) -> mape mx y = Some r ->
  r * INR (length (vals y)) = fold_right Rplus 0 (map Rabs rs).
Proof.
intros mx y rs r W1 W2 Lr N Z K E. assert (S : shape y = shape mx). { unfold mape in E. destruct (shape_eqb _ _) eqn:R; [|discriminate]. apply shape_eqbP, R. }
exact (mape_l mx y rs r S (wf_len _ _ W2 W1 S) Lr N Z K E).
Qed.
Print Assumptions mape_is_mean_relative_error.
Example relative_ex : exists r, mape (Arr [2%nat] [1; 3]) (Arr [2%nat] [2; 2]) = Some r /\ r = 1 / 2.
Proof. eexists. split; [reflexivity|]. unfold zipw, mean_l; cbn. rewrite Rabs_pos_eq by lra. rewrite Rabs_left by lra. lra. Qed.
