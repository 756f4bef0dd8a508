(** C115-C121: the surrogate of the Bayesian optimization and its acquisition (gp_bo.py 115-523). *)
From Coq Require Import Reals Lra Lia Permutation Sorted.
From Coquelicot Require Import Coquelicot.
From Verif Require Import Model.Prelude Model.Kernels Model.BO Model.Surrogate Spec.Sums Spec.MetricsSpec Spec.KernelSpec Spec.SurrogateSpec Spec.GGMPFitSpec.
From Verif Require Import Proofs.PsdP Proofs.KernelPsdP Proofs.NormalP Proofs.GaussP Proofs.SurrogateP.
From Verif Require Props.GGMPFitProps.
Local Open Scope R_scope.

(** ** C115 *)
(** The analytic derivatives handed to the optimizers are the derivatives, in every direction and also where the two
    points coincide; hyperparameters past the length scales do not enter. *)
Theorem surrogate_derivatives : forall D x u hps m, (forall i, (i < D)%nat -> hps (S i) <> 0) -> (D < m)%nat ->
  gradient_at D (fun u => surrogate_kernel D x u hps) u (surrogate_dx D u x hps) /\
  gradient_at m (fun h => surrogate_kernel D x u h) hps (surrogate_grad D x u hps) /\
  (/ 10 ^ 12 < hps (S D) -> (S D < m)%nat -> gradient_at m (learned_noise D) hps (learned_noise_grad D)) /\
  forall c, gradient_at D (poly_mean D c) u (poly_mean_dx D (Some c) u) /\
            poly_mean D c u = c O + rsum (fun i => c (1 + i)%nat * u i + c (1 + D + i)%nat * u i ^ 2) D.
Proof.
  intros D x u hps m H Hm. split; [apply kernel_dx_l, H|]. split; [apply kernel_grad_l; assumption|].
  split; [|intros c; split; [apply poly_mean_grad_l|apply poly_mean_eq]].
  intros P Hm' v. apply (dpl_loc (fun t => moved hps v t (S D))).
  - assert (Hd : derivable_pt_lim (fun t => moved hps v t (S D)) 0 (v (S D))) by (unfold moved; apply is_derive_Reals; auto_derive; [auto|ring]).
    destruct (near_gt _ _ _ (/ 10 ^ 12) Hd) as (d & D0 & E); [rewrite moved_0; exact P|]. exists d. split; [exact D0|].
    intros t Ht. specialize (E t Ht). unfold learned_noise. rewrite Rmax_left by lra. reflexivity.
  - replace (rsum (fun i => learned_noise_grad D i * v i) m) with (v (S D)); [unfold moved; apply is_derive_Reals; auto_derive; [auto|ring]|].
    rewrite <- (rsum_delta v m (S D) Hm') at 1. apply rsum_ext. intros i _. unfold learned_noise_grad. rewrite (Nat.eqb_sym i). destruct (Nat.eqb (S D) i); ring.
Qed.
Print Assumptions surrogate_derivatives.
(** The kernel is a covariance function, so the surrogate is a Gaussian process. *)
Theorem surrogate_kernel_valid : forall D hps, 0 <= hps O -> valid_covariance (fun x y => surrogate_kernel D x y hps).
Proof.
  intros D hps H. split; [intros; apply kernel_sym|]. intros l.
  set (f := fun i (x : point) => sqrt 5 * (x i / hps (S i))).
  assert (E : forall x y : point, surrogate_kernel D x y hps = hps O * M2 (rsum (fun i => (f i x - f i y) ^ 2) D)).
  { intros x y. rewrite kernel_M2e. unfold M2e. pose proof (sqd_nonneg D x y hps). destruct (Rlt_dec _ 0); [lra|]. f_equal. f_equal.
    unfold sqd. rewrite <- rsum_scal. apply rsum_ext. intros i _. unfold f.
    replace ((sqrt 5 * (x i / hps (S i)) - sqrt 5 * (y i / hps (S i))) ^ 2) with (sqrt 5 * sqrt 5 * ((x i - y i) / hps (S i)) ^ 2) by (unfold Rdiv; ring).
    rewrite sqrt_sqrt by lra. reflexivity. }
  rewrite (qf_ext _ (fun x y => hps O * M2 (rsum (fun i => (f i x - f i y) ^ 2) D))) by exact E.
  apply (mult_nn (fun x y => hps O * M2 (rsum (fun i => (f i x - f i y) ^ 2) D))).
  apply mult_scal; [exact H|]. apply (mult_M2 (fun x y => rsum (fun i => (f i x - f i y) ^ 2) D)); [apply sqdist_nonneg|apply nt_sqdist].
Qed.
Print Assumptions surrogate_kernel_valid.
Example surrogate_kernel_slope : let hps i := match i with O => 3 | _ => 2 end in
  surrogate_dx 1 (fun _ => 2) (fun _ => 0) hps 0 = - (5 / 2) * ((1 + sqrt 5) * exp (- sqrt 5)) /\
  surrogate_grad 1 (fun _ => 2) (fun _ => 0) hps 1 = 5 / 2 * ((1 + sqrt 5) * exp (- sqrt 5)) /\
  surrogate_dx 1 (fun _ => 2) (fun _ => 2) hps 0 = 0.
Proof.
  cbn [rsum]. assert (E : sqrt (0 + ((2 - 0) / 2) ^ 2) = 1) by (rewrite <- sqrt_1; f_equal; field).
  unfold surrogate_dx, surrogate_grad. cbn [rsum Nat.ltb Nat.leb]. rewrite !E, !Rmult_1_r. repeat split; field.
Qed.
Example learned_noise_flat : ~ gradient_at 3 (learned_noise 1) (fun _ => 0) (learned_noise_grad 1).
Proof.
  intros H. specialize (H (fun _ => 1)).
  assert (C : derivable_pt_lim (fun t => learned_noise 1 (moved (fun _ => 0) (fun _ => 1) t)) 0 0).
  { apply (dpl_loc (fun _ => / 10 ^ 12)); [|apply derivable_pt_lim_const].
    exists (/ 10 ^ 12). split; [apply Rinv_0_lt_compat, pow_lt; lra|]. intros t Ht. apply Rabs_def2 in Ht. unfold learned_noise, moved. rewrite Rmax_right; lra. }
  pose proof (uniqueness_limite _ _ _ _ H C) as E. cbn in E. lra.
Qed.

(** ** C116 *)
Definition post_mean_ (g : surrogate) (u : point) : R := fst (fst (fst (post g u))).
Definition post_var_ (g : surrogate) (u : point) : R := snd (fst (fst (post g u))).
Definition post_dmean (g : surrogate) (u : point) : nat -> R := snd (fst (post g u)).
Definition post_dvar (g : surrogate) (u : point) : nat -> R := snd (post g u).
Lemma post_parts g u : post_mean_ g u = shown_mean g u /\ post_var_ g u = shown_var g u /\ post_dmean g u = shown_dmean g u /\
  forall i, post_dvar g u i = shown_dvar' g u i.
Proof. unfold post_mean_, post_var_, post_dmean, post_dvar. destruct (post_eq' g u) as (dv & -> & E). auto. Qed.
Lemma gradient_ext m f h u d d' : (forall x, f x = h x) -> (forall i, d i = d' i) -> gradient_at m f u d -> gradient_at m h u d'.
Proof.
  intros E E' G v. apply (KernelGradP.dpl_ext (fun t => f (moved u v t))); [intros; apply E|].
  rewrite (rsum_ext _ (fun i => d i * v i)) by (intros; rewrite E'; reflexivity). apply G.
Qed.
(** What the acquisition's gradient search uses: the reported gradients are the gradients of the reported mean and
    variance; the variance is the surrogate's, raised to a floor; the mean is the surrogate's if a quadratic mean was
    fitted, and otherwise falls short of it by the average of the data. *)
Theorem surrogate_post_partial : forall lstsq noise g u, is_fit lstsq noise g ->
  gradient_at (s_dim g) (post_mean_ g) u (post_dmean g u) /\
  (gp_var g u <> var_floor g -> gradient_at (s_dim g) (post_var_ g) u (post_dvar g u)) /\
  post_var_ g u = Rmax (gp_var g u) (/ 10 ^ 10 * Rmax (s_hps g O) (/ 10 ^ 300)) /\
  ((2 * (1 + 2 * s_dim g) <= s_n g)%nat -> post_mean_ g u = gp_mean g u) /\
  ((s_n g < 2 * (1 + 2 * s_dim g))%nat -> post_mean_ g u = gp_mean g u - rsum (s_y g) (s_n g) / INR (s_n g)).
Proof.
  intros lstsq noise g u F. pose proof (fit_lengths _ _ _ F) as L. pose proof (fit_sym _ _ _ F) as Y.
  split. { eapply gradient_ext; [intros; symmetry; apply post_parts|intros i; destruct (post_parts g u) as (_ & _ & E & _); symmetry; rewrite E; reflexivity|apply mean_grad_l, L]. }
  split. { intros N. eapply gradient_ext; [intros; symmetry; apply post_parts|intros i; symmetry; apply post_parts|apply shown_var_grad; auto using raw_ne_floor]. }
  destruct (post_parts g u) as (-> & -> & _). split; [apply shown_var_max|].
  pose proof (fit_mean _ _ _ F) as C. unfold polynomial_mean, n_coef in C. unfold gp_mean, shown_mean, prior_mean, shown_prior.
  split; intros H; destruct (Nat.ltb_spec (s_n g) (2 * (1 + 2 * s_dim g))); try lia; rewrite C; ring.
Qed.
Print Assumptions surrogate_post_partial.
(** a surrogate of one observation [y] at the origin *)
Definition one_point (y : R) : surrogate := Sur 1 1 (fun _ _ => 0) (fun _ => y) (fun _ => 1) None (fun _ _ => / 2).
Lemma kernel_same D x hps : surrogate_kernel D x x hps = hps O.
Proof.
  rewrite kernel_M2e. replace (sqd D x x hps) with 0; [rewrite Rmult_0_r; unfold M2e; destruct (Rlt_dec 0 0); [lra|]; rewrite M2_0; ring|].
  unfold sqd. rewrite (rsum_ext _ (fun _ => 0)), rsum_const; [ring|]. intros. unfold Rdiv. ring.
Qed.
Lemma one_point_fit lstsq y : is_fit lstsq (fun _ => 1) (one_point y).
Proof.
  split; cbn; [reflexivity| |intros; lra]. intros [|i] [|j] Hi Hj; cbn in Hi, Hj; try lia. cbn [rsum Nat.eqb s_inv s_n s_dim s_x s_hps one_point].
  rewrite kernel_same. field.
Qed.
Lemma one_point_inv y a : kvinv_y (one_point y) a = 0.
Proof. unfold kvinv_y, prior_mean. cbn. field. Qed.
(** Without a quadratic mean - too few points - the mean used by the gradient search is off by the average of the data,
    however large that is. *)
Theorem surrogate_post_refuted : ~ (forall lstsq noise g u, is_fit lstsq noise g -> post_mean_ g u = gp_mean g u).
Proof.
  intros H. specialize (H (fun _ _ _ _ _ => 0) _ (one_point 5) (fun _ => 0) (one_point_fit _ 5)).
  destruct (post_parts (one_point 5) (fun _ => 0)) as (E & _). rewrite E in H. unfold shown_mean, gp_mean in H.
  cbn [s_n one_point rsum] in H. rewrite !one_point_inv in H. unfold shown_prior, prior_mean in H. cbn in H. lra.
Qed.
Print Assumptions surrogate_post_refuted.

(** ** C117 *)
(** Both acquisition functions are the average over the sampled incumbents of the expected gain over them, which is
    positive; the gradient reported with the second is its gradient. *)
Theorem nei_gains : forall Phi g samples u, normal_cdf Phi -> samples <> [] ->
  (exists gains, length gains = length samples /\ nei Phi g samples u = mean_list gains /\ 0 < mean_list gains /\
    forall k, (k < length samples)%nat -> expected_gain (gp_mean g u) (sqrt (Rmax (gp_var g u) (/ 10 ^ 12))) (nth k samples 0) (nth k gains 0)) /\
  (exists gains, length gains = length samples /\ fst (nei_grad Phi g samples u) = mean_list gains /\ 0 < mean_list gains /\
    forall k, (k < length samples)%nat -> expected_gain (post_mean_ g u) (sqrt (post_var_ g u)) (nth k samples 0) (nth k gains 0)).
Proof.
  intros Phi g samples u HP HS.
  assert (K : forall m s, 0 < s -> let gains := map (fun y => ei Phi (m - y) s) samples in
     length gains = length samples /\ 0 < mean_list gains /\ forall k, (k < length samples)%nat -> expected_gain m s (nth k samples 0) (nth k gains 0)).
  { intros m s P gains. unfold gains. rewrite map_length. split; [reflexivity|]. split; [apply rmean_pos; [exact HS|]; intros; apply ei_pos; auto|].
    intros k Hk. rewrite (nth_indep (map _ samples) 0 (ei Phi (m - 0) s)) by (rewrite map_length; exact Hk). rewrite (map_nth (fun y => ei Phi (m - y) s)). apply ei_gain; auto. }
  split.
  - assert (P : 0 < sqrt (Rmax (gp_var g u) (/ 10 ^ 12))).
    { apply sqrt_lt_R0. pose proof (Rmax_r (gp_var g u) (/ 10 ^ 12)). assert (0 < / 10 ^ 12) by (apply Rinv_0_lt_compat, pow_lt; lra). lra. }
    destruct (K (gp_mean g u) _ P) as (K1 & K2 & K3). eexists. split; [exact K1|]. split; [|split; [exact K2|exact K3]].
    unfold nei. rewrite Rmax_left; [reflexivity|]. left. exact K2.
  - destruct (nei_grad_eq Phi HP g samples HS u) as [E _]. destruct (post_parts g u) as (-> & -> & _).
    destruct (K (shown_mean g u) _ (std_pos g u)) as (K1 & K2 & K3). eexists. split; [exact K1|]. split; [exact E|]. split; [exact K2|exact K3].
Qed.
Print Assumptions nei_gains.
Theorem nei_gradient : forall Phi lstsq noise g samples u, normal_cdf Phi -> samples <> [] -> is_fit lstsq noise g -> gp_var g u <> var_floor g ->
  gradient_at (s_dim g) (fun u => fst (nei_grad Phi g samples u)) u (snd (nei_grad Phi g samples u)).
Proof.
  intros Phi lstsq noise g samples u HP HS F N. apply nei_gradient_l; auto; [apply (fit_lengths _ _ _ F)|apply (fit_sym _ _ _ F)|apply raw_ne_floor, N].
Qed.
Print Assumptions nei_gradient.
Example nei_example : nei std_cdf (one_point 5) [5] (fun _ => 0) = sqrt (/ 2) / sqrt (2 * PI).
Proof.
  unfold nei. assert (V : gp_var (one_point 5) (fun _ => 0) = / 2).
  { unfold gp_var. cbn [s_n one_point rsum kv_solve s_dim s_hps]. unfold kv_solve, cross. cbn [s_n one_point rsum s_dim s_hps s_x s_inv]. rewrite !kernel_same.
    destruct (Rlt_dec _ 0); lra. }
  assert (M : gp_mean (one_point 5) (fun _ => 0) = 5). { unfold gp_mean. cbn [s_n one_point rsum]. rewrite one_point_inv. unfold prior_mean. cbn. field. }
  rewrite V, M. rewrite (Rmax_left (/ 2)) by (cbn; lra). unfold rmean. cbn [map fold_right length INR].
  assert (E : ei std_cdf (5 - 5) (sqrt (/ 2)) = sqrt (/ 2) / sqrt (2 * PI)).
  { unfold ei, pdf. replace ((5 - 5) / sqrt (/ 2)) with 0 by (unfold Rdiv; ring). replace (- 0 ^ 2 / 2) with 0 by field. rewrite exp_0. unfold Rdiv. ring. }
  rewrite E. pose proof s2pi. assert (0 < sqrt (/ 2)) by (apply sqrt_lt_R0; lra).
  rewrite Rmax_left; [field; lra|]. apply Rmult_le_pos; [|cbn; lra]. apply Rplus_le_le_0_compat; [|lra]. left. apply Rdiv_lt_0_compat; lra.
Qed.

(** ** C118 *)
(** With a quadratic mean the value by which candidates are screened and the value that is maximized from the best of
    them differ only where the variance is below the floors, and by no more than the floors allow. *)
Theorem screening_partial : forall Phi lstsq noise g samples u, normal_cdf Phi -> samples <> [] -> is_fit lstsq noise g ->
  (2 * (1 + 2 * s_dim g) <= s_n g)%nat ->
  Rabs (nei Phi g samples u - fst (nei_grad Phi g samples u)) <= / sqrt (2 * PI) * sqrt (Rmax (/ 10 ^ 12) (var_floor g)) /\
  (/ 10 ^ 12 <= gp_var g u -> var_floor g <= gp_var g u -> nei Phi g samples u = fst (nei_grad Phi g samples u)).
Proof.
  intros Phi lstsq noise g samples u HP HS F H. apply screen_search; auto. rewrite (fit_mean _ _ _ F). unfold polynomial_mean, n_coef.
  destruct (Nat.ltb_spec (s_n g) (2 * (1 + 2 * s_dim g))); [lia|discriminate].
Qed.
Print Assumptions screening_partial.
(** Before that many points are known, the searched value can be larger than the screened one by any amount. *)
Theorem screening_refuted : forall C, 1 < C -> exists lstsq noise g samples u, is_fit lstsq noise g /\
  nei std_cdf g samples u < 1 /\ C < fst (nei_grad std_cdf g samples u).
Proof.
  intros C HC. exists (fun _ _ _ _ _ => 0), (fun _ => 1), (one_point (- C)), [- C], (fun _ => 0). split; [apply one_point_fit|].
  assert (V : gp_var (one_point (- C)) (fun _ => 0) = / 2).
  { unfold gp_var. cbn [s_n one_point rsum kv_solve s_dim s_hps]. unfold kv_solve, cross. cbn [s_n one_point rsum s_dim s_hps s_x s_inv]. rewrite !kernel_same.
    destruct (Rlt_dec _ 0); lra. }
  assert (M : gp_mean (one_point (- C)) (fun _ => 0) = - C). { unfold gp_mean. cbn [s_n one_point rsum]. rewrite one_point_inv. unfold prior_mean. cbn. field. }
  split.
  - unfold nei. rewrite V, M. rewrite (Rmax_left (/ 2)) by (cbn; lra). unfold rmean. cbn [map fold_right length INR].
    unfold ei, pdf. replace ((- C - - C) / sqrt (/ 2)) with 0 by (unfold Rdiv; ring). replace (- 0 ^ 2 / 2) with 0 by field. rewrite exp_0.
    assert (Q : 1 < sqrt (2 * PI)). { rewrite <- sqrt_1. apply sqrt_lt_1; pose proof PI2_3_2; lra. }
    assert (S2 : 0 < sqrt (/ 2) < 1). { split; [apply sqrt_lt_R0; lra|]. pose proof (sqrt_lt_1 (/ 2) 1 ltac:(lra) ltac:(lra) ltac:(lra)) as Q1. rewrite sqrt_1 in Q1. exact Q1. }
    assert (I : 0 < / sqrt (2 * PI) < 1). { split; [apply Rinv_0_lt_compat; lra|]. rewrite <- Rinv_1. apply Rinv_lt_contravar; lra. }
    apply Rmax_case; [|lra]. replace (- C - - C) with 0 by ring. unfold Rdiv. rewrite Rinv_1. nra.
  - destruct (nei_grad_eq std_cdf std_normal (one_point (- C)) [- C] ltac:(discriminate) (fun _ => 0)) as [E _]. rewrite E. unfold nval, rmean. cbn [map fold_right length INR].
    assert (M0 : shown_mean (one_point (- C)) (fun _ => 0) = 0). { unfold shown_mean. cbn [s_n one_point rsum]. rewrite one_point_inv. unfold shown_prior. cbn. ring. }
    rewrite M0. pose proof (ei_ge std_cdf std_normal (0 - - C) _ (std_pos (one_point (- C)) (fun _ => 0))). lra.
Qed.
Print Assumptions screening_refuted.

(** ** C119 *)
(** The proposed point lies in the cube, its value is a value of one of the two acquisition functions at that very point,
    and no screened candidate has a larger one. With a quadratic mean the value is the noisy expected improvement of the
    proposed point up to the floors. *)
Theorem acquisition_maximum : forall argsort minimize acq acq_grad D raw n,
  argsort_contract argsort -> box_minimizer D o_x o_fun o_success minimize -> first_coordinates D (fun u => fst (acq_grad u)) ->
  raw <> [] -> (0 < n)%nat -> (forall r : point, In r raw -> in_cube D r) ->
  exists u v, maximize_acquisition argsort minimize acq acq_grad raw n = Ok (u, v) /\ in_cube D u /\
    (forall r : point, In r raw -> acq r <= v) /\ ((In u raw /\ v = acq u) \/ v = fst (acq_grad u)).
Proof. intros. apply maximize_l; assumption. Qed.
Print Assumptions acquisition_maximum.
Theorem acquisition_search : forall Phi lstsq noise g samples argsort minimize raw n,
  normal_cdf Phi -> samples <> [] -> is_fit lstsq noise g -> (2 * (1 + 2 * s_dim g) <= s_n g)%nat ->
  argsort_contract argsort -> box_minimizer (s_dim g) o_x o_fun o_success minimize ->
  raw <> [] -> (0 < n)%nat -> (forall r : point, In r raw -> in_cube (s_dim g) r) ->
  exists u v, maximize_acquisition argsort minimize (nei Phi g samples) (nei_grad Phi g samples) raw n = Ok (u, v) /\
    in_cube (s_dim g) u /\ (forall r : point, In r raw -> nei Phi g samples r <= v) /\
    Rabs (nei Phi g samples u - v) <= / sqrt (2 * PI) * sqrt (Rmax (/ 10 ^ 12) (var_floor g)).
Proof.
  intros Phi lstsq noise g samples argsort minimize raw n HP HS F HN HA HM HR Hn HC.
  destruct (maximize_l argsort minimize (nei Phi g samples) (nei_grad Phi g samples) (s_dim g) HA HM (nei_first Phi g samples HP HS) raw n HR Hn HC)
    as (u & v & E & C & M & V).
  exists u, v. split; [exact E|]. split; [exact C|]. split; [exact M|].
  destruct (screening_partial Phi lstsq noise g samples u HP HS F HN) as [B _]. pose proof (Rabs_pos (nei Phi g samples u - fst (nei_grad Phi g samples u))).
  destruct V as [[_ ->]| ->]; [|exact B]. rewrite Rminus_eq_0, Rabs_R0. lra.
Qed.
Print Assumptions acquisition_search.
(** what the minimizer is handed: minus the acquisition, with the gradient of minus the acquisition *)
Theorem acquisition_direction : forall Phi lstsq noise g samples u, normal_cdf Phi -> samples <> [] -> is_fit lstsq noise g -> gp_var g u <> var_floor g ->
  fst (objective_of (nei_grad Phi g samples) u) = - fst (nei_grad Phi g samples u) /\
  gradient_at (s_dim g) (fun u => fst (objective_of (nei_grad Phi g samples) u)) u (snd (objective_of (nei_grad Phi g samples) u)).
Proof.
  intros Phi lstsq noise g samples u HP HS F N.
  assert (E : forall w, objective_of (nei_grad Phi g samples) w = (- fst (nei_grad Phi g samples w), fun i => - snd (nei_grad Phi g samples w) i)).
  { intros w. unfold objective_of. now destruct (nei_grad Phi g samples w). }
  split; [now rewrite E|]. intros v. pose proof (nei_gradient Phi lstsq noise g samples u HP HS F N v) as D.
  apply derivable_pt_lim_opp in D. rewrite E. cbn [snd].
  replace (rsum (fun i => - snd (nei_grad Phi g samples u) i * v i) (s_dim g)) with (- rsum (fun i => snd (nei_grad Phi g samples u) i * v i) (s_dim g)).
  - intros eps He. destruct (D eps He) as [del Hd]. exists del. intros h H0 H1. specialize (Hd h H0 H1). unfold opp_fct in Hd. rewrite !E. exact Hd.
  - rewrite (rsum_ext (fun i => - snd (nei_grad Phi g samples u) i * v i) (fun i => -1 * (snd (nei_grad Phi g samples u) i * v i))) by (intros; ring). rewrite rsum_scal. ring.
Qed.
Print Assumptions acquisition_direction.
Theorem acquisition_rejects : forall argsort minimize acq acq_grad raw n, argsort_contract argsort -> raw = [] \/ n = O ->
  maximize_acquisition argsort minimize acq acq_grad raw n = Err ENoStart.
Proof.
  intros argsort minimize acq acq_grad raw n HA H. unfold maximize_acquisition.
  assert (E : firstn n (argsort (map Ropp (map acq raw))) = []); [|rewrite E; reflexivity].
  destruct H as [->| ->]; [|reflexivity]. destruct (HA []) as [P _]. cbn in P. cbn [map]. apply Permutation_sym, Permutation_nil in P. rewrite P. apply firstn_nil.
Qed.
Print Assumptions acquisition_rejects.
Definition to_corner (f : point -> R * (nat -> R)) (u : point) : opt_result := Opt true (fun _ => 1) (fst (f (fun _ => 1))).
Lemma to_corner_ok D : box_minimizer D o_x o_fun o_success to_corner.
Proof. intros f u _ _. cbn. split; [intros i _; lra|reflexivity]. Qed.
Example acquisition_example : exists u, maximize_acquisition GGMPFitProps.argsort_ins to_corner (fun u => u O) (fun u => (u O, fun _ => 1)) [fun _ => / 4; fun _ => / 2] 1 = Ok (u, 1) /\ u O = 1.
Proof.
  destruct (acquisition_maximum GGMPFitProps.argsort_ins to_corner (fun u => u O) (fun u => (u O, fun _ => 1)) 1 [fun _ => / 4; fun _ => / 2] 1) as (u & v & E & _);
    try (apply GGMPFitProps.argsort_ins_ok || apply to_corner_ok || discriminate || lia).
  - intros x y H. apply H. lia.
  - intros r [<-|[<-|[]]] i _; lra.
  - unfold maximize_acquisition in *. cbn [map] in *. destruct (firstn 1 (GGMPFitProps.argsort_ins [- / 4; - / 2])) as [|i [|? ?]] eqn:Q; cbn [map] in *; [discriminate| |].
    + cbn [fold_left rmaximum] in *. unfold climb in *. cbn [o_success o_x o_fun to_corner objective_of fst snd andb] in *.
      rewrite (Rmax_right (/ 4) (/ 2)) in * by lra. unfold rltb in *. destruct (Rlt_dec (/ 2) (- - (1))); [|lra]. rewrite Ropp_involutive in *.
      eexists. split; [reflexivity|]. cbn. rewrite clip_id; lra.
    + exfalso. pose proof (firstn_le_length 1 (GGMPFitProps.argsort_ins [- / 4; - / 2])) as L. rewrite Q in L. cbn in L. lia.
Qed.

(** ** C120 *)
(** The quadratic mean is fitted once there are twice as many points as coefficients; no other quadratic without cross
    terms leaves smaller squared residuals, data of such a quadratic are reproduced, and the signal variance the surrogate
    is started from never exceeds the variance of the data. *)
Theorem quadratic_mean : forall lstsq D n us ys, least_squares lstsq ->
  (polynomial_mean lstsq D n us ys = None <-> (n < 2 * (1 + 2 * D))%nat) /\
  forall c, polynomial_mean lstsq D n us ys = Some c ->
    (forall c', rsum (fun a => (ys a - poly_mean D c (us a)) ^ 2) n <= rsum (fun a => (ys a - poly_mean D c' (us a)) ^ 2) n) /\
    (forall c', (forall a, (a < n)%nat -> ys a = poly_mean D c' (us a)) -> forall a, (a < n)%nat -> poly_mean D c (us a) = ys a).
Proof.
  intros lstsq D n us ys LS. unfold polynomial_mean, n_coef. destruct (Nat.ltb_spec n (2 * (1 + 2 * D))).
  - split; [tauto|discriminate].
  - split; [split; [discriminate|lia]|]. intros c E. injection E as <-.
    set (c := lstsq n (1 + 2 * D)%nat (fun a => design_row D (us a)) ys).
    assert (L : forall c', rsum (fun a => (ys a - poly_mean D c (us a)) ^ 2) n <= rsum (fun a => (ys a - poly_mean D c' (us a)) ^ 2) n)
      by (intros c'; apply (LS n (1 + 2 * D)%nat (fun a => design_row D (us a)) ys c')).
    split; [exact L|]. intros c' Q a Ha. specialize (L c').
    rewrite (rsum_ext (fun a => (ys a - poly_mean D c' (us a)) ^ 2) (fun _ => 0)) in L by (intros b Hb; rewrite (Q b Hb); ring). rewrite rsum_const in L.
    assert (Z : dotn n (fun a => ys a - poly_mean D c (us a)) (fun a => ys a - poly_mean D c (us a)) = 0).
    { unfold dotn. apply Rle_antisym; [|apply rsum_nonneg; intros; apply Rle_0_sqr].
      rewrite (rsum_ext _ (fun a => (ys a - poly_mean D c (us a)) ^ 2)) by (intros; ring). lra. }
    pose proof (dotn_zero n _ Z a Ha) as E. symmetry. exact (Rminus_diag_uniq _ _ E).
Qed.
Print Assumptions quadratic_mean.
Theorem surrogate_scale : forall lstsq D n us ys vs, least_squares lstsq -> (0 < n)%nat ->
  let sc := f_scale (fit_settings lstsq D n us ys vs) in
  0 < sc /\ (var_of ys n <> 0 -> sc <= var_of ys n) /\ (var_of ys n = 0 -> sc = 1).
Proof. intros. apply scale_l; assumption. Qed.
Print Assumptions surrogate_scale.
(** a solver that meets the contract, and six values of a parabola *)
Example least_squares_possible : least_squares (fun rows cols => ls cols rows).
Proof. exact ls_least. Qed.
Example quadratic_mean_example : exists c, polynomial_mean (fun rows cols => ls cols rows) 1 6 (fun a _ => INR a) (fun a => 3 + 2 * INR a ^ 2) = Some c /\
  poly_mean 1 c (fun _ => 5) = 53.
Proof.
  destruct (quadratic_mean _ 1 6 (fun a _ => INR a) (fun a => 3 + 2 * INR a ^ 2) ls_least) as [_ Q].
  eexists. split; [reflexivity|]. destruct (Q _ eq_refl) as [_ E].
  specialize (E (fun j => match j with O => 3 | S O => 0 | _ => 2 end)). replace (fun _ : nat => 5) with (fun _ : nat => INR 5).
  - rewrite (E ltac:(intros a _; rewrite poly_mean_eq; cbn; ring) 5%nat ltac:(lia)). replace (INR 5) with 5 by (cbn; ring). lra.
  - cbn. replace (1 + 1 + 1 + 1 + 1) with 5 by ring. reflexivity.
Qed.

(** ** C121 *)
(** The box the surrogate is trained in is a box of positive numbers; the start never lies above it, and lies in it unless
    the scale of the data is at the nugget; a learned noise level and reported noise levels stay at or above the nugget. *)
Theorem training_box_partial : forall lstsq D n us ys vs, least_squares lstsq -> (0 < n)%nat ->
  let st := fit_settings lstsq D n us ys vs in
  (forall k, (k < f_count st)%nat -> 0 < f_lo st k < f_hi st k /\ f_init st k <= f_hi st k /\
     (k <> O \/ 10000 / 9999 * / 10 ^ 12 <= f_scale st -> f_lo st k <= f_init st k)) /\
  (vs = None -> f_count st = (2 + D)%nat /\ f_noise st = None /\
     forall h, f_lo st (S D) <= h (S D) -> learned_noise D h = h (S D) /\ / 10 ^ 12 <= h (S D)) /\
  (forall v, vs = Some v -> f_count st = (1 + D)%nat /\
     exists w, f_noise st = Some w /\ forall a, w a = Rmax (v a) (Rmax (/ 10 ^ 7 * f_scale st) (/ 10 ^ 12))).
Proof.
  intros lstsq D n us ys vs LS Hn st. destruct (scale_l lstsq D n us ys vs LS Hn) as [P _]. fold st in P.
  destruct (settings_eq lstsq D n us ys vs) as (_ & E1 & E2 & E3 & E4 & E5). fold st in E1, E2, E3, E4, E5.
  assert (A : 0 < / 10 ^ 12) by (apply Rinv_0_lt_compat, pow_lt; lra).
  assert (A9 : / 10 ^ 12 < / 10 ^ 9) by (apply Rinv_lt_contravar; [apply Rmult_lt_0_compat; apply pow_lt; lra|apply Rlt_pow; [lra|lia]]).
  assert (A4 : / 10 ^ 4 = 1 / 10000) by (cbn; field). assert (A2 : / 10 ^ 2 = 1 / 100) by (cbn; field). assert (P2 : 10 ^ 2 = 100) by (cbn; ring).
  set (e := / 10 ^ 12) in *. set (e9 := / 10 ^ 9) in *.
  set (nug := Rmax (/ 10 ^ 7 * f_scale st) e) in *. assert (Nu : e <= nug) by apply Rmax_r.
  split; [|split].
  - intros k Hk. rewrite E1, E2, E3. destruct k as [|k].
    + rewrite A4, P2. repeat split; try lra. intros [Q|Q]; [congruence|lra].
    + destruct (Nat.ltb k D); [rewrite A2; repeat split; lra|].
      pose proof (Rmax_l (f_scale st) (10 * nug)). pose proof (Rmax_r (f_scale st) (10 * nug)).
      repeat split; try lra; [apply Rmax_lub; lra|]. intros _. apply Rmax_r.
  - intros ->. rewrite E4, E5. split; [reflexivity|]. split; [reflexivity|]. rewrite E2. intros h. destruct (Nat.ltb_spec D D); [lia|]. intros Q.
    unfold learned_noise. fold e. rewrite Rmax_left; lra.
  - intros v ->. rewrite E4, E5. split; [reflexivity|]. eexists. split; reflexivity.
Qed.
Print Assumptions training_box_partial.
Definition tiny_data (a : nat) : R := match a with O => 0 | _ => 2 / 10 ^ 7 end.
(** Values that differ by 2e-7 put the start below the box. *)
Theorem training_box_refuted : ~ (forall lstsq D n us ys vs, least_squares lstsq -> (0 < n)%nat ->
  let st := fit_settings lstsq D n us ys vs in forall k, (k < f_count st)%nat -> f_lo st k <= f_init st k <= f_hi st k).
Proof.
  intros H. specialize (H (fun rows cols => ls cols rows) 1%nat 2%nat (fun _ _ => 0) tiny_data None ls_least ltac:(lia) O ltac:(cbn; lia)).
  destruct (scale_l (fun rows cols => ls cols rows) 1 2 (fun _ _ => 0) tiny_data None ls_least ltac:(lia)) as (P & L & _).
  destruct (settings_eq (fun rows cols => ls cols rows) 1 2 (fun _ _ => 0) tiny_data None) as (_ & E1 & E2 & _).
  cbn zeta in H. set (st := fit_settings _ 1 2 _ tiny_data None) in *. rewrite E1, E2 in H.
  assert (V : var_of tiny_data 2 = / 10 ^ 14). { unfold var_of, mean_of. cbn [rsum tiny_data INR]. cbn. field. }
  rewrite V in L. assert (N : / 10 ^ 14 <> 0) by (apply Rinv_neq_0_compat, pow_nonzero; lra). specialize (L N).
  assert (/ 10 ^ 14 < / 10 ^ 12) by (apply Rinv_lt_contravar; [apply Rmult_lt_0_compat; apply pow_lt; lra|apply Rlt_pow; [lra|lia]]).
  assert (0 < / 10 ^ 4 * f_scale st) by (apply Rmult_lt_0_compat; [apply Rinv_0_lt_compat, pow_lt; lra|exact P]). lra.
Qed.
Print Assumptions training_box_refuted.
Example training_box_example : let st := fit_settings (fun rows cols => ls cols rows) 1 2 (fun _ _ => 0) (fun a => 2 * INR a) None in
  f_scale st = 1 /\ f_lo st 0 = / 10 ^ 4 * 1 + / 10 ^ 12 /\ f_hi st 2 = 1.
Proof.
  assert (V : f_scale (fit_settings (fun rows cols => ls cols rows) 1 2 (fun _ _ => 0) (fun a => 2 * INR a) None) = 1).
  { unfold fit_settings. cbn [f_scale]. unfold polynomial_mean. cbn [Nat.ltb Nat.leb n_coef Nat.add Nat.mul].
    replace (var_of (fun a => 2 * INR a - mean_of (fun a0 => 2 * INR a0) 2) 2) with 1 by (unfold var_of, mean_of; cbn; field).
    destruct (Rle_dec 1 0); [lra|reflexivity]. }
  destruct (settings_eq (fun rows cols => ls cols rows) 1 2 (fun _ _ => 0) (fun a => 2 * INR a) None) as (_ & _ & E2 & E3 & _).
  cbn zeta. rewrite E2, E3, V. repeat split. cbn. rewrite Rmax_left; [reflexivity|]. 
  apply (Rle_trans _ (10 * (1 / 10))); [|lra]. apply Rmult_le_compat_l; [lra|]. apply Rmax_lub; lra.
Qed.
