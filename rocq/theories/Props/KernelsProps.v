(** Properties C36-C39 and C68-C71: the kernels. *)
From Coq Require Import Reals Lra Lia List Psatz.
From Verif Require Import Model.Prelude Model.Kernels Spec.Sums Spec.KernelSpec Spec.KernelSupportSpec
  Proofs.PsdP Proofs.KernelPsdP Proofs.KernelsP Proofs.KernelGradP Proofs.KernelSupportP Proofs.WendlandFiveP Proofs.WendlandP.
Import ListNotations.
Local Open Scope R_scope.

(** ** C36: kernels of a distance are correlation profiles *)
Theorem radial_kernels_partial :
  (forall l, 0 < l -> correlation_profile (fun d => sq_exp d l) /\ correlation_profile (fun d => exponential d l) /\
     correlation_profile (fun d => matern1 d l) /\ correlation_profile (fun d => matern2 d l)) /\
  (forall phi, phi <> 0 -> correlation_profile (fun d => sq_exp_robust d phi) /\
     correlation_profile (fun d => exponential_robust d phi) /\ correlation_profile (fun d => matern1_robust d phi)) /\
  (forall l p, l <> 0 -> p <> 0 -> periodic 0 l p = 1 /\ forall d, 0 < periodic d l p <= 1 /\ periodic (d + p) l p = periodic d l p) /\
  (forall r, 0 < r ->
     (forall d, 0 <= d -> 0 <= sparse_kernel d r < sqrt 2 / (3 * sqrt PI)) /\
     (forall d, r <= d -> sparse_kernel d r = 0) /\
     (forall d d', 0 < d -> d <= d' -> sparse_kernel d' r <= sparse_kernel d r)).
Proof.
  split; [|split; [|split]].
  - intros l Hl. auto using sq_exp_profile, exponential_profile, matern1_profile, matern2_profile.
  - intros phi H. pose proof (phi2 phi H) as P. split; [|split].
    + assert (0 < / (sqrt 2 * Rabs phi)).
      { apply Rinv_0_lt_compat, Rmult_lt_0_compat; [apply sqrt_lt_R0; lra|apply Rabs_pos_lt, H]. }
      destruct (sq_exp_profile _ H0) as [A [B C]]. split; [|split]; intros; rewrite ?robust_sq_exp by exact H; auto.
    + destruct (exponential_profile _ P) as [A [B C]]. split; [|split]; intros; rewrite ?robust_exponential by exact H; auto.
    + destruct (matern1_profile _ P) as [A [B C]]. split; [|split]; intros; rewrite ?robust_matern1 by exact H; auto.
  - intros l p Hl Hp. unfold periodic. split.
    + replace (PI * 0 / p) with 0 by (field; exact Hp). rewrite sin_0. replace (- (2 / l ^ 2) * 0 ^ 2) with 0 by ring. apply exp_0.
    + intros d. split; [split; [apply exp_pos|]|].
      * rewrite <- exp_0. apply exp_le. assert (0 < 2 / l ^ 2) by (apply Rdiv_lt_0_compat; nra). pose proof (pow2_ge_0 (sin (PI * d / p))). nra.
      * replace (PI * (d + p) / p) with (PI * d / p + PI) by (field; exact Hp). rewrite neg_sin. do 2 f_equal. ring.
  - intros r Hr. pose proof sk_amp as A. split; [|split].
    + intros d Hd. rewrite sparse_kernel_sk. pose proof (sparse_dist_range d r Hr Hd) as R0.
      pose proof (sk_range _ R0). pose proof (sk_lt_1 _ R0). nra.
    + intros d Hd. rewrite sparse_kernel_sk. replace (sparse_dist d r) with r.
      * replace (r / r) with 1 by (field; lra). rewrite sk_one. ring.
      * unfold sparse_dist. destruct (Req_EM_T d 0); [lra|]. destruct (Rlt_dec r d); lra.
    + intros d d' Hd H. rewrite !sparse_kernel_sk. apply Rmult_le_compat_l; [lra|].
      pose proof (sparse_dist_range d r Hr ltac:(lra)) as R0. pose proof (sparse_dist_range d' r Hr ltac:(lra)) as R1.
      assert (K : sparse_dist d r <= sparse_dist d' r).
      { unfold sparse_dist. destruct (Req_EM_T d 0), (Req_EM_T d' 0); try lra. destruct (Rlt_dec r d), (Rlt_dec r d'); lra. }
      destruct (Req_dec (sparse_dist d r) (sparse_dist d' r)) as [->|]; [lra|]. left. apply sk_strict; try lra.
      unfold Rdiv. apply Rmult_lt_compat_r; [apply Rinv_0_lt_compat, Hr|lra].
Qed.
Print Assumptions radial_kernels_partial.
Example matern1_example : matern1 1 1 < matern1 0 1 /\ 0 < matern1 1 1.
Proof.
  assert (Z : matern1 0 1 = 1) by (destruct (proj1 (proj2 (proj2 (proj1 radial_kernels_partial 1 Rlt_0_1)))) as [E _]; exact E).
  rewrite Z. unfold matern1. pose proof s3. replace (- (sqrt 3 * 1) / 1) with (- sqrt 3) by field. replace (sqrt 3 * 1 / 1) with (sqrt 3) by field.
  pose proof (exp_pos (- sqrt 3)). split; [|nra]. rewrite exp_Ropp. pose proof (exp_ineq1 (sqrt 3)).
  apply (Rmult_lt_reg_r (exp (sqrt 3))); [apply exp_pos|]. rewrite Rmult_assoc, Rinv_l; [lra|]. pose proof (exp_pos (sqrt 3)); lra.
Qed.
(** The robust twice-differentiable Matern kernel exceeds its value at distance zero by half; sparse_kernel evaluates
    distance zero as the distance 0.00001 and so is larger just off the diagonal. *)
Theorem radial_kernels_refuted :
  (forall phi, phi <> 0 -> exists d, 0 < d /\ matern2_robust d phi > 3 / 2 * matern2_robust 0 phi) /\
  (forall r, 10 / 10 ^ 6 < r -> exists d, 0 < d /\ sparse_kernel d r > sparse_kernel 0 r).
Proof.
  split.
  - intros phi H. exists (/ (2 * phi ^ 2)). split; [apply Rinv_0_lt_compat; nra|]. rewrite matern2_robust_zero.
    pose proof (matern2_robust_big phi H). lra.
  - intros r Hr. exists (1 / 10 ^ 6). split; [lra|]. rewrite !sparse_kernel_sk. apply Rmult_lt_compat_l; [apply sk_amp|].
    unfold sparse_dist. destruct (Req_EM_T 0 0); [|lra]. destruct (Req_EM_T (1 / 10 ^ 6) 0); [lra|].
    destruct (Rlt_dec r (10 / 10 ^ 6)); [lra|]. destruct (Rlt_dec r (1 / 10 ^ 6)); [lra|].
    assert (0 < / r) by (apply Rinv_0_lt_compat; lra). apply sk_strict.
    + apply Rdiv_lt_0_compat; lra.
    + unfold Rdiv at 1 3. apply Rmult_lt_compat_r; lra.
    + apply (Rmult_le_reg_r r); [lra|]. unfold Rdiv at 1. rewrite Rmult_assoc, Rinv_l; lra.
Qed.
Print Assumptions radial_kernels_refuted.

(** ** C37: robust variants *)
Theorem robust_reparametrization_partial : forall phi d, phi <> 0 ->
  exponential_robust d phi = exponential d (/ phi ^ 2) /\ matern1_robust d phi = matern1 d (/ phi ^ 2) /\
  sq_exp_robust d phi = sq_exp d (/ (sqrt 2 * Rabs phi)).
Proof. intros phi d H. auto using robust_exponential, robust_matern1, robust_sq_exp. Qed.
Print Assumptions robust_reparametrization_partial.
Theorem robust_reparametrization_refuted : forall phi, phi <> 0 -> ~ exists l, 0 < l /\ forall d, 0 <= d -> matern2_robust d phi = matern2 d l.
Proof.
  intros phi H [l [Hl E]]. pose proof (matern2_robust_big phi H) as B.
  assert (P : 0 <= / (2 * phi ^ 2)) by (left; apply Rinv_0_lt_compat; nra).
  rewrite E in B by exact P. destruct (matern2_profile l Hl) as [Z [_ A]]. specialize (A 0 (/ (2 * phi ^ 2)) ltac:(lra) P). lra.
Qed.
Print Assumptions robust_reparametrization_refuted.
Example robust_example : exponential_robust 3 2 = exponential 3 (1 / 4).
Proof. unfold exponential_robust, exponential. f_equal. field. Qed.

(** ** C38: compact support *)
Theorem compact_support : forall D x y hps,
  (1 <= aniso_distance D x y (fun i => hps (S i)) -> wendland_dense D x y hps = 0 /\ wendland_anisotropic D x y hps = 0) /\
  wendland_anisotropic D x y hps = wendland_dense D x y hps /\
  (forall d r beta ampl, 0 < r -> r <= d -> bump d r beta ampl = 0) /\
  (forall d r beta ampl, 0 < r -> 0 <= beta -> 0 <= ampl -> 0 <= bump d r beta ampl <= ampl).
Proof.
  intros D x y hps.
  assert (E : wendland_anisotropic D x y hps = wendland_dense D x y hps).
  { unfold wendland_anisotropic, wendland_dense, wendland_poly. rewrite <- Rmult_assoc.
    rewrite (rsum_ext (fun i => Rabs ((x i - y i) / hps (S i)) ^ 2) (fun i => ((x i - y i) / hps (S i)) ^ 2)); [reflexivity|].
    intros; apply pow2_abs. }
  split; [|split; [exact E|split]].
  - intros H. rewrite E.
    assert (Z : wendland_dense D x y hps = 0); [|auto]. unfold wendland_dense. rewrite clip1_ge; [apply wendland_poly_1|].
    unfold aniso_distance in H. rewrite (rsum_ext _ (fun i => ((x i - y i) / hps (S i)) ^ 2)) in H; [exact H|]. intros; apply pow2_abs.
  - intros d r beta ampl Hr Hd. unfold bump. destruct (Rlt_dec 0 (1 - d ^ 2 / r ^ 2)) as [L|L]; [|reflexivity]. exfalso.
    assert (1 <= d ^ 2 / r ^ 2); [|lra]. apply (Rmult_le_reg_r (r ^ 2)); [nra|]. unfold Rdiv. rewrite Rmult_assoc, Rinv_l; nra.
  - intros d r beta ampl Hr Hb Ha. unfold bump. destruct (Rlt_dec 0 (1 - d ^ 2 / r ^ 2)) as [L|L]; [|lra].
    pose proof (exp_pos (- beta / (1 - d ^ 2 / r ^ 2) + beta)).
    assert (exp (- beta / (1 - d ^ 2 / r ^ 2) + beta) <= 1); [|nra].
    assert (Q : 0 <= d ^ 2 / r ^ 2) by (apply Rmult_le_pos; [nra|left; apply Rinv_0_lt_compat; nra]).
    assert (1 <= / (1 - d ^ 2 / r ^ 2)). { rewrite <- Rinv_1 at 1. apply Rinv_le_contravar; lra. }
    remember (1 - d ^ 2 / r ^ 2) as q. assert (0 <= beta * (/ q - 1)) by (apply Rmult_le_pos; lra). rewrite <- exp_0. apply exp_le. unfold Rdiv. lra.
Qed.
Print Assumptions compact_support.
(** With exactly D + 1 hyperparameters the support-aware block, read as a matrix, is the dense block; it stores no
    zeros and nothing out of range. *)
Theorem sparse_block_partial : forall query, ball_search query ->
  forall D x1 x2 hps, (forall i, (i < D)%nat -> hps (S i) <> 0) ->
  exists ts, support_triplets query D x1 x2 (S D) hps = Ok ts /\
    (forall i j, (i < length x1)%nat -> (j < length x2)%nat ->
       coo_entry ts i j = wendland_dense D (nth i x1 (fun _ => 0)) (nth j x2 (fun _ => 0)) hps) /\
    (forall v i j, In (v, i, j) ts -> v <> 0 /\ (i < length x1)%nat /\ (j < length x2)%nat).
Proof. intros query H D x1 x2 hps _. exact (sparse_block_l query H D x1 x2 hps). Qed.
Print Assumptions sparse_block_partial.
(** With further hyperparameters in the vector (noise or mean parameters) the dense kernel ignores them; the
    support-aware one fails, or for one-dimensional inputs silently treats them as length scales. *)
Theorem sparse_block_refuted : forall query,
  (exists x1 x2 hps, (forall i, 0 < hps i) /\ support_triplets query 1 x1 x2 3 hps = Ok [] /\
     wendland_dense 1 (nth 0 x1 (fun _ => 0)) (nth 0 x2 (fun _ => 0)) hps > 0) /\
  (forall D x1 x2 hps, (2 <= D)%nat -> x1 <> [] -> x2 <> [] -> support_triplets query D x1 x2 (S (S D)) hps = Err ShapeMismatch).
Proof.
  intros query. split.
  - exists [fun _ => 0], [fun _ => 1 / 2], (fun i => if Nat.eqb i 2 then 1 / 10 else 1). split; [|split].
    + intros i. destruct (Nat.eqb i 2); lra.
    + unfold support_triplets. cbn -[block_distance]. destruct (Rlt_dec 1 _) as [_|N]; [reflexivity|]. exfalso. apply N.
      unfold block_distance. rewrite <- sqrt_1 at 1. apply sqrt_lt_1_alt. split; [lra|]. cbn.
      replace (1 / 2 / 1 - 0 / 1) with (1 / 2) by field. replace (0 / 1 - 1 / 2 / 1) with (- (1 / 2)) by field.
      replace (1 / 2 / (1 / 10) - 0 / (1 / 10)) with 5 by field. replace (0 / (1 / 10) - 1 / 2 / (1 / 10)) with (-5) by field.
            rewrite (Rmax_right (- (1 / 2)) (1 / 2)) by lra. rewrite (Rmax_right (-5) 5) by lra. rewrite !(Rmax_right 0) by lra. lra.
    + cbn. unfold wendland_dense. cbn. replace (0 + (0 - 1 / 2) / 1 * ((0 - 1 / 2) / 1 * 1)) with ((1 / 2) ^ 2) by field.
      rewrite sqrt_pow2 by lra. rewrite clip1_le by lra. unfold wendland_poly. lra.
  - intros D x1 x2 hps H H1 H2. unfold support_triplets.
    destruct x1; [contradiction|]. destruct x2; [contradiction|]. cbn [length Nat.eqb orb].
    unfold whiten. cbn [Nat.pred]. destruct (Nat.eqb_spec D (S D)); [lia|]. destruct (Nat.eqb_spec D 1); [lia|].
    destruct (Nat.eqb_spec (S D) 1); [lia|]. reflexivity.
Qed.
Print Assumptions sparse_block_refuted.
(** the neighbour search contract is satisfiable: decide each pair *)
Definition all_pairs (D : nat) (z1 z2 : list point) : list (list nat) :=
  map (fun p => filter (fun j => if Rle_dec (euclid D p (nth j z2 (fun _ => 0))) 1 then true else false) (seq 0 (length z2))) z1.
Example ball_search_exists : ball_search all_pairs.
Proof.
  intros D z1 z2. split; [apply map_length|]. intros i Hi.
  set (f := fun p => filter (fun j => if Rle_dec (euclid D p (nth j z2 (fun _ => 0))) 1 then true else false) (seq 0 (length z2))).
  assert (E : nth i (all_pairs D z1 z2) [] = f (nth i z1 (fun _ => 0))).
  { change (all_pairs D z1 z2) with (map f z1). rewrite (nth_indep _ [] (f (fun _ => 0))) by (rewrite map_length; exact Hi). apply map_nth. }
  rewrite E. split; [apply NoDup_filter, seq_NoDup|]. intros j. unfold f. rewrite filter_In, in_seq.
  destruct (Rle_dec _ 1); split; intros [A B]; split; auto; try lia; try discriminate; contradiction.
Qed.
Example sparse_block_example : forall ts, support_triplets all_pairs 1 [fun _ => 0] [fun _ => 1 / 2; fun _ => 5] 2 (fun _ => 1) = Ok ts ->
  coo_entry ts 0 0 > 0 /\ coo_entry ts 0 1 = 0.
Proof.
  intros ts E. destruct (sparse_block_partial all_pairs ball_search_exists 1 [fun _ => 0] [fun _ => 1 / 2; fun _ => 5] (fun _ => 1)) as [ts' [E' [V _]]].
  { intros. lra. }
  rewrite E in E'. injection E' as <-. rewrite !V by (cbn; lia). cbn [nth]. split.
  - unfold wendland_dense. cbn. replace (0 + (0 - 1 / 2) / 1 * ((0 - 1 / 2) / 1 * 1)) with ((1 / 2) ^ 2) by field.
    rewrite sqrt_pow2 by lra. rewrite clip1_le by lra. unfold wendland_poly. lra.
  - unfold wendland_dense. cbn. replace (0 + (0 - 5) / 1 * ((0 - 5) / 1 * 1)) with (5 ^ 2) by field.
    rewrite sqrt_pow2 by lra. rewrite clip1_ge by lra. unfold wendland_poly. lra.
Qed.

(** ** C39: gradients *)
Theorem default_gradient_is_derivative : forall D x y h k, (forall i, (i < D)%nat -> h (S i) <> 0) ->
  derivable_pt_lim (fun t => default_kernel D x y (with_entry h k t)) (h k) (default_gradient D x y h k).
Proof. exact default_gradient_l. Qed.
Print Assumptions default_gradient_is_derivative.
Theorem non_stat_gradient_is_derivative : forall D m x y x0 w l, l <> 0 ->
  (forall k, (k < m)%nat ->
     derivable_pt_lim (fun t => non_stat D m x y x0 (with_entry w k t) l) (w k) (non_stat_gradient D m x y x0 w l k)) /\
  derivable_pt_lim (fun t => non_stat D m x y x0 w t) l (non_stat_gradient D m x y x0 w l m).
Proof. intros D m x y x0 w l Hl. split; [intros k Hk; apply non_stat_dw, Hk|apply non_stat_dl, Hl]. Qed.
Print Assumptions non_stat_gradient_is_derivative.
Example gradient_example : default_gradient 1 (fun _ => 1) (fun _ => 0) (fun _ => 1) 1 = 3 * exp (- sqrt 3).
Proof.
  unfold default_gradient. cbn. replace ((1 - 0) / 1) with 1 by field. rewrite Rabs_R1.
  replace (0 + 1 * (1 * 1)) with 1 by ring. rewrite sqrt_1. destruct (Req_EM_T 1 0); [lra|]. unfold matern1_grad.
  rewrite Rminus_0_r, Rabs_R1. replace (sqrt 3 * 1) with (sqrt 3) by ring.
  assert (E : sqrt 3 * sqrt 3 = 3) by (apply sqrt_sqrt; lra). transitivity (sqrt 3 * sqrt 3 * exp (- sqrt 3)); [field|rewrite E; reflexivity].
Qed.

(** ** C68: the covariance functions are valid *)
Definition sqd (D : nat) (x y : point) : R := rsum (fun i => (x i - y i) ^ 2) D.
Lemma valid_of_mult {X} (k : X -> X -> R) : (forall x y, k x y = k y x) -> mult k -> valid_covariance k.
Proof. intros S M. split; [exact S|]. exact (mult_nn k M). Qed.
Lemma distance_sym D x y : distance D x y = distance D y x.
Proof. unfold distance. f_equal. apply rsum_ext. intros. ring. Qed.
Lemma distance_sq D x y : distance D x y ^ 2 = rsum (fun i => (x i - y i) ^ 2) D.
Proof. unfold distance. rewrite <- Rsqr_pow2. apply Rsqr_sqrt. apply rsum_nonneg. intros; apply pow2_ge_0. Qed.
Lemma distance_pos D x y : 0 <= distance D x y. Proof. apply sqrt_pos. Qed.
Lemma nt_distance_sq D : neg_type (fun x y => distance D x y ^ 2).
Proof. apply (nt_ext (fun x y : point => rsum (fun i => (x i - y i) ^ 2) D)); [intros; symmetry; apply distance_sq|]. apply (nt_sqdist (fun i (x : point) => x i)). Qed.
(** Kernels of the Euclidean distance, in any number of dimensions and for any number of points. *)
Theorem distance_kernels_valid : forall D l, 0 < l ->
  valid_covariance (fun x y => sq_exp (distance D x y) l) /\ valid_covariance (fun x y => exponential (distance D x y) l) /\
  valid_covariance (fun x y => matern1 (distance D x y) l) /\ valid_covariance (fun x y => matern2 (distance D x y) l).
Proof.
  intros D l Hl. pose proof (nt_distance_sq D) as N.
  assert (P : forall c (x y : point), 0 <= c -> 0 <= c * distance D x y ^ 2) by (intros; apply Rmult_le_pos; [auto|apply pow2_ge_0]).
  assert (Il : 0 < / l) by (apply Rinv_0_lt_compat, Hl).
  split; [|split; [|split]]; (apply valid_of_mult; [intros x y; rewrite (distance_sym D x y); reflexivity|]).
  - apply (mult_ext (fun x y => exp (- (/ (2 * l ^ 2) * distance D x y ^ 2)))).
    + intros x y. unfold sq_exp. f_equal. field. lra.
    + apply N. left. apply Rinv_0_lt_compat. nra.
  - apply (mult_ext (fun x y => exp (- (/ l * sqrt (distance D x y ^ 2))))).
    + intros x y. rewrite sqrt_pow2 by apply distance_pos. unfold exponential. f_equal. field. lra.
    + apply (nt_sqrt (fun x y => distance D x y ^ 2)); [intros; apply pow2_ge_0|exact N|lra].
  - apply (mult_ext (fun x y => M1 ((sqrt 3 / l) ^ 2 * distance D x y ^ 2))).
    + intros x y. rewrite matern1_M1; [|apply distance_pos|exact Hl]. f_equal. field. lra.
    + apply (mult_M1 (fun x y => (sqrt 3 / l) ^ 2 * distance D x y ^ 2)); [intros; apply P, pow2_ge_0|]. apply nt_scal; [apply pow2_ge_0|exact N].
  - apply (mult_ext (fun x y => M2 ((sqrt 5 / l) ^ 2 * distance D x y ^ 2))).
    + intros x y. rewrite matern2_M2; [|apply distance_pos|exact Hl]. f_equal. field. lra.
    + apply (mult_M2 (fun x y => (sqrt 5 / l) ^ 2 * distance D x y ^ 2)); [intros; apply P, pow2_ge_0|]. apply nt_scal; [apply pow2_ge_0|exact N].
Qed.
Print Assumptions distance_kernels_valid.
(** The default kernel (anisotropic, any length scales, non-negative signal variance) and the landmark kernel. *)
Theorem default_kernel_valid : forall D hps, 0 <= hps O -> valid_covariance (fun x y => default_kernel D x y hps).
Proof.
  intros D hps H. apply valid_of_mult.
  - intros x y. unfold default_kernel. do 3 f_equal. apply rsum_ext. intros i _. rewrite !pow2_abs. unfold Rdiv. ring.
  - unfold default_kernel. apply (mult_scal (hps O) (fun x y => matern1 (sqrt (rsum (fun i => Rabs ((x i - y i) / hps (S i)) ^ 2) D)) 1)); [exact H|].
    assert (N : neg_type (fun x y : point => rsum (fun i => (x i / hps (S i) - y i / hps (S i)) ^ 2) D)).
    { apply (nt_sqdist (fun i (x : point) => x i / hps (S i))). }
    apply (mult_ext (fun x y : point => M1 (3 * rsum (fun i => (x i / hps (S i) - y i / hps (S i)) ^ 2) D))).
    + intros x y. rewrite matern1_M1; [|apply sqrt_pos|lra]. f_equal.
      replace ((sqrt 3 * sqrt (rsum (fun i => Rabs ((x i - y i) / hps (S i)) ^ 2) D) / 1) ^ 2)
        with ((sqrt 3 * sqrt 3) * (sqrt (rsum (fun i => Rabs ((x i - y i) / hps (S i)) ^ 2) D) * sqrt (rsum (fun i => Rabs ((x i - y i) / hps (S i)) ^ 2) D))) by field.
      rewrite !sqrt_sqrt; [|apply rsum_nonneg; intros; apply pow2_ge_0|lra]. f_equal. apply rsum_ext. intros i _. rewrite pow2_abs. unfold Rdiv. ring.
    + apply (mult_M1 (fun x y : point => 3 * rsum (fun i => (x i / hps (S i) - y i / hps (S i)) ^ 2) D)).
      * intros x y. pose proof (sqdist_nonneg (fun i (x : point) => x i / hps (S i)) D x y) as Q. cbv beta in Q. lra.
      * apply nt_scal; [lra|exact N].
Qed.
Print Assumptions default_kernel_valid.
Theorem landmark_kernel_valid : forall D m xdata hps, 0 <= hps O -> 0 < hps 3%nat ->
  valid_covariance (fun x y => sle_kernel D m xdata x y hps).
Proof.
  intros D m xdata hps H0 H3. apply valid_of_mult.
  - intros x y. unfold sle_kernel. rewrite (distance_sym m). reflexivity.
  - unfold sle_kernel. apply (mult_scal (hps O) (fun x y => exp (- distance m (embed D xdata hps x) (embed D xdata hps y) ^ 2 / hps 3%nat))); [exact H0|].
    apply (mult_ext (fun x y => exp (- (/ hps 3%nat * rsum (fun k => (embed D xdata hps x k - embed D xdata hps y k) ^ 2) m)))).
    + intros x y. rewrite distance_sq. f_equal. unfold Rdiv. ring.
    + apply (nt_sqdist (fun k x => embed D xdata hps x k)). left. apply Rinv_0_lt_compat, H3.
Qed.
Print Assumptions landmark_kernel_valid.
(** Kernels of inner products, the periodic kernel on the line, and the non-stationary kernel. *)
Lemma mult_inner D : mult (fun x y : point => rsum (fun i => x i * y i) D).
Proof. apply (mult_rsum (fun i (x y : point) => x i * y i)). intros i _. apply (mult_rank1 (fun x : point => x i)). Qed.
Theorem inner_product_kernels_valid :
  (forall hp1 hp2 hp3, 0 <= hp1 -> 0 <= hp2 -> valid_covariance (fun x y => linear x y hp1 hp2 hp3)) /\
  (forall D p, valid_covariance (fun x y => polynomial D x y p)) /\
  (forall D hp M, 0 <= hp -> valid_covariance (fun i j : nat => if (i <? D)%nat && (j <? D)%nat then M i j else 0) ->
     valid_covariance (fun x y => dot_product D x y hp M)) /\
  (forall D m x0 w l, valid_covariance (fun x y => non_stat D m x y x0 w l)) /\
  (forall l p, l <> 0 -> p <> 0 -> valid_covariance (fun x y => periodic (Rabs (x - y)) l p)).
Proof.
  split; [|split; [|split; [|split]]].
  - intros hp1 hp2 hp3 H1 H2. apply valid_of_mult; [intros; unfold linear; ring|]. unfold linear.
    apply (mult_plus (fun _ _ => hp1) (fun x y => hp2 * (x - hp3) * (y - hp3))); [apply mult_const, H1|].
    apply (mult_ext (fun x y => hp2 * ((x - hp3) * (y - hp3)))); [intros; ring|]. apply mult_scal; [exact H2|]. apply (mult_rank1 (fun x => x - hp3)).
  - intros D p. apply valid_of_mult.
    + intros x y. unfold polynomial. do 2 f_equal. apply rsum_ext. intros; ring.
    + unfold polynomial. apply (mult_pow (fun x y : point => 1 + rsum (fun i => x i * y i) D)).
      apply (mult_plus (fun _ _ => 1)); [apply mult_const; lra|apply mult_inner].
  - intros D hp M Hh [Sy V]. set (k := fun i j : nat => if (i <? D)%nat && (j <? D)%nat then M i j else 0) in *.
    assert (Sk : forall i j, k i j = k j i) by exact Sy.
    assert (E : forall x y, dot_product D x y hp M = hp + rsum (fun i => rsum (fun j => x i * k i j * y j) D) D).
    { intros x y. unfold dot_product. f_equal. apply rsum_ext. intros i Hi. apply rsum_ext. intros j Hj. unfold k.
      destruct (Nat.ltb_spec i D), (Nat.ltb_spec j D); try lia. reflexivity. }
    split.
    + intros x y. rewrite !E. f_equal. rewrite rsum_swap. apply rsum_ext. intros i _. apply rsum_ext. intros j _. rewrite (Sk j i). ring.
    + intros l. rewrite (qf_ext _ _ l E), (qf_plus (fun _ _ => hp)).
      assert (0 <= quad_form (fun _ _ : point => hp) l).
      { rewrite (qf_ext _ (fun _ _ => hp * 1) l) by (intros; ring). rewrite qf_scal. pose proof (nn_one l). apply Rmult_le_pos; auto. }
      assert (0 <= quad_form (fun x y : point => rsum (fun i => rsum (fun j => x i * k i j * y j) D) D) l); [|lra].
      specialize (V (map (fun i => (sum_list (map (fun p => fst p * snd p i) l), i)) (seq 0 D))).
      replace (quad_form (fun x y : point => rsum (fun i => rsum (fun j => x i * k i j * y j) D) D) l)
        with (quad_form k (map (fun i => (sum_list (map (fun p => fst p * snd p i) l), i)) (seq 0 D))); [exact V|].
      unfold quad_form. rewrite !map_map. cbn [fst snd].
      assert (RS : forall (f : nat -> R) n, sum_list (map f (seq 0 n)) = rsum f n).
      { intros f n. induction n; [reflexivity|]. rewrite seq_S, map_app, sl_app, IHn. cbn. ring. }
      rewrite RS.
      rewrite (rsum_ext _ (fun i => rsum (fun j => sum_list (map (fun p => fst p * snd p i) l) * sum_list (map (fun p => fst p * snd p j) l) * k i j) D)).
      2:{ intros i _. rewrite map_map. cbn [fst snd]. apply RS. }
      assert (SR : forall (f : nat -> R * point -> R) n, sum_list (map (fun p => rsum (fun i => f i p) n) l) = rsum (fun i => sum_list (map (f i) l)) n).
      { intros f n. induction n; cbn [rsum]; [rewrite (sl_ext _ (fun _ => 0 * 0)) by (intros; ring); rewrite sl_scal; ring|]. rewrite sl_plus, IHn. reflexivity. }
      rewrite (sl_ext (fun p : R * point => sum_list (map (fun q : R * point => fst p * fst q * rsum (fun i => rsum (fun j => snd p i * k i j * snd q j) D) D) l))
                 (fun p => rsum (fun i => rsum (fun j => (fst p * snd p i) * (k i j * sum_list (map (fun q => fst q * snd q j) l))) D) D)).
      * rewrite SR. apply rsum_ext. intros i _. rewrite SR. apply rsum_ext. intros j _.
        rewrite (sl_ext (fun p : R * point => fst p * snd p i * (k i j * sum_list (map (fun q : R * point => fst q * snd q j) l))) (fun p => (k i j * sum_list (map (fun q : R * point => fst q * snd q j) l)) * (fst p * snd p i))) by (intros; ring).
        rewrite sl_scal. change (nat -> R) with point. ring.
      * intros p.
        rewrite (sl_ext _ (fun q : R * point => rsum (fun i => rsum (fun j => (fst p * snd p i) * (k i j * (fst q * snd q j))) D) D)).
        -- rewrite SR. apply rsum_ext. intros i _. rewrite SR. apply rsum_ext. intros j _. rewrite !sl_scal. reflexivity.
        -- intros q. rewrite <- rsum_scal. apply rsum_ext. intros i _. rewrite <- rsum_scal. apply rsum_ext. intros j _. ring.
  - intros D m x0 w l. apply valid_of_mult; [intros; unfold non_stat; ring|]. apply (mult_rank1 (fun x => g D m x x0 w l)).
  - intros l p Hl Hp. apply valid_of_mult; [intros x y; rewrite Rabs_minus_sym; reflexivity|].
    assert (E : forall x y, periodic (Rabs (x - y)) l p = exp (- (/ l ^ 2 * (1 - (cos (2 * PI / p * x) * cos (2 * PI / p * y) + sin (2 * PI / p * x) * sin (2 * PI / p * y)))))).
    { intros x y. unfold periodic. f_equal. rewrite <- cos_minus.
      replace (2 * PI / p * x - 2 * PI / p * y) with (2 * (PI * (x - y) / p)) by (field; exact Hp). rewrite cos_2a_sin.
      assert (S2 : sin (PI * Rabs (x - y) / p) ^ 2 = sin (PI * (x - y) / p) ^ 2).
      { unfold Rabs. destruct (Rcase_abs _); [|reflexivity]. replace (PI * - (x - y) / p) with (- (PI * (x - y) / p)) by (field; exact Hp).
        rewrite sin_neg. ring. }
      rewrite S2. field. exact Hl. }
    apply (mult_ext _ _ (fun x y => eq_sym (E x y))).
    apply (nt_bounded 1 (fun x y => cos (2 * PI / p * x) * cos (2 * PI / p * y) + sin (2 * PI / p * x) * sin (2 * PI / p * y))).
    + apply mult_plus; [apply (mult_rank1 (fun x => cos (2 * PI / p * x)))|apply (mult_rank1 (fun x => sin (2 * PI / p * x)))].
    + left. apply Rinv_0_lt_compat. nra.
Qed.
Print Assumptions inner_product_kernels_valid.
Example default_valid_example : quad_form (fun x y => default_kernel 1 x y (fun _ => 1)) [(1, fun _ => 0); (-1, fun _ => 0)] = 0.
Proof.
  unfold quad_form, default_kernel, matern1. cbn. replace ((0 - 0) / 1) with 0 by field. rewrite Rabs_R0.
  replace (0 + 0 * (0 * 1)) with 0 by ring. rewrite sqrt_0. ring.
Qed.
(** The robust twice-differentiable Matern kernel gives an indefinite covariance matrix for two points. *)
Theorem kernels_valid_refuted : forall phi, phi <> 0 -> exists x y : point,
  quad_form (fun x y => matern2_robust (distance 1 x y) phi) [(1, x); (-1, y)] < 0.
Proof.
  intros phi H. exists (fun _ => / (2 * phi ^ 2)), (fun _ => 0).
  assert (P : 0 < / (2 * phi ^ 2)) by (apply Rinv_0_lt_compat; nra).
  unfold quad_form. cbn [map fst snd sum_list fold_right]. unfold distance. cbn [rsum].
  replace (0 + (/ (2 * phi ^ 2) - 0) ^ 2) with ((/ (2 * phi ^ 2)) ^ 2) by ring.
  replace (0 + (0 - / (2 * phi ^ 2)) ^ 2) with ((/ (2 * phi ^ 2)) ^ 2) by ring.
  replace (0 + (/ (2 * phi ^ 2) - / (2 * phi ^ 2)) ^ 2) with 0 by ring. replace (0 + (0 - 0) ^ 2) with 0 by ring.
  rewrite sqrt_0, sqrt_pow2 by lra. rewrite matern2_robust_zero. pose proof (matern2_robust_big phi H). lra.
Qed.
Print Assumptions kernels_valid_refuted.
(** The sparse kernel gives an indefinite covariance matrix for any two distinct points closer than 0.00001 and the
    radius, in every dimension and for every radius: it evaluates the diagonal as if at the distance 0.00001. *)
Theorem sparse_kernel_valid_refuted : forall D (x y : point) r, 0 < r -> 0 < distance D x y < Rmin (10 / 10 ^ 6) r ->
  quad_form (fun x y => sparse_kernel (distance D x y) r) [(1, x); (-1, y)] < 0.
Proof.
  intros D x y r Hr [H0 H1].
  assert (Z : forall p, distance D p p = 0).
  { intros p. unfold distance. rewrite (rsum_ext _ (fun i => (p i - p i) ^ 2 * 0) D) by (intros; ring).
    replace (rsum _ D) with 0; [apply sqrt_0|]. clear. induction D; cbn [rsum]; [reflexivity|rewrite <- IHD; ring]. }
  unfold quad_form. cbn [map fst snd sum_list fold_right]. rewrite !Z, (distance_sym D y x).
  assert (K : sparse_kernel 0 r < sparse_kernel (distance D x y) r); [|lra].
  assert (M1 : distance D x y < 10 / 10 ^ 6) by (pose proof (Rmin_l (10 / 10 ^ 6) r); lra).
  assert (M2 : distance D x y < r) by (pose proof (Rmin_r (10 / 10 ^ 6) r); lra).
  rewrite !sparse_kernel_sk. apply Rmult_lt_compat_l; [apply sk_amp|]. remember (distance D x y) as d.
  assert (0 < / r) by (apply Rinv_0_lt_compat; lra).
  assert (E : sparse_dist d r = d) by (unfold sparse_dist; destruct (Req_EM_T d 0); [lra|]; destruct (Rlt_dec r d); lra).
  rewrite E. apply sk_strict.
  - apply Rdiv_lt_0_compat; lra.
  - unfold Rdiv. apply Rmult_lt_compat_r; [lra|]. unfold sparse_dist. destruct (Req_EM_T 0 0); [|lra]. destruct (Rlt_dec r _); lra.
  - apply (sparse_dist_range 0 r Hr). lra.
Qed.
Print Assumptions sparse_kernel_valid_refuted.
Example sparse_kernel_valid_example : quad_form (fun x y => sparse_kernel (distance 1 x y) 1)
  [(1, fun _ => / 10 ^ 6); (-1, fun _ => 0)] < 0.
Proof.
  apply sparse_kernel_valid_refuted; [lra|]. unfold distance. cbn [rsum].
  replace (0 + (/ 10 ^ 6 - 0) ^ 2) with ((/ 10 ^ 6) ^ 2) by ring. rewrite sqrt_pow2 by lra. rewrite Rmin_left by lra. lra.
Qed.

(** ** C69: the gp2Scale default kernel in many dimensions *)
(** In five or more columns no choice of hyperparameters is valid: an alternating quadratic form on a fine enough grid is negative. *)
Theorem wendland_valid_refuted : forall D hps, (5 <= D)%nat -> 0 < hps O -> (forall i, (i < D)%nat -> hps (S i) <> 0) ->
  ~ valid_covariance (fun x y => wendland_dense D x y hps).
Proof. intros D hps HD H0 Hh [_ V]. destruct (wendland_invalid_five D hps HD H0 Hh) as [l Hl]. specialize (V l). lra. Qed.
Print Assumptions wendland_valid_refuted.
(** From 21 columns on the corners of one cube, with signs by parity, are enough. *)
Example wendland_cube : forall D hps, (21 <= D)%nat -> 0 < hps O -> (forall i, (i < D)%nat -> hps (S i) <> 0) ->
  quad_form (fun x y => wendland_dense D x y hps) (map (stretched hps) (cube (19 / 50) 21)) < 0.
Proof. exact wendland_invalid. Qed.
(** What holds in every dimension: symmetry, the signal variance on the diagonal, and no entry above it. *)
Theorem wendland_pairs_partial : forall D x y hps, 0 <= hps O ->
  wendland_dense D x y hps = wendland_dense D y x hps /\ wendland_dense D x x hps = hps O /\
  0 <= wendland_dense D x y hps <= hps O.
Proof.
  intros D x y hps H. unfold wendland_dense. split; [|split].
  - do 3 f_equal. apply rsum_ext. intros i _. unfold Rdiv. ring.
  - rewrite (rsum_ext _ (fun _ => 0)) by (intros; unfold Rdiv; ring). rewrite rsum_const, Rmult_0_r, sqrt_0, clip1_le by lra.
    unfold wendland_poly. ring.
  - pose proof (sqrt_pos (rsum (fun i => ((x i - y i) / hps (S i)) ^ 2) D)) as P.
    assert (C : 0 <= clip1 (sqrt (rsum (fun i => ((x i - y i) / hps (S i)) ^ 2) D)) <= 1) by (unfold clip1; destruct (Rlt_dec 1 _); lra).
    remember (clip1 _) as d. unfold wendland_poly.
    assert (A : 0 <= (1 - d) ^ 8) by (apply pow_le; lra).
    assert (B : 0 <= 32 * d ^ 3 + 25 * d ^ 2 + 8 * d + 1) by (pose proof (pow_le d 3); pose proof (pow_le d 2); lra).
    assert (U : (1 - d) ^ 8 * (32 * d ^ 3 + 25 * d ^ 2 + 8 * d + 1) <= 1).
    { apply wendland_profile_le. lra. }
    rewrite Rmult_assoc. assert (0 <= (1 - d) ^ 8 * (32 * d ^ 3 + 25 * d ^ 2 + 8 * d + 1)) by (apply Rmult_le_pos; auto). nra.
Qed.
Print Assumptions wendland_pairs_partial.

(** Up to three input columns both anisotropic Wendland kernels and the Wendland kernel of the Euclidean distance are
    valid, whatever the length scales. *)
Theorem wendland_valid_partial : forall D hps, (D <= 3)%nat -> 0 <= hps O -> (forall i, (i < D)%nat -> hps (S i) <> 0) ->
  valid_covariance (fun x y => wendland_dense D x y hps) /\ valid_covariance (fun x y => wendland_anisotropic D x y hps) /\
  valid_covariance (fun x y => wendland_polynomial (clip1 (distance D x y))).
Proof.
  intros D hps HD H0 _.
  assert (V : forall c (s : nat -> R), 0 <= c -> valid_covariance (fun x y : point => c * wendland_polynomial (clip1 (sqrt (rsum (fun i => ((x i - y i) * s i) ^ 2) D))))).
  { intros c s Hc. split.
    - intros x y. do 4 f_equal. apply rsum_ext. intros i _. ring.
    - set (f := fun (i : nat) (x : point) => if Nat.ltb i D then x i * s i else 0).
      assert (P : psd (fun x y : point => c * WendlandP.even_ext WendlandP.phi (sqrt ((f 0%nat x - f 0%nat y) ^ 2 + (f 1%nat x - f 1%nat y) ^ 2 + (f 2%nat x - f 2%nat y) ^ 2)))).
      { apply psd_scal; [exact Hc|]. apply (phi_psd3 (f 0%nat) (f 1%nat) (f 2%nat)). }
      revert P. apply psd_ext. intros x y. f_equal.
      replace ((f 0%nat x - f 0%nat y) ^ 2 + (f 1%nat x - f 1%nat y) ^ 2 + (f 2%nat x - f 2%nat y) ^ 2) with (rsum (fun i => ((x i - y i) * s i) ^ 2) D).
      + pose proof (sqrt_pos (rsum (fun i => ((x i - y i) * s i) ^ 2) D)) as S0. generalize dependent (sqrt (rsum (fun i => ((x i - y i) * s i) ^ 2) D)). intros d S0.
        unfold WendlandP.even_ext, clip1. rewrite Rabs_pos_eq by exact S0. destruct (Rle_dec d 1); destruct (Rlt_dec 1 d); try lra; [reflexivity|]. unfold wendland_polynomial. ring.
      + unfold f. destruct D as [|[|[|[|D]]]]; cbn; try ring. lia. }
  split; [|split].
  - destruct (V (hps O) (fun i => / hps (S i)) H0) as [A B]. split; [intros x y; apply wendland_pairs_partial, H0|].
    intros l. specialize (B l). rewrite (qf_ext _ (fun x y => hps O * wendland_polynomial (clip1 (sqrt (rsum (fun i => ((x i - y i) * / hps (S i)) ^ 2) D)))) l); [exact B|].
    intros x y. unfold wendland_dense, wendland_poly, wendland_polynomial, Rdiv. ring.
  - assert (E : forall x y, wendland_anisotropic D x y hps = hps O * wendland_polynomial (clip1 (sqrt (rsum (fun i => ((x i - y i) * / hps (S i)) ^ 2) D)))).
    { intros x y. unfold wendland_anisotropic, wendland_polynomial.
      rewrite (rsum_ext (fun i => Rabs ((x i - y i) / hps (S i)) ^ 2) (fun i => ((x i - y i) * / hps (S i)) ^ 2)); [reflexivity|]. intros i _. apply pow2_abs. }
    destruct (V (hps O) (fun i => / hps (S i)) H0) as [A B]. split; [intros x y; rewrite !E; apply A|].
    intros l. specialize (B l). rewrite (qf_ext _ (fun x y => hps O * wendland_polynomial (clip1 (sqrt (rsum (fun i => ((x i - y i) * / hps (S i)) ^ 2) D)))) l); [exact B|]. exact E.
  - assert (E : forall x y, wendland_polynomial (clip1 (distance D x y)) = 1 * wendland_polynomial (clip1 (sqrt (rsum (fun i => ((x i - y i) * 1) ^ 2) D)))).
    { intros x y. unfold distance. rewrite Rmult_1_l. do 3 f_equal. apply rsum_ext. intros i _. ring. }
    destruct (V 1 (fun _ => 1) ltac:(lra)) as [A B]. split; [intros x y; rewrite !E; apply A|].
    intros l. specialize (B l). rewrite (qf_ext _ (fun x y => 1 * wendland_polynomial (clip1 (sqrt (rsum (fun i => ((x i - y i) * 1) ^ 2) D)))) l); [exact B|]. exact E.
Qed.
Print Assumptions wendland_valid_partial.
(** three points on a line, half a length scale apart, with weights 1, -1, 1 *)
Example wendland_valid_example : 0 < quad_form (fun x y => wendland_dense 1 x y (fun _ => 1)) [(1, fun _ => 0); (-1, fun _ => / 2); (1, fun _ => 1)].
Proof.
  unfold quad_form, wendland_dense. cbn [map fst snd sum_list fold_right rsum].
  repeat match goal with |- context [sqrt ?a] => first [replace a with (0 ^ 2) by field; rewrite (sqrt_pow2 0) by lra
    |replace a with ((/ 2) ^ 2) by field; rewrite (sqrt_pow2 (/ 2)) by lra|replace a with (1 ^ 2) by field; rewrite (sqrt_pow2 1) by lra] end.
  unfold clip1. repeat (destruct (Rlt_dec _ _); [lra|]). unfold wendland_poly. lra.
Qed.

(** ** C70: kernels leave their arguments alone *)
Theorem kernel_arguments_refuted : exists d, snd (wendland_kernel d) <> d.
Proof. exists [2]. cbn. unfold clip1. destruct (Rlt_dec 1 2); [|lra]. intros E. injection E as E. lra. Qed.
Print Assumptions kernel_arguments_refuted.
Theorem kernel_arguments_partial : forall d,
  (snd (wendland_kernel d) = d <-> forall a, In a d -> a <= 1) /\ (forall r, snd (sparse_kernel_call d r) = d) /\
  fst (wendland_kernel (snd (wendland_kernel d))) = fst (wendland_kernel d).
Proof.
  intros d. split; [|split; [reflexivity|]].
  - cbn. induction d as [|a d IH]; cbn; [split; auto; intros _ ? []|]. split.
    + intros E. injection E as E1 E2. intros b [<-|Hb]; [|apply (proj1 IH E2), Hb]. unfold clip1 in E1. destruct (Rlt_dec 1 a); lra.
    + intros H. f_equal; [apply clip1_le, H; auto|apply IH; auto].
  - cbn. rewrite !map_map. apply map_ext. intros a. f_equal. unfold clip1. destruct (Rlt_dec 1 a); [destruct (Rlt_dec 1 1); lra|destruct (Rlt_dec 1 a); lra].
Qed.
Print Assumptions kernel_arguments_partial.

(** ** C71: the Wasserstein distance of the kernels module *)
Theorem wasserstein_refuted : exists a b, length a = length b /\ (forall v, In v (a ++ b) -> 0 <= v) /\ lsumR a = 1 /\ lsumR b = 1 /\
  a <> b /\ wasserstein_1d a b = 0.
Proof.
  exists [1; 0], [0; 1]. split; [reflexivity|]. split; [cbn; intuition lra|]. split; [cbn; lra|]. split; [cbn; lra|].
  split; [intros E; injection E as E1 E2; lra|].
  unfold wasserstein_1d, normalizeR, sortR. cbn.
  replace (1 + (0 + 0)) with 1 by ring. replace (0 + (1 + 0)) with 1 by ring. replace (1 / 1) with 1 by field. replace (0 / 1) with 0 by field.
  destruct (Rle_dec 1 0); [lra|]. destruct (Rle_dec 0 1); [|lra]. cbn. rewrite !Rminus_diag_eq, Rabs_R0 by reflexivity. unfold Rdiv. ring.
Qed.
Print Assumptions wasserstein_refuted.
Lemma insert_length a l : length (insert a l) = S (length l).
Proof. induction l as [|b l IH]; cbn; [reflexivity|]. destruct (Rle_dec a b); cbn; auto. Qed.
Lemma sortR_length l : length (sortR l) = length l.
Proof. unfold sortR. induction l; cbn; [reflexivity|]. rewrite insert_length, IHl. reflexivity. Qed.
Lemma abs_sum_sym a b : lsumR (map (fun p => Rabs (fst p - snd p)) (combine a b)) = lsumR (map (fun p => Rabs (fst p - snd p)) (combine b a)).
Proof. revert b. induction a as [|x a IH]; intros [|y b]; cbn; auto. rewrite Rabs_minus_sym. unfold lsumR in IH. rewrite IH. reflexivity. Qed.
Lemma abs_sum_tri a b c : length a = length b -> length b = length c ->
  lsumR (map (fun p => Rabs (fst p - snd p)) (combine a c)) <=
  lsumR (map (fun p => Rabs (fst p - snd p)) (combine a b)) + lsumR (map (fun p => Rabs (fst p - snd p)) (combine b c)).
Proof.
  revert b c. induction a as [|x a IH]; intros [|y b] [|z c] H1 H2; try discriminate; cbn; [lra|]. cbn in H1, H2.
  specialize (IH b c ltac:(lia) ltac:(lia)). unfold lsumR in *.
  assert (Rabs (x - z) <= Rabs (x - y) + Rabs (y - z)); [|lra]. replace (x - z) with ((x - y) + (y - z)) by ring. apply Rabs_triang.
Qed.
Lemma abs_sum_nonneg a b : 0 <= lsumR (map (fun p => Rabs (fst p - snd p)) (combine a b)).
Proof. revert b. induction a as [|x a IH]; intros [|y b]; cbn; try lra. specialize (IH b). pose proof (Rabs_pos (x - y)). unfold lsumR in IH. lra. Qed.
Lemma sorted_len l : length (sortR (normalizeR l)) = length l.
Proof. rewrite sortR_length. unfold normalizeR. apply map_length. Qed.
Theorem wasserstein_partial : forall a b c, a <> [] -> length a = length b -> length b = length c ->
  0 <= wasserstein_1d a b /\ wasserstein_1d a b = wasserstein_1d b a /\ wasserstein_1d a a = 0 /\
  wasserstein_1d a c <= wasserstein_1d a b + wasserstein_1d b c.
Proof.
  intros a b c Ha H1 H2. unfold wasserstein_1d. rewrite <- H1.
  assert (N : 0 < / INR (length a)) by (apply Rinv_0_lt_compat, lt_0_INR; destruct a; [contradiction|cbn; lia]).
  split; [|split; [|split]].
  - apply Rmult_le_pos; [apply abs_sum_nonneg|lra].
  - f_equal. apply abs_sum_sym.
  - assert (E : lsumR (map (fun p => Rabs (fst p - snd p)) (combine (sortR (normalizeR a)) (sortR (normalizeR a)))) = 0).
    { induction (sortR (normalizeR a)); cbn; auto. unfold lsumR in IHl. rewrite IHl, Rminus_diag_eq, Rabs_R0 by reflexivity. ring. }
    rewrite E. unfold Rdiv. ring.
  - unfold Rdiv. rewrite <- Rmult_plus_distr_r. apply Rmult_le_compat_r; [lra|]. apply abs_sum_tri; rewrite !sorted_len; lia.
Qed.
Print Assumptions wasserstein_partial.
