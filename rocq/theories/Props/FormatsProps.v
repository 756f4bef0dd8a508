(** C169 to C171: formats and dtypes of noise and covariance. *)
From Coq Require Import Reals Arith Lra Lia.
From Verif Require Import Model.FiniteDiff Model.Formats Spec.FormatsSpec Proofs.FormatsP.
Local Open Scope R_scope.

(** C169.  Giving the current hyperparameters explicitly uses the stored matrix exactly in these cases: never for a vector of variances
    under gp2Scale, for a dense integer covariance only if the sums on the diagonal are integers, always otherwise. *)
Theorem explicit_hps_partial : forall K V A, sound (matrix_of K) -> noise_size V = dim (matrix_of K) -> stored_KV K V = Done A ->
  ((exists B, explicit_KV K V = Done B /\ same A B) <->
   match K, V with
   | Sparse _, NVec _ _ _ => False
   | Dense k, NVec _ _ v => dt k = DInt -> forall i, (i < dim k)%nat -> is_int (ent k i i + v i)
   | _, _ => True
   end).
Proof. exact explicit_exact. Qed.
Print Assumptions explicit_hps_partial.

(** Under gp2Scale with variances as a vector (all built-in noise) an explicit hyperparameter argument always raises, although the same
    matrix was accepted at construction.  A noise function that returns one number for all points is a diagonal in one case and
    is added to every entry in the other. *)
Theorem explicit_hps_refuted :
  (forall k d v, (exists A, stored_KV (Sparse k) (NVec d (dim k) v) = Done A) /\
                 explicit_KV (Sparse k) (NVec d (dim k) v) = Fails ENotDiagonal) /\
  (forall k d w, (2 <= dim k)%nat -> dt k = DFloat -> exists A B,
    stored_KV (Dense k) (NVec d 1 (fun _ => w)) = Done A /\ explicit_KV (Dense k) (NVec d 1 (fun _ => w)) = Done B /\
    ent (matrix_of A) 0 1 = ent k 0 1 /\ ent (matrix_of B) 0 1 = ent k 0 1 + w).
Proof.
  split.
  - intros k d v. split; [|reflexivity]. unfold stored_KV; cbn [addKV]. rewrite Nat.eqb_refl. eexists; reflexivity.
  - intros k d w Hn Hd. unfold stored_KV, explicit_KV; cbn [addKV np_diag dim].
    assert (F : fits 1 (dim k) = true) by (unfold fits; cbn; apply Bool.orb_true_r).
    rewrite F. do 2 eexists. split; [reflexivity|]. split; [reflexivity|]. split; reflexivity.
Qed.
Print Assumptions explicit_hps_refuted.

Definition two : mat := Mat DFloat 2 (fun i j => if Nat.eqb i j then 2 else 1).
Example explicit_hps_ex : exists A B, stored_KV (Dense two) (NVec DFloat 2 (fun _ => 1 / 2)) = Done A /\
  explicit_KV (Dense two) (NVec DFloat 2 (fun _ => 1 / 2)) = Done B /\ same A B /\ ent (matrix_of B) 1 1 = 5 / 2 /\ ent (matrix_of B) 0 1 = 1.
Proof.
  do 2 eexists. split; [reflexivity|]. split; [reflexivity|]. split; [|split; cbn; lra].
  split; [reflexivity|]. intros i j Hi Hj. cbn in *.
  destruct i as [|[|i]], j as [|[|j]]; try lia; cbn; lra.
Qed.

(** C170.  K+V is the kernel matrix plus the noise covariance exactly if the noise is a matrix, or the covariance is a float array, or
    the sums on the diagonal are integers. *)
Theorem int_noise_partial : forall K V A, sound (matrix_of K) -> noise_size V = dim (matrix_of K) -> addKV K V = Done A ->
  (holds (dim (matrix_of K)) A (fun i j => ent (matrix_of K) i j + noise_cov V i j) <->
   match V with
   | NVec _ _ v => dt (matrix_of K) = DInt -> forall i, (i < dim (matrix_of K))%nat -> is_int (ent (matrix_of K) i i + v i)
   | _ => True
   end).
Proof. exact addKV_exact. Qed.
Print Assumptions int_noise_partial.

(** For an integer kernel matrix (integer inputs and hyperparameters in a linear kernel) all variances below one are dropped. *)
Theorem int_noise_refuted : forall k d v, sound k -> dt k = DInt -> (forall i, (i < dim k)%nat -> 0 <= ent k i i) ->
  (forall i, (i < dim k)%nat -> 0 <= v i < 1) ->
  forall K, K = Dense k \/ K = Sparse k -> exists A, addKV K (NVec d (dim k) v) = Done A /\ holds (dim k) A (ent k).
Proof. exact int_noise_lost. Qed.
Print Assumptions int_noise_refuted.

(** x = [1], [2], k(x,x') = x x': the matrix is singular and stays so with variances 1/4 *)
Definition linear12 : mat := Mat DInt 2 (fun i j => INR (i + 1) * INR (j + 1)).
Example int_noise_ex : sound linear12 /\ exists A, addKV (Dense linear12) (NVec DFloat 2 (fun _ => 1 / 4)) = Done A /\
  ent (matrix_of A) 0 0 * ent (matrix_of A) 1 1 - ent (matrix_of A) 0 1 * ent (matrix_of A) 1 0 = 0.
Proof.
  assert (S : sound linear12).
  { intros _ i j. exists (Z.of_nat ((i + 1) * (j + 1))). cbn [ent linear12]. rewrite <- mult_INR. apply INR_IZR_INZ. }
  split; [exact S|].
  destruct (int_noise_refuted linear12 DFloat (fun _ => 1 / 4) S eq_refl) with (K := Dense linear12) as (A & E & _ & H).
  - intros i Hi. cbn. apply Rmult_le_pos; apply pos_INR.
  - intros i Hi; lra.
  - left; reflexivity.
  - exists A. split; [exact E|]. rewrite !H by (cbn; lia). cbn. lra.
Qed.

(** C170: where the dtype comes from.  Noise given as a matrix raises the dtype of the sum to float if one of the two is, so nothing can be lost
    later; a vector of variances leaves the dtype of the covariance as it is.  In both cases an integer result holds integers. *)
Theorem kv_dtype : forall K V A, sound (matrix_of K) -> (match V with NMat m | NSparse m => sound m | _ => True end) -> addKV K V = Done A ->
  sound (matrix_of A) /\
  (dt (matrix_of A) = DInt <-> dt (matrix_of K) = DInt /\ match V with NMat m | NSparse m => dt m = DInt | _ => True end).
Proof.
  intros K V A HK HV HA.
  assert (PL : forall a b, is_int a -> is_int b -> is_int (a + b)) by (intros a b [p ->] [q ->]; exists (p + q)%Z; apply eq_sym, plus_IZR).
  assert (AM : forall k v, sound k -> sound v -> sound (add_mat k v) /\ (dt (add_mat k v) = DInt <-> dt k = DInt /\ dt v = DInt)).
  { intros k v Hk Hv. split; [|cbn; destruct (dt k), (dt v); cbn; intuition congruence].
    intros E i j. cbn in *. assert (dt k = DInt /\ dt v = DInt) as [E1 E2] by (destruct (dt k), (dt v); cbn in E; split; congruence). apply PL; [apply Hk|apply Hv]; assumption. }
  assert (SD : forall k v, sound k -> sound (set_diag k v) /\ (dt (set_diag k v) = DInt <-> dt k = DInt /\ True)).
  { intros k v Hk. split; [|cbn; tauto]. intros E i j. cbn in *. destruct (Nat.eqb_spec i j); [|apply Hk; exact E]. rewrite E. cbn. apply truncate_is_int. }
  destruct K as [k|k], V as [d len v|m|m]; cbn [addKV matrix_of] in *;
    repeat match type of HA with context [if ?b then _ else _] => destruct b end; inversion HA; cbn [matrix_of]; auto.
Qed.
Print Assumptions kv_dtype.
Example kv_dtype_ex : exists A, addKV (Dense (Mat DInt 1 (fun _ _ => 3))) (NMat (Mat DFloat 1 (fun _ _ => 1 / 2))) = Done A /\ dt (matrix_of A) = DFloat /\ ent (matrix_of A) 0 0 = 7 / 2.
Proof. eexists. split; [reflexivity|]. split; [reflexivity|]. cbn. lra. Qed.

(** C171.  Which operations accept which noise format. *)
Definition works {A} (o : out A) : Prop := exists a, o = Done a.
Theorem noise_formats_partial : forall K V v S, noise_size V = dim (matrix_of K) ->
  (works (stored_KV K V) <-> match K, V with Sparse _, NMat _ => False | _, _ => True end) /\
  (works (explicit_KV K V) <-> match K, V with Sparse _, NMat _ | Sparse _, NVec _ _ _ => False | _, _ => True end) /\
  (works (add_noise (dim (matrix_of K)) v S V) <-> match V with NSparse _ => False | _ => True end) /\
  (forall econ, works (gradient K V econ) <->
    match K, V with Sparse _, _ => False | Dense _, NSparse _ => econ = true | _, _ => True end) /\
  (** and where it is accepted the noise of a prediction is the noise covariance *)
  (forall v' S', add_noise (dim (matrix_of K)) v S V = Done (v', S') -> forall i j, (i < dim (matrix_of K))%nat -> (j < dim (matrix_of K))%nat ->
    v' i = v i + noise_cov V i i /\ S' i j = S i j + noise_cov V i j).
Proof.
  intros K V v S Hs. unfold works.
  repeat match goal with |- _ /\ _ => split end.
  - destruct K as [k|k], V as [d len w|m|m]; cbn [noise_size matrix_of] in Hs; cbn [stored_KV addKV];
      unfold stored_KV; cbn [addKV]; rewrite ?Hs, ?fits_refl, ?Nat.eqb_refl; split; intros H; auto; try (eexists; reflexivity); try contradiction;
      destruct H; discriminate.
  - destruct K as [k|k], V as [d len w|m|m]; cbn [noise_size matrix_of] in Hs;
      unfold explicit_KV; cbn [addKV np_diag dim]; rewrite ?Hs, ?fits_refl, ?Nat.eqb_refl; split; intros H; auto; try (eexists; reflexivity); try contradiction;
      destruct H; discriminate.
  - destruct V as [d len w|m|m]; cbn [noise_size] in Hs; cbn [add_noise]; rewrite ?Hs, ?fits_refl; split; intros H; auto; try (eexists; reflexivity);
      try contradiction; destruct H; discriminate.
  - intros econ. destruct K as [k|k], V as [d len w|m|m]; cbn [noise_size matrix_of] in Hs; cbn [gradient addKV];
      rewrite ?Hs, ?fits_refl, ?Nat.eqb_refl; split; intros H; auto; try (eexists; reflexivity); try contradiction; try (destruct H; discriminate).
    + destruct econ; [reflexivity|destruct H; discriminate].
    + subst econ. eexists; reflexivity.
  - intros v' S' E i j Hi Hj. destruct V as [d len w|m|m]; cbn [noise_size] in Hs; cbn [add_noise] in E; rewrite ?Hs, ?fits_refl in E; try discriminate;
      injection E as <- <-; cbn [noise_cov ent add_mat np_diag dim]; rewrite ?Hs, ?Nat.eqb_refl, ?bix_refl by assumption; split; reflexivity.
Qed.
Print Assumptions noise_formats_partial.

(** Under gp2Scale there is no noise format for which construction, predictions with explicit hyperparameters and predictions with noise all
    work; a sparse noise matrix never does with a dense covariance either. *)
Theorem noise_formats_refuted :
  (forall k V v S, noise_size V = dim k ->
    ~ (works (stored_KV (Sparse k) V) /\ works (explicit_KV (Sparse k) V) /\ works (add_noise (dim k) v S V))) /\
  (forall k m v S, dim m = dim k -> works (stored_KV (Dense k) (NSparse m)) /\
    add_noise (dim k) v S (NSparse m) = Fails ENoiseType /\ gradient (Dense k) (NSparse m) false = Fails EAssign).
Proof.
  split.
  - intros k V v S Hs (H1 & H2 & H3). destruct V as [d len w|m|m]; cbn in *.
    + destruct H2; discriminate.
    + destruct H1; discriminate.
    + destruct H3; discriminate.
  - intros k m v S Hm. unfold works, stored_KV; cbn [addKV gradient]. rewrite Hm, fits_refl. split; [eexists; reflexivity|split; reflexivity].
Qed.
Print Assumptions noise_formats_refuted.
Example noise_formats_ex : exists A, stored_KV (Dense two) (NMat two) = Done A /\ ent (matrix_of A) 0 0 = 4 /\
  gradient (Dense two) (NSparse two) true = Done tt.
Proof. eexists. split; [reflexivity|]. split; [cbn; lra|reflexivity]. Qed.
