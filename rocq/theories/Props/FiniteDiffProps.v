(** Finite-difference derivatives: C127, C132. *)
From Coq Require Import Reals Lra Lia ZArith.
From Coquelicot Require Import Coquelicot.
From Verif Require Import Model.FiniteDiff Spec.FiniteDiffSpec Proofs.FiniteDiffP.
Local Open Scope R_scope.

Lemma set_float : forall f h i v, extensional f -> f (set_item DFloat h i v) = slice f h i v.
Proof. intros f h i v E. apply E. intro j. reflexivity. Qed.
Lemma smooth3_le : forall f x e e' M d, e' <= e -> smooth3 f x e M d -> smooth3 f x e' M d.
Proof.
  intros f x e e' M d He [f1 [f2 [f3 [E H]]]]. exists f1, f2, f3. split; [exact E|]. intros t Ht. apply H. lra.
Qed.
Lemma smooth3_partial : forall f h i e M d, 0 <= e -> smooth3 (slice f h i) (h i) e M d -> partial_at f h i d.
Proof.
  intros f h i e M d He [f1 [f2 [f3 [E H]]]]. subst d. destruct (H (h i)) as [D _]; [|exact D].
  replace (h i - h i) with 0 by ring. rewrite Rabs_R0. exact He.
Qed.

(** C127: on arrays of floats *)
Theorem fd_gradients : forall (T : Type) (f : (nat -> R) -> T -> R) (h : nat -> R) (i : nat) (t : T),
  extensional (fun h => f h t) ->
  (forall M d, smooth3 (slice (fun h => f h t) h i) (h i) (/ 10 ^ 6) M d ->
     partial_at (fun h => f h t) h i d /\
     Rabs (finitediff_dm_dh T DFloat f h i t - d) <= M / (6 * 10 ^ 12) /\
     Rabs (finitediff_dnoise_dh T DFloat f h i t - d) <= M / (6 * 10 ^ 12) /\
     Rabs (kernel_gradient T DFloat f h i t - d) <= M / (6 * 10 ^ 16)) /\
  (forall a b c, (forall x, slice (fun h => f h t) h i x = a + b * x + c * x ^ 2) ->
     finitediff_dm_dh T DFloat f h i t = b + 2 * c * h i /\ finitediff_dnoise_dh T DFloat f h i t = b + 2 * c * h i /\
     kernel_gradient T DFloat f h i t = b + 2 * c * h i) /\
  (finitediff_dnoise_dh_econ T DFloat f h i t = finitediff_dnoise_dh T DFloat f h i t /\
   kernel_derivative T DFloat f h i t = kernel_gradient T DFloat f h i t) /\
  (forall eps M d, 0 < eps -> smooth2 (slice (fun h => f h t) h i) (h i) eps M d ->
     Rabs (test_gradient DFloat (fun h => f h t) eps h i - d) <= M * eps / 2).
Proof.
  intros T f h i t X.
  assert (S : forall v, f (set_item DFloat h i v) t = slice (fun h => f h t) h i v) by (intro v; exact (set_float _ h i v X)).
  assert (Z : f h t = slice (fun h => f h t) h i (h i)).
  { apply X. intro j. unfold at_comp. destruct (Nat.eqb_spec j i); [subst; reflexivity | reflexivity]. }
  split; [|split; [|split; [split; reflexivity|]]].
  - intros M d H.
    assert (P6 : 0 < / 10 ^ 6) by (apply Rinv_0_lt_compat, pow_lt; lra).
    assert (P8 : 0 < / 10 ^ 8) by (apply Rinv_0_lt_compat, pow_lt; lra).
    assert (P86 : / 10 ^ 8 <= / 10 ^ 6) by (apply Rinv_le_contravar; simpl; lra).
    split; [apply (smooth3_partial _ h i (/ 10 ^ 6) M d); [lra | exact H]|].
    assert (B6 := central_error _ _ (/ 10 ^ 6) M d P6 H).
    assert (B8 := central_error _ _ (/ 10 ^ 8) M d P8 (smooth3_le _ _ _ (/ 10 ^ 8) _ _ P86 H)).
    unfold finitediff_dm_dh, finitediff_dnoise_dh, kernel_gradient, dkernel_dh, central. rewrite !S.
    replace (2 / 10 ^ 6) with (2 * / 10 ^ 6) by lra.
    split; [|split].
    + eapply Rle_trans; [exact B6|]. right. field.
    + eapply Rle_trans; [exact B6|]. right. field.
    + eapply Rle_trans; [exact B8|]. right. field.
  - intros a b c Q. unfold finitediff_dm_dh, finitediff_dnoise_dh, kernel_gradient, dkernel_dh, central. rewrite !S, !Q.
    repeat split; field.
  - intros eps M d He H. unfold test_gradient. rewrite S, Z. apply forward_error; assumption.
Qed.
Print Assumptions fd_gradients.

(** noise variance h0^3 at h0 = 1: the error is below 1e-12 and the derivative is 3 *)
Example fd_example : let V := fun (h : nat -> R) (_ : unit) => h 0%nat ^ 3 in
  Rabs (finitediff_dnoise_dh unit DFloat V (fun _ => 1) 0%nat tt - 3) <= 6 / (6 * 10 ^ 12) /\
  finitediff_dnoise_dh unit DFloat V (fun _ => 1) 0%nat tt <> 3.
Proof.
  intro V. split.
  - apply (fd_gradients unit V (fun _ => 1) 0%nat tt).
    + intros h h' E. unfold V. rewrite E. reflexivity.
    + exists (fun x => 3 * x ^ 2), (fun x => 6 * x), (fun _ => 6). split; [ring|]. intros t Ht. unfold slice, at_comp, V. simpl Nat.eqb. cbv iota.
      split; [auto_derive; [trivial | ring] | split; [auto_derive; [trivial | ring] | split; [auto_derive; [trivial | ring]|]]].
      rewrite Rabs_pos_eq; lra.
  - unfold finitediff_dnoise_dh, central, set_item, V, store. simpl Nat.eqb. cbv iota. intro E.
    assert (K : ((1 + / 10 ^ 6) ^ 3 - (1 - / 10 ^ 6) ^ 3) / (2 / 10 ^ 6) = 3 + / 10 ^ 12) by field. rewrite K in E. lra.
Qed.

(** C132: on arrays of integers the differences are taken over a unit step *)
Theorem fd_integer_arrays_partial : forall (T : Type) (f : (nat -> R) -> T -> R) (h : nat -> R) (i : nat) (t : T) (z : Z),
  extensional (fun h => f h t) -> h i = IZR z ->
  ((1 <= z)%Z ->
     finitediff_dm_dh T DInt f h i t = (f h t - f (at_comp h i (h i - 1)) t) * (10 ^ 6 / 2) /\
     finitediff_dnoise_dh T DInt f h i t = (f h t - f (at_comp h i (h i - 1)) t) * (10 ^ 6 / 2) /\
     kernel_gradient T DInt f h i t = (f h t - f (at_comp h i (h i - 1)) t) * (10 ^ 8 / 2)) /\
  ((0 <= z)%Z -> forall eps, 0 < eps < 1 -> test_gradient DInt (fun h => f h t) eps h i = 0).
Proof.
  intros T f h i t z X Ez.
  assert (UP : (0 <= z)%Z -> forall e, 0 < e < 1 -> f (set_item DInt h i (h i + e)) t = f h t).
  { intros Hz e He. apply X. intro j. unfold set_item. destruct (Nat.eqb_spec j i); [|reflexivity].
    subst j. simpl. rewrite Ez. apply truncate_up; assumption. }
  assert (DN : (1 <= z)%Z -> forall e, 0 < e < 1 -> f (set_item DInt h i (h i - e)) t = f (at_comp h i (h i - 1)) t).
  { intros Hz e He. apply X. intro j. unfold set_item, at_comp. destruct (Nat.eqb_spec j i); [|reflexivity].
    simpl. rewrite Ez, truncate_down by assumption. rewrite minus_IZR. reflexivity. }
  split.
  - intro Hz. unfold finitediff_dm_dh, finitediff_dnoise_dh, kernel_gradient, dkernel_dh, central.
    rewrite !UP, !DN by (try lia; lra). repeat split; field.
  - intros Hz eps He. unfold test_gradient. rewrite UP by assumption. field. lra.
Qed.
Print Assumptions fd_integer_arrays_partial.

(** the hyperparameters np.array([1]) and the noise variance h0: the derivative is 1, the gradient used in training is 500000
    and the gradient reported by test_log_likelihood_gradient is 0; the same vector as floats gives 1 *)
Theorem fd_integer_arrays_refuted : let V := fun (h : nat -> R) (_ : unit) => h 0%nat in let h := fun _ : nat => 1 in
  partial_at (fun h => V h tt) h 0%nat 1 /\
  finitediff_dnoise_dh unit DInt V h 0%nat tt = 500000 /\ test_gradient DInt (fun h => V h tt) (/ 10 ^ 6) h 0%nat = 0 /\
  finitediff_dnoise_dh unit DFloat V h 0%nat tt = 1 /\ test_gradient DFloat (fun h => V h tt) (/ 10 ^ 6) h 0%nat = 1.
Proof.
  intros V h. assert (X : extensional (fun h => V h tt)) by (intros a b E; apply E).
  destruct (fd_integer_arrays_partial unit V h 0%nat tt 1%Z X eq_refl) as [A B].
  destruct (A ltac:(lia)) as [_ [A2 _]]. rewrite A2, (B ltac:(lia)) by lra.
  split; [|split; [|split; [reflexivity|]]].
  - unfold partial_at, slice, at_comp, V. simpl Nat.eqb. cbv iota. auto_derive; [trivial | ring].
  - unfold V, at_comp, h. simpl Nat.eqb. cbv iota. field.
  - unfold finitediff_dnoise_dh, test_gradient, central, set_item, V, h. simpl. split; field.
Qed.
Print Assumptions fd_integer_arrays_refuted.
