(** C186: derivatives with respect to prediction points. *)
From Coq Require Import Reals Lra Lia List.
From Coquelicot Require Import Coquelicot.
From Verif Require Import Model.FiniteDiff Model.PointGrad Spec.Sums Spec.FiniteDiffSpec Proofs.FiniteDiffP.
Import ListNotations.
Local Open Scope R_scope.

(** predictive mean and variance as functions of the point *)
Definition predicted (k : (nat -> R) -> (nat -> R) -> R) (m : (nat -> R) -> R) n (xs : nat -> nat -> R) (w : nat -> R) (x : nat -> R) : R :=
  m x + rsum (fun a => k x (xs a) * w a) n.
Definition uncertainty (k : (nat -> R) -> (nat -> R) -> R) n (xs : nat -> nat -> R) (inv : nat -> nat -> R) (x : nat -> R) : R :=
  k x x - rsum (fun a => rsum (fun b => k x (xs a) * inv a b * k x (xs b)) n) n.

Lemma smooth2_at f x e M d : 0 <= e -> smooth2 f x e M d -> is_derive f x d.
Proof. intros He (f1 & f2 & E & H). subst d. destruct (H x) as [D _]; [|exact D]. replace (x - x) with 0 by ring. rewrite Rabs_R0. exact He. Qed.
Lemma smooth3_at f x e M d : 0 <= e -> smooth3 f x e M d -> is_derive f x d.
Proof. intros He (f1 & f2 & f3 & E & H). subst d. destruct (H x) as [D _]; [|exact D]. replace (x - x) with 0 by ring. rewrite Rabs_R0. exact He. Qed.
Lemma derive_rsum (f : nat -> R -> R) (d : nat -> R) x n : (forall a, (a < n)%nat -> is_derive (f a) x (d a)) ->
  is_derive (fun t => rsum (fun a => f a t) n) x (rsum d n).
Proof.
  induction n as [|n IH]; intros H; cbn [rsum]; [apply @is_derive_const|]. apply @is_derive_plus; [apply IH; intros; apply H; lia|apply H; lia].
Qed.
Lemma rsum_abs f n : Rabs (rsum f n) <= rsum (fun a => Rabs (f a)) n.
Proof. induction n; cbn [rsum]; [rewrite Rabs_R0; lra|]. eapply Rle_trans; [apply Rabs_triang|]. lra. Qed.
Lemma rsum_le f g n : (forall a, (a < n)%nat -> f a <= g a) -> rsum f n <= rsum g n.
Proof. induction n; intros H; cbn [rsum]; [lra|]. pose proof (H n ltac:(lia)). assert (rsum f n <= rsum g n) by (apply IHn; intros; apply H; lia). lra. Qed.

Section G.
Variables (k : (nat -> R) -> (nat -> R) -> R) (m : (nat -> R) -> R) (n : nat) (xs : nat -> nat -> R) (x : nat -> R) (d : nat).
Hypothesis (Xk : forall a, extensional (fun x => k x (xs a))) (Xm : extensional m) (Xv : extensional (fun x => k x x)).
Lemma same : forall f, extensional f -> f x = slice f x d (x d).
Proof. intros f X. apply X. intro j. unfold at_comp. destruct (Nat.eqb_spec j d); subst; reflexivity. Qed.
Lemma moved_float : forall f v, extensional f -> f (set_item DFloat x d v) = slice f x d v.
Proof. intros f v X. apply X. intro j. reflexivity. Qed.
Lemma kg_error : forall B g, (forall a, (a < n)%nat -> smooth2 (slice (fun x => k x (xs a)) x d) (x d) (/ 10 ^ 8) (B a) (g a)) ->
  exists kg, d_kernel_dx k xs DFloat x d = Some kg /\ forall a, (a < n)%nat -> Rabs (kg a - g a) <= B a / (2 * 10 ^ 8).
Proof.
  intros B g H. eexists. split; [reflexivity|]. intros a Ha. cbn beta.
  rewrite (moved_float (fun x => k x (xs a))) by apply Xk. rewrite (same (fun x => k x (xs a))) by apply Xk.
  assert (P8 : 0 < / 10 ^ 8) by (apply Rinv_0_lt_compat, pow_lt; lra).
  eapply Rle_trans; [apply (forward_error _ _ _ (B a) (g a) P8 (H a Ha))|]. right. field.
Qed.
Lemma weighted : forall B g kg w, (forall a, (a < n)%nat -> Rabs (kg a - g a) <= B a / (2 * 10 ^ 8)) ->
  Rabs (rsum (fun a => kg a * w a) n - rsum (fun a => g a * w a) n) <= rsum (fun a => B a * Rabs (w a)) n / (2 * 10 ^ 8).
Proof.
  intros B g kg w H. replace (rsum (fun a => kg a * w a) n - rsum (fun a => g a * w a) n) with (rsum (fun a => (kg a - g a) * w a) n).
  - eapply Rle_trans; [apply rsum_abs|]. eapply Rle_trans; [apply (rsum_le _ (fun a => / (2 * 10 ^ 8) * (B a * Rabs (w a))))|].
    + intros a Ha. cbn beta. rewrite Rabs_mult. pose proof (H a Ha). pose proof (Rabs_pos (w a)).
      replace (/ (2 * 10 ^ 8) * (B a * Rabs (w a))) with (B a / (2 * 10 ^ 8) * Rabs (w a)) by (unfold Rdiv; ring). apply Rmult_le_compat_r; assumption.
    + rewrite rsum_scal. right. unfold Rdiv. ring.
  - rewrite (rsum_ext (fun a => (kg a - g a) * w a) (fun a => kg a * w a + - 1 * (g a * w a))) by (intros; ring). rewrite rsum_plus, rsum_scal. ring.
Qed.
End G.

(** For arrays of floats the returned derivatives differ from the derivatives of predictive mean and variance by no more than the
    steps 1e-6 and 1e-8 times bounds on the second (third) derivatives.
    Missing: arrays of integers, see below; rounding, see C163. *)
Theorem point_gradients_partial : forall k m n xs x d w inv B g M m1 V v1,
  (forall a, extensional (fun x => k x (xs a))) -> extensional m -> extensional (fun x => k x x) ->
  (forall a b, inv a b = inv b a) -> (forall a, k (xs a) x = k x (xs a)) ->
  (forall a, (a < n)%nat -> smooth2 (slice (fun x => k x (xs a)) x d) (x d) (/ 10 ^ 8) (B a) (g a)) ->
  let p a := rsum (fun b => inv a b * k x (xs b)) n in
  (smooth2 (slice m x d) (x d) (/ 10 ^ 6) M m1 ->
     partial_at (predicted k m n xs w) x d (m1 + rsum (fun a => g a * w a) n) /\
     exists r, mean_grad k m n xs DFloat w x d = Some r /\
       Rabs (r - (m1 + rsum (fun a => g a * w a) n)) <= M / (2 * 10 ^ 6) + rsum (fun a => B a * Rabs (w a)) n / (2 * 10 ^ 8)) /\
  (smooth2 (slice (fun x => k x x) x d) (x d) (/ 10 ^ 6) V v1 ->
     partial_at (uncertainty k n xs inv) x d (v1 - 2 * rsum (fun a => g a * p a) n) /\
     exists r, var_grad k n xs DFloat inv x d = Some r /\
       Rabs (r - (v1 - 2 * rsum (fun a => g a * p a) n)) <= V / (2 * 10 ^ 6) + rsum (fun a => B a * Rabs (p a)) n / 10 ^ 8) /\
  (smooth3 (slice m x d) (x d) (/ 10 ^ 6) M m1 -> smooth3 (slice (fun x => k x x) x d) (x d) (/ 10 ^ 6) V v1 ->
     exists kg kk mg, joint_grad k m xs DFloat x d = Some (kg, kk, mg) /\
       (forall a, (a < n)%nat -> partial_at (fun x => k x (xs a)) x d (g a) /\ Rabs (kg a - g a) <= B a / (2 * 10 ^ 8)) /\
       partial_at (fun x => k x x) x d v1 /\ Rabs (kk - v1) <= V / (6 * 10 ^ 12) /\ partial_at m x d m1 /\ Rabs (mg - m1) <= M / (6 * 10 ^ 12)).
Proof.
  intros k m n xs x d w inv B g M m1 V v1 Xk Xm Xv Si Sk Hk p.
  assert (P6 : 0 < / 10 ^ 6) by (apply Rinv_0_lt_compat, pow_lt; lra). assert (P8 : 0 < / 10 ^ 8) by (apply Rinv_0_lt_compat, pow_lt; lra).
  assert (Dk : forall a, (a < n)%nat -> is_derive (slice (fun x => k x (xs a)) x d) (x d) (g a)) by (intros a Ha; exact (smooth2_at _ _ _ _ _ (Rlt_le _ _ P8) (Hk a Ha))).
  destruct (kg_error k n xs x d Xk B g Hk) as (kg & Ekg & Bkg).
  split; [|split].
  - intros Sm. split.
    + unfold partial_at, slice, predicted. apply @is_derive_plus; [exact (smooth2_at _ _ _ _ _ (Rlt_le _ _ P6) Sm)|].
      apply (derive_rsum (fun a t => k (at_comp x d t) (xs a) * w a)). intros a Ha.
      apply is_derive_ext with (f := fun t => scal (w a) (slice (fun x => k x (xs a)) x d t)); [intros; unfold scal, slice; cbn; unfold mult; cbn; ring|].
      replace (g a * w a) with (scal (w a) (g a)) by (unfold scal; cbn; unfold mult; cbn; ring). apply @is_derive_scal, Dk, Ha.
    + unfold mean_grad. rewrite Ekg. eexists. split; [reflexivity|].
      rewrite (moved_float x d m) by exact Xm. rewrite (same x d m Xm).
      pose proof (forward_error _ _ _ M m1 P6 Sm) as E1. pose proof (weighted n B g kg w Bkg) as E2.
      match goal with |- Rabs (?a + ?s - (m1 + ?t)) <= _ => replace (a + s - (m1 + t)) with ((a - m1) + (s - t)) by ring end.
      eapply Rle_trans; [apply Rabs_triang|]. apply Rplus_le_compat; [|exact E2]. eapply Rle_trans; [exact E1|]. right. field.
  - intros Sv. split.
    + unfold partial_at, slice, uncertainty. apply @is_derive_minus; [exact (smooth2_at _ _ _ _ _ (Rlt_le _ _ P6) Sv)|].
      replace (2 * rsum (fun a => g a * p a) n) with (rsum (fun a => rsum (fun b => g a * inv a b * k x (xs b) + k x (xs a) * inv a b * g b) n) n).
      * apply (derive_rsum (fun a t => rsum (fun b => k (at_comp x d t) (xs a) * inv a b * k (at_comp x d t) (xs b)) n)). intros a Ha.
        apply (derive_rsum (fun b t => k (at_comp x d t) (xs a) * inv a b * k (at_comp x d t) (xs b))). intros b Hb.
        assert (E := is_derive_mult (fun t => slice (fun x => k x (xs a)) x d t * inv a b) (slice (fun x => k x (xs b)) x d) (x d) (g a * inv a b) (g b)).
        unfold plus, mult in E. cbn in E. rewrite (same x d (fun x => k x (xs a)) (Xk a)), (same x d (fun x => k x (xs b)) (Xk b)). apply E; [|exact (Dk b Hb)|intros; ring].
        apply is_derive_ext with (f := fun t => scal (inv a b) (slice (fun x => k x (xs a)) x d t)); [intros; unfold scal, slice; cbn; unfold mult; cbn; ring|].
        replace (g a * inv a b) with (scal (inv a b) (g a)) by (unfold scal; cbn; unfold mult; cbn; ring). apply @is_derive_scal, Dk, Ha.
      * rewrite (rsum_ext (fun a => rsum (fun b => g a * inv a b * k x (xs b) + k x (xs a) * inv a b * g b) n) (fun a => g a * p a + rsum (fun b => k x (xs a) * inv a b * g b) n)).
        -- rewrite rsum_plus, (rsum_swap (fun a b => k x (xs a) * inv a b * g b)).
           rewrite (rsum_ext (fun j => rsum (fun i => k x (xs i) * inv i j * g j) n) (fun a => g a * p a)); [ring|].
           intros a _. unfold p. rewrite <- rsum_scal. apply rsum_ext. intros b _. rewrite (Si a b). ring.
        -- intros a _. rewrite rsum_plus. f_equal. unfold p. rewrite <- rsum_scal. apply rsum_ext. intros b _. ring.
    + unfold var_grad. rewrite Ekg. eexists. split; [reflexivity|].
      rewrite (rsum_ext (fun a => kg a * rsum (fun b => inv a b * k (xs b) x) n) (fun a => kg a * p a)) by (intros a _; f_equal; unfold p; apply rsum_ext; intros; rewrite Sk; reflexivity).
      rewrite (moved_float x d (fun x => k x x)) by exact Xv. rewrite (same x d (fun x => k x x) Xv).
      pose proof (forward_error _ _ _ V v1 P6 Sv) as E1. pose proof (weighted n B g kg p Bkg) as E2.
      match goal with |- Rabs (?a - 2 * ?s - (v1 - 2 * ?t)) <= _ => replace (a - 2 * s - (v1 - 2 * t)) with ((a - v1) + (- 2) * (s - t)) by ring end.
      eapply Rle_trans; [apply Rabs_triang|]. apply Rplus_le_compat; [eapply Rle_trans; [exact E1|]; right; field|].
      rewrite Rabs_mult, (Rabs_left (- 2)) by lra. eapply Rle_trans; [apply Rmult_le_compat_l; [lra|exact E2]|]. right. field.
  - intros Sm Sv. unfold joint_grad. rewrite Ekg. eexists. eexists. eexists. split; [reflexivity|]. split; [intros a Ha; split; [exact (Dk a Ha)|exact (Bkg a Ha)]|].
    rewrite !(moved_float x d (fun x => k x x)) by exact Xv. rewrite !(moved_float x d m) by exact Xm.
    split; [exact (smooth3_at _ _ _ _ _ (Rlt_le _ _ P6) Sv)|]. split; [eapply Rle_trans; [apply (central_error _ _ _ V v1 P6 Sv)|]; right; field|].
    split; [exact (smooth3_at _ _ _ _ _ (Rlt_le _ _ P6) Sm)|]. eapply Rle_trans; [apply (central_error _ _ _ M m1 P6 Sm)|]; right; field.
Qed.
Print Assumptions point_gradients_partial.

(** C186: refuted for arrays of integers -- every derivative raises, whatever the model, the data and the point. *)
Theorem point_gradients_refuted : forall k m n xs x d D w inv,
  mean_grad k m n xs DInt w x d = None /\ var_grad k n xs DInt inv x d = None /\ joint_grad k m xs DInt x d = None /\
  all_directions (mean_grad k m n xs DInt w x) (S D) = None /\ all_directions (var_grad k n xs DInt inv x) (S D) = None.
Proof. intros. repeat split; cbn; [destruct (all_directions _ D)|destruct (all_directions _ D)]; reflexivity. Qed.
Print Assumptions point_gradients_refuted.

(** With direction=None the array holds the derivative in every direction, in order. *)
Theorem point_gradients_all : forall (g : nat -> option R) D l, all_directions g D = Some l ->
  length l = D /\ forall d, (d < D)%nat -> g d = Some (nth d l 0).
Proof.
  induction D as [|D IH]; intros l; cbn [all_directions]; [intros E; injection E as <-; split; [reflexivity|lia]|].
  destruct (all_directions g D) as [l0|]; [|discriminate]. destruct (g D) as [v|] eqn:Ev; [|discriminate]. intros E. injection E as <-.
  destruct (IH l0 eq_refl) as [L H]. split; [rewrite app_length, L; cbn; lia|]. intros d Hd. destruct (Nat.eq_dec d D) as [->|N].
  - rewrite app_nth2 by lia. rewrite L, Nat.sub_diag. exact Ev.
  - rewrite app_nth1 by lia. apply H. lia.
Qed.
Print Assumptions point_gradients_all.

(** One data point at 1 with weight 3, kernel (x0 y0)^2 and mean 5 x0, at the point 2: the derivative is 5 + 4 * 3, and 5 + 2 x0 y0^2 w
    is met up to 3e-8; for the integer array [[2]] the call raises. *)
Example point_gradients_ex : let k := fun x y : nat -> R => (x 0%nat * y 0%nat) ^ 2 in let m := fun x : nat -> R => 5 * x 0%nat in
  (exists r, mean_grad k m 1 (fun _ _ => 1) DFloat (fun _ => 3) (fun _ => 2) 0 = Some r /\ r <> 17 /\ Rabs (r - 17) <= 3 / 10 ^ 8) /\
  mean_grad k m 1 (fun _ _ => 1) DInt (fun _ => 3) (fun _ => 2) 0 = None.
Proof.
  intros k m. split; [|reflexivity]. eexists. split; [reflexivity|]. unfold set_item, store, k, m. cbn [rsum Nat.eqb].
  match goal with |- ?a <> _ /\ _ => replace a with (17 + 3 / 10 ^ 8) by field end.
  assert (0 < 3 / 10 ^ 8) by (apply Rdiv_lt_0_compat; [lra|apply pow_lt; lra]).
  split; [lra|]. replace (17 + 3 / 10 ^ 8 - 17) with (3 / 10 ^ 8) by ring. rewrite Rabs_pos_eq; lra.
Qed.
