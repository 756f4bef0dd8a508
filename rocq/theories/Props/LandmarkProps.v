(** The landmark kernel sees points only through their distances to the data points within its radius: C192. *)
From Coq Require Import Reals Lra Lia Psatz.
From Verif Require Import Model.Kernels Spec.Sums Spec.LandmarkSpec Proofs.KernelPsdP Proofs.KernelsP.
Local Open Scope R_scope.

Lemma dist_sq_apart D x c : distance D x c ^ 2 = sq_apart D x c.
Proof. unfold distance. rewrite pow2_sqrt; [apply rsum_ext; intros; ring|apply rsum_nonneg; intros; apply pow2_ge_0]. Qed.
Lemma sq_apart_nonneg D x c : 0 <= sq_apart D x c.
Proof. apply rsum_nonneg. intros. apply Rle_0_sqr. Qed.
Lemma exp_le_mono a b : a <= b -> exp a <= exp b.
Proof. intros [H| ->]; [left; apply exp_increasing, H|lra]. Qed.

Section Bump.
Context (r beta : R) (Hr : 0 < r) (Hb : 0 < beta).
Definition b2 (q : R) : R := if Rlt_dec 0 (1 - q / r ^ 2) then exp (- beta / (1 - q / r ^ 2) + beta) else 0.
Lemma bump_b2 d : bump d r beta 1 = b2 (d ^ 2).
Proof. unfold bump, b2. cbv zeta. destruct (Rlt_dec _ _); lra. Qed.
Lemma inside q : 0 < 1 - q / r ^ 2 <-> q < r * r.
Proof.
assert (P : 0 < r ^ 2) by (apply pow_lt, Hr). split; intros H.
- assert (0 < (1 - q / r ^ 2) * r ^ 2) by (apply Rmult_lt_0_compat; assumption). replace ((1 - q / r ^ 2) * r ^ 2) with (r ^ 2 - q) in H0 by (field; lra). simpl in H0. lra.
- replace (1 - q / r ^ 2) with ((r ^ 2 - q) / r ^ 2) by (field; lra). apply Rdiv_lt_0_compat; [simpl; lra|exact P].
Qed.
Lemma b2_out q : r * r <= q -> b2 q = 0.
Proof. intros H. unfold b2. destruct (Rlt_dec _ _) as [Q|Q]; [apply inside in Q; lra|reflexivity]. Qed.
Lemma b2_lt q q' : 0 <= q -> q < q' -> q < r * r -> b2 q' < b2 q.
Proof.
intros Q0 L I. unfold b2. destruct (Rlt_dec 0 (1 - q / r ^ 2)) as [A|A]; [|exfalso; apply A, inside, I].
destruct (Rlt_dec 0 (1 - q' / r ^ 2)) as [B|B]; [|apply exp_pos].
apply exp_increasing. apply Rplus_lt_compat_r. assert (P : 0 < r ^ 2) by (apply pow_lt, Hr).
assert (C : 1 - q' / r ^ 2 < 1 - q / r ^ 2). { apply Rplus_lt_compat_l, Ropp_lt_contravar. unfold Rdiv. apply Rmult_lt_compat_r; [apply Rinv_0_lt_compat, P|exact L]. }
unfold Rdiv. rewrite <- !Ropp_mult_distr_l. apply Ropp_lt_contravar, Rmult_lt_compat_l; [exact Hb|]. apply Rinv_lt_contravar; [apply Rmult_lt_0_compat; assumption|exact C].
Qed.
Lemma b2_range q : 0 <= q -> 0 <= b2 q <= 1.
Proof.
intros Q. unfold b2. destruct (Rlt_dec _ _) as [A|A]; [|lra]. split; [left; apply exp_pos|]. apply Rle_trans with (exp 0); [|rewrite exp_0; lra]. apply exp_le_mono.
assert (P : 0 < r ^ 2) by (apply pow_lt, Hr).
assert (B : 1 - q / r ^ 2 <= 1). { assert (0 <= q / r ^ 2) by (apply Rmult_le_pos; [exact Q|left; apply Rinv_0_lt_compat, P]). lra. }
assert (C : 1 <= / (1 - q / r ^ 2)). { rewrite <- Rinv_1 at 1. apply Rinv_le_contravar; assumption. }
set (c := 1 - q / r ^ 2) in *. unfold Rdiv. assert (beta * 1 <= beta * / c) by (apply Rmult_le_compat_l; [left; exact Hb|exact C]). lra.
Qed.
Lemma b2_same q q' : 0 <= q -> 0 <= q' -> (b2 q = b2 q' <-> ~ (q <> q' /\ (q < r * r \/ q' < r * r))).
Proof.
intros Q Q'. split.
- intros E [N I]. destruct (Rtotal_order q q') as [L|[L|L]]; [|contradiction|].
  + assert (b2 q' < b2 q) by (apply b2_lt; [exact Q|exact L|lra]). lra.
  + assert (b2 q < b2 q') by (apply b2_lt; [exact Q'|exact L|lra]). lra.
- intros H. destruct (Req_dec q q') as [->|N]; [reflexivity|]. rewrite !b2_out; [reflexivity| |]; apply Rnot_lt_le; intros L; apply H; auto.
Qed.
End Bump.

Lemma rsum_zero f n : (forall i, (i < n)%nat -> 0 <= f i) -> rsum f n = 0 -> forall i, (i < n)%nat -> f i = 0.
Proof.
induction n as [|n IH]; intros P E i Hi; [lia|]. cbn in E. assert (A : 0 <= rsum f n) by (apply rsum_nonneg; intros; apply P; lia). assert (B := P n ltac:(lia)).
destruct (Nat.eq_dec i n) as [->|N]; [lra|]. apply IH; [intros; apply P; lia|lra|lia].
Qed.

(** C192: two points have the full covariance exactly when no data point tells them apart; otherwise less; and no two points have less than
    amplitude * exp (- m / length scale), m the number of data points *)
Theorem landmark_kernel_sight : forall D m xdata hps, 0 < hps 0%nat -> 0 < hps 1%nat -> 0 < hps 2%nat -> 0 < hps 3%nat -> forall x y,
  (sle_kernel D m xdata x y hps = hps 0%nat <-> forall k, (k < m)%nat -> ~ tells_apart D (hps 1%nat) (xdata k) x y) /\
  hps 0%nat * exp (- INR m / hps 3%nat) <= sle_kernel D m xdata x y hps <= hps 0%nat.
Proof.
intros D m xd hps H0 H1 H2 H3 x y. set (E := embed D xd hps).
assert (EB : forall z k, E z k = b2 (hps 1%nat) (hps 2%nat) (sq_apart D z (xd k))) by (intros; unfold E, embed; rewrite bump_b2, dist_sq_apart; reflexivity).
assert (S : distance m (E x) (E y) ^ 2 = rsum (fun k => (E x k - E y k) ^ 2) m) by (unfold distance; apply pow2_sqrt, rsum_nonneg; intros; apply pow2_ge_0).
set (Q := rsum (fun k => (E x k - E y k) ^ 2) m) in *.
assert (Q0 : 0 <= Q) by (apply rsum_nonneg; intros; apply pow2_ge_0).
assert (QM : Q <= INR m).
{ replace (INR m) with (rsum (fun _ => 1) m) by (rewrite rsum_const; lra). apply rsum_le. intros k _. rewrite !EB.
  pose proof (b2_range (hps 1%nat) (hps 2%nat) H1 H2 _ (sq_apart_nonneg D x (xd k))). pose proof (b2_range (hps 1%nat) (hps 2%nat) H1 H2 _ (sq_apart_nonneg D y (xd k))). nra. }
assert (F : sle_kernel D m xd x y hps = hps 0%nat * exp (- Q / hps 3%nat)) by (unfold sle_kernel; fold E; rewrite S; reflexivity).
assert (I3 : 0 < / hps 3%nat) by (apply Rinv_0_lt_compat, H3).
rewrite F. split; [|split].
- split.
  + intros EQ k Hk. assert (Z : Q = 0).
    { destruct (Req_dec Q 0) as [|N]; [assumption|]. exfalso. assert (L : exp (- Q / hps 3%nat) < exp 0). { apply exp_increasing. unfold Rdiv. nra. } rewrite exp_0 in L. nra. }
    pose proof (rsum_zero _ m (fun i _ => pow2_ge_0 _) Z k Hk) as V. cbv beta in V. rewrite !EB in V. unfold tells_apart. apply (b2_same (hps 1%nat) (hps 2%nat) H1 H2); [apply sq_apart_nonneg|apply sq_apart_nonneg|]. nra.
  + intros A. assert (Z : Q = 0).
    { unfold Q. rewrite (rsum_ext _ (fun _ => 0)); [rewrite rsum_const; lra|]. intros k Hk. rewrite !EB. assert (G := A k Hk). unfold tells_apart in G. apply (b2_same (hps 1%nat) (hps 2%nat) H1 H2) in G; [rewrite G; ring|apply sq_apart_nonneg|apply sq_apart_nonneg]. }
    rewrite Z. replace (- 0 / hps 3%nat) with 0 by (field; lra). rewrite exp_0. ring.
- apply Rmult_le_compat_l; [lra|]. apply exp_le_mono. unfold Rdiv. nra.
- rewrite <- (Rmult_1_r (hps 0%nat)) at 2. apply Rmult_le_compat_l; [lra|]. rewrite <- exp_0. apply exp_le_mono. unfold Rdiv. nra.
Qed.
Print Assumptions landmark_kernel_sight.
(** one data point at zero, radius one: points at 3 and 5, far from it, are perfectly correlated, and so are 1/2 and -1/2; 0 and 1/2 are not *)
Example landmark_ex : let xd := fun _ _ : nat => 0 in let h := fun _ : nat => 1 in let pt (t : R) := fun _ : nat => t in
  sle_kernel 1 1 xd (pt 3) (pt 5) h = 1 /\ sle_kernel 1 1 xd (pt (1/2)) (pt (-(1/2))) h = 1 /\ sle_kernel 1 1 xd (pt 0) (pt (1/2)) h < 1.
Proof.
intros xd h pt. assert (T : forall a b, (sle_kernel 1 1 xd (pt a) (pt b) h = 1 <-> ~ (a * a <> b * b /\ (a * a < 1 \/ b * b < 1))) /\ sle_kernel 1 1 xd (pt a) (pt b) h <= 1).
{ intros a b. destruct (landmark_kernel_sight 1 1 xd h) with (x := pt a) (y := pt b) as [A B]; try (unfold h; lra). split; [|exact (proj2 B)].
  change (h 0%nat) with 1 in A. rewrite A. unfold tells_apart, sq_apart, h, xd, pt. cbn [rsum]. split; [intros G; specialize (G 0%nat ltac:(lia))|intros G k _]; intros [N L]; apply G; (split; [intros X; apply N; lra|lra]). }
split; [apply T; lra|]. split; [apply T; lra|]. destruct (T 0 (1/2)) as [A B]. destruct (Req_dec (sle_kernel 1 1 xd (pt 0) (pt (1 / 2)) h) 1) as [E|E]; [|lra].
apply A in E. exfalso. apply E. lra.
Qed.
