(** Calculus of positive semidefinite functions: everything that keeps quadratic forms non-negative. *)
From Coq Require Import Reals Lra Lia List Psatz.
From Coquelicot Require Import Coquelicot.
From Verif Require Import Spec.Sums Spec.KernelSpec.
Import ListNotations.
Local Open Scope R_scope.

Lemma sl_ext {A} (f h : A -> R) l : (forall a, f a = h a) -> sum_list (map f l) = sum_list (map h l).
Proof. intros H. induction l; cbn; [reflexivity|]. unfold sum_list in *. rewrite H, IHl. reflexivity. Qed.
Lemma sl_plus {A} (f h : A -> R) l : sum_list (map (fun a => f a + h a) l) = sum_list (map f l) + sum_list (map h l).
Proof. induction l; cbn; [lra|]. unfold sum_list in *. lra. Qed.
Lemma sl_scal {A} c (f : A -> R) l : sum_list (map (fun a => c * f a) l) = c * sum_list (map f l).
Proof. induction l; cbn; [lra|]. unfold sum_list in *. rewrite IHl. lra. Qed.
Lemma sl_app a b : sum_list (a ++ b) = sum_list a + sum_list b.
Proof. induction a; cbn; unfold sum_list in *; lra. Qed.
Lemma sl_lim {A} (f : nat -> A -> R) h l : (forall a, Un_cv (fun n => f n a) (h a)) ->
  Un_cv (fun n => sum_list (map (f n) l)) (sum_list (map h l)).
Proof.
  intros H. induction l as [|a l IH]; cbn.
  - intros e He. exists 0%nat. intros. unfold R_dist. rewrite Rminus_diag_eq, Rabs_R0; auto.
  - apply (CV_plus (fun n => f n a) (fun n => sum_list (map (f n) l))); auto.
Qed.

Section Calculus.
Context {X : Type}.
Implicit Types k q : X -> X -> R.

Lemma qf_ext k q l : (forall x y, k x y = q x y) -> quad_form k l = quad_form q l.
Proof. intros H. unfold quad_form. apply sl_ext. intros p. apply sl_ext. intros r. rewrite H. reflexivity. Qed.
Lemma qf_plus k q l : quad_form (fun x y => k x y + q x y) l = quad_form k l + quad_form q l.
Proof.
  unfold quad_form. rewrite <- sl_plus. apply sl_ext. intros p. rewrite <- sl_plus. apply sl_ext. intros r. ring.
Qed.
Lemma qf_scal c k l : quad_form (fun x y => c * k x y) l = c * quad_form k l.
Proof.
  unfold quad_form. rewrite <- sl_scal. apply sl_ext. intros p. rewrite <- sl_scal. apply sl_ext. intros r. ring.
Qed.
Lemma qf_lim (f : nat -> X -> X -> R) k l : (forall x y, Un_cv (fun n => f n x y) (k x y)) ->
  Un_cv (fun n => quad_form (f n) l) (quad_form k l).
Proof.
  intros H. unfold quad_form. apply sl_lim. intros p. apply sl_lim. intros r.
  apply (CV_mult (fun _ => fst p * fst r)); auto.
  intros e He. exists 0%nat. intros. unfold R_dist. rewrite Rminus_diag_eq, Rabs_R0; auto.
Qed.

Definition nn k := forall l, 0 <= quad_form k l.
(** Multiplying by [k] keeps quadratic forms non-negative. *)
Definition mult k := forall q, nn q -> nn (fun x y => k x y * q x y).

Lemma nn_ext k q : (forall x y, k x y = q x y) -> nn k -> nn q.
Proof. intros H N l. rewrite <- (qf_ext _ _ l H). apply N. Qed.
Lemma nn_one : nn (fun _ _ => 1).
Proof.
  intros l. unfold quad_form.
  assert (E : sum_list (map (fun p : R * X => sum_list (map (fun q : R * X => fst p * fst q * 1) l)) l)
              = sum_list (map fst l) * sum_list (map fst l)).
  { rewrite <- sl_scal. apply sl_ext. intros p. rewrite Rmult_comm, <- sl_scal. apply sl_ext. intros; ring. }
  rewrite E. apply Rle_0_sqr.
Qed.
Lemma nn_rank1 (f : X -> R) q : nn q -> nn (fun x y => f x * f y * q x y).
Proof.
  intros N l. specialize (N (map (fun p => (fst p * f (snd p), snd p)) l)).
  replace (quad_form (fun x y => f x * f y * q x y) l) with (quad_form q (map (fun p => (fst p * f (snd p), snd p)) l)); auto.
  unfold quad_form. rewrite map_map. apply sl_ext. intros p. rewrite map_map. apply sl_ext. intros r. cbn. ring.
Qed.
Lemma nn_lim (f : nat -> X -> X -> R) k : (forall x y, Un_cv (fun n => f n x y) (k x y)) -> (forall n, nn (f n)) -> nn k.
Proof.
  intros H N l. pose proof (qf_lim f k l H) as C.
  destruct (Rle_dec 0 (quad_form k l)) as [|B]; auto.
  destruct (C (- quad_form k l)) as [n Hn]; [lra|].
  specialize (Hn n (Nat.le_refl n)). specialize (N n l). unfold R_dist in Hn.
  apply Rabs_def2 in Hn. lra.
Qed.
Lemma mult_nn k : mult k -> nn k.
Proof. intros M. apply (nn_ext (fun x y => k x y * 1)); [intros; ring|]. apply (M (fun _ _ => 1)), nn_one. Qed.
Lemma mult_ext k q : (forall x y, k x y = q x y) -> mult k -> mult q.
Proof. intros H M r N. apply (nn_ext (fun x y => k x y * r x y)); [intros; rewrite H; reflexivity|]. apply M, N. Qed.
Lemma mult_rank1 f : mult (fun x y => f x * f y).
Proof. intros q N. apply nn_rank1, N. Qed.
Lemma mult_const c : 0 <= c -> mult (fun _ _ => c).
Proof. intros H q N l. rewrite qf_scal. specialize (N l). nra. Qed.
Lemma mult_plus k q : mult k -> mult q -> mult (fun x y => k x y + q x y).
Proof.
  intros H1 H2 r N. apply (nn_ext (fun x y => k x y * r x y + q x y * r x y)); [intros; ring|].
  intros l. rewrite (qf_plus (fun x y => k x y * r x y)). specialize (H1 r N l). specialize (H2 r N l). lra.
Qed.
Lemma mult_mul k q : mult k -> mult q -> mult (fun x y => k x y * q x y).
Proof.
  intros H1 H2 r N. apply (nn_ext (fun x y => k x y * (q x y * r x y))); [intros; ring|]. apply (H1 (fun x y => q x y * r x y)), H2, N.
Qed.
Lemma mult_scal c k : 0 <= c -> mult k -> mult (fun x y => c * k x y).
Proof. intros H M. apply (mult_mul (fun _ _ => c)); auto. apply mult_const, H. Qed.
Lemma mult_pow k n : mult k -> mult (fun x y => k x y ^ n).
Proof. intros M. induction n; cbn; [apply mult_const; lra|]. apply mult_mul; auto. Qed.
Lemma mult_rsum (f : nat -> X -> X -> R) n : (forall i, (i < n)%nat -> mult (f i)) -> mult (fun x y => rsum (fun i => f i x y) n).
Proof.
  intros H. induction n; cbn; [apply mult_const; lra|]. apply (mult_plus (fun x y => rsum (fun i => f i x y) n)); auto.
Qed.
Lemma mult_lim (f : nat -> X -> X -> R) k : (forall x y, Un_cv (fun n => f n x y) (k x y)) -> (forall n, mult (f n)) -> mult k.
Proof.
  intros H M q N. apply (nn_lim (fun n x y => f n x y * q x y)); [|intros n; apply M, N].
  intros x y. apply (CV_mult (fun n => f n x y) (fun _ => q x y)); auto.
  intros e He. exists 0%nat. intros. unfold R_dist. rewrite Rminus_diag_eq, Rabs_R0; auto.
Qed.
Lemma mult_sumf (f : nat -> X -> X -> R) n : (forall i, mult (f i)) -> mult (fun x y => sum_f_R0 (fun i => f i x y) n).
Proof. intros H. induction n; cbn; auto. apply (mult_plus (fun x y => sum_f_R0 (fun i => f i x y) n)); auto. Qed.
Lemma mult_exp k : mult k -> mult (fun x y => exp (k x y)).
Proof.
  intros M. apply (mult_lim (fun n x y => sum_f_R0 (fun i => / INR (fact i) * k x y ^ i) n)).
  - intros x y. exact (proj2_sig (exist_exp (k x y))).
  - intros n. apply mult_sumf. intros i. apply (mult_scal (/ INR (fact i)) (fun x y => k x y ^ i)); [|apply mult_pow, M].
    left. apply Rinv_0_lt_compat, INR_fact_lt_0.
Qed.

(** All the exponentials exp(-s p) are multipliers. *)
Definition neg_type (p : X -> X -> R) := forall s, 0 <= s -> mult (fun x y => exp (- (s * p x y))).
Lemma nt_ext p r : (forall x y, p x y = r x y) -> neg_type p -> neg_type r.
Proof. intros H N s Hs. apply (mult_ext (fun x y => exp (- (s * p x y)))); [intros; rewrite H; reflexivity|]. apply N, Hs. Qed.
Lemma nt_const c : 0 <= c -> neg_type (fun _ _ => c).
Proof. intros H s Hs. apply mult_const. left. apply exp_pos. Qed.
Lemma nt_plus p r : neg_type p -> neg_type r -> neg_type (fun x y => p x y + r x y).
Proof.
  intros H1 H2 s Hs. apply (mult_ext (fun x y => exp (- (s * p x y)) * exp (- (s * r x y)))).
  - intros. rewrite <- exp_plus. f_equal. ring.
  - apply mult_mul; auto.
Qed.
Lemma nt_scal c p : 0 <= c -> neg_type p -> neg_type (fun x y => c * p x y).
Proof.
  intros H N s Hs. apply (mult_ext (fun x y => exp (- (s * c * p x y)))); [intros; f_equal; ring|].
  apply N. apply Rmult_le_pos; auto.
Qed.
Lemma nt_rsum (f : nat -> X -> X -> R) n : (forall i, (i < n)%nat -> neg_type (f i)) -> neg_type (fun x y => rsum (fun i => f i x y) n).
Proof.
  intros H. induction n; cbn; [apply nt_const; lra|]. apply (nt_plus (fun x y => rsum (fun i => f i x y) n)); auto.
Qed.
Lemma nt_lim (f : nat -> X -> X -> R) p : (forall x y, Un_cv (fun n => f n x y) (p x y)) -> (forall n, neg_type (f n)) -> neg_type p.
Proof.
  intros H N s Hs. apply (mult_lim (fun n x y => exp (- (s * f n x y)))); [|intros n; apply N, Hs].
  intros x y. apply (continuity_seq (fun a => exp (- (s * a))) (fun n => f n x y) (p x y)); auto.
  apply derivable_continuous_pt. reg.
Qed.
(** squares of differences of a feature *)
Lemma nt_sqdiff (f : X -> R) : neg_type (fun x y => (f x - f y) ^ 2).
Proof.
  intros s Hs.
  apply (mult_ext (fun x y => (exp (- (s * f x ^ 2)) * exp (- (s * f y ^ 2))) * exp (2 * s * (f x * f y)))).
  - intros. rewrite <- !exp_plus. f_equal. ring.
  - apply mult_mul; [apply mult_rank1 with (f := fun x => exp (- (s * f x ^ 2)))|].
    apply mult_exp, mult_scal; [lra|]. apply mult_rank1.
Qed.
Lemma nt_bounded c k : mult k -> neg_type (fun x y => c - k x y).
Proof.
  intros M s Hs. apply (mult_ext (fun x y => exp (- (s * c)) * exp (s * k x y))).
  - intros. rewrite <- exp_plus. f_equal. ring.
  - apply mult_scal; [left; apply exp_pos|]. apply mult_exp, mult_scal; auto.
Qed.
End Calculus.

(** ** Two limits *)
Lemma geom_cv q : Rabs q < 1 -> Un_cv (fun n => sum_f_R0 (fun i => q ^ i) n) (/ (1 - q)).
Proof.
  intros H. pose proof (GP_infinite q H) as P. unfold Pser, infinite_sum in P.
  intros e He. destruct (P e He) as [N HN]. exists N. intros n Hn. specialize (HN n Hn).
  rewrite (sum_eq (fun i => 1 * q ^ i) (fun i => q ^ i)) in HN; auto. intros; ring.
Qed.
Definition hh (n : nat) : R := / INR (S n).
Lemma hh_pos n : 0 < hh n. Proof. apply Rinv_0_lt_compat, lt_0_INR. lia. Qed.
Lemma hh_cv : Un_cv hh 0.
Proof.
  intros e He. destruct (archimed_cor1 e He) as [N [H1 H2]]. exists N. intros n Hn. unfold R_dist, hh.
  rewrite Rminus_0_r, Rabs_right; [|left; apply hh_pos].
  apply Rle_lt_trans with (/ INR N); auto. apply Rinv_le_contravar; [apply lt_0_INR; lia|]. apply le_INR; lia.
Qed.
Lemma exp_quot_cv c : 0 < c -> Un_cv (fun n => hh n * / (1 - exp (- (c * hh n)))) (/ c).
Proof.
  intros Hc.
  assert (Q : Un_cv (fun n => (1 - exp (- (c * hh n))) / hh n) c).
  { assert (D : derivable_pt_lim (fun h => - exp (- (c * h))) 0 c).
    { apply is_derive_Reals. auto_derive; auto. rewrite Rmult_0_r, Ropp_0, exp_0. ring. }
    intros e He. destruct (D e He) as [del Hd]. destruct (hh_cv del (cond_pos del)) as [N HN].
    exists N. intros n Hn. specialize (HN n Hn). unfold R_dist in *. rewrite Rminus_0_r in HN.
    pose proof (hh_pos n). specialize (Hd (hh n) ltac:(lra) HN). rewrite Rplus_0_l, Rmult_0_r, Ropp_0, exp_0 in Hd.
    replace (1 - exp (- (c * hh n))) with (- exp (- (c * hh n)) - - (1)) by ring. exact Hd. }
  apply (Un_cv_ext (fun n => / ((1 - exp (- (c * hh n))) / hh n))).
  - intros n. pose proof (hh_pos n).
    assert (exp (- (c * hh n)) < 1). { rewrite <- exp_0. apply exp_increasing. nra. }
    field. split; lra.
  - apply (continuity_seq Rinv (fun n => (1 - exp (- (c * hh n))) / hh n) c); auto.
    apply (continuity_pt_inv id); [apply derivable_continuous_pt, derivable_pt_id|unfold id; lra].
Qed.
Lemma mult_resolvent {X} (p : X -> X -> R) t : 0 < t -> (forall x y, 0 <= p x y) -> neg_type p ->
  mult (fun x y => / (p x y + t)).
Proof.
  intros Ht P N.
  apply (mult_lim (fun n x y => hh n * / (1 - exp (- ((p x y + t) * hh n))))).
  { intros x y. apply exp_quot_cv. specialize (P x y). lra. }
  intros n. apply (mult_scal (hh n) (fun x y => / (1 - exp (- ((p x y + t) * hh n))))); [left; apply hh_pos|].
  apply (mult_lim (fun m x y => sum_f_R0 (fun i => exp (- ((p x y + t) * hh n)) ^ i) m)).
  { intros x y. apply geom_cv. specialize (P x y). pose proof (hh_pos n). rewrite Rabs_right; [|left; apply exp_pos].
    rewrite <- exp_0. apply exp_increasing. nra. }
  intros m. apply mult_sumf. intros i. apply (mult_pow (fun x y => exp (- ((p x y + t) * hh n)))).
  apply (mult_ext (fun x y => exp (- (t * hh n)) * exp (- (hh n * p x y)))).
  - intros. rewrite <- exp_plus. f_equal. ring.
  - apply mult_scal; [left; apply exp_pos|]. apply N. left. apply hh_pos.
Qed.

(** Right Riemann sums of a non-negative decreasing function with an antiderivative that has a limit. *)
Definition riemann (f : R -> R) (n : nat) : R := rsum (fun k => hh n * f (INR (S k) * hh n)) (S n * S n).
Lemma riemann_cv (F f : R -> R) L :
  (forall u, 0 < u -> is_derive F u (f u)) -> (forall u, 0 <= u -> continuity_pt F u) ->
  (forall u v, 0 <= u -> u <= v -> f v <= f u) -> (forall u, 0 <= u -> 0 <= f u) ->
  Un_cv (fun n => F (INR (S n))) L ->
  Un_cv (riemann f) (L - F 0).
Proof.
  intros D C A P Lim.
  assert (Step : forall h u, 0 < h -> 0 <= u -> h * f (u + h) <= F (u + h) - F u <= h * f u).
  { intros h u Hh Hu.
    destruct (MVT_gen F u (u + h) f) as [c [Hc E]].
    - intros x Hx. rewrite Rmin_left in Hx by lra. apply D. lra.
    - intros x Hx. rewrite Rmin_left in Hx by lra. apply C. lra.
    - rewrite Rmin_left, Rmax_right in Hc by lra. rewrite E.
      assert (f (u + h) <= f c) by (apply A; lra). assert (f c <= f u) by (apply A; lra).
      replace (u + h - u) with h by ring. nra. }
  assert (Bound : forall h N, 0 < h ->
     F (INR N * h) - F 0 - h * f 0 <= rsum (fun k => h * f (INR (S k) * h)) N <= F (INR N * h) - F 0).
  { intros h N Hh.
    assert (S1 : rsum (fun k => h * f (INR (S k) * h)) N <= F (INR N * h) - F 0 /\
                 F (INR N * h) - F 0 - h * f 0 + h * f (INR N * h) <= rsum (fun k => h * f (INR (S k) * h)) N).
    { induction N as [|N IH]; cbn [rsum]; [cbn; rewrite Rmult_0_l; lra|].
      assert (E : INR (S N) * h = INR N * h + h) by (rewrite S_INR; ring).
      destruct (Step h (INR N * h) Hh) as [S1 S2]; [apply Rmult_le_pos; [apply pos_INR|lra]|].
      rewrite E. destruct IH as [I1 I2]. split; lra. }
    assert (0 <= f (INR N * h)) by (apply P, Rmult_le_pos; [apply pos_INR|lra]). nra. }
  assert (E : forall n, INR (S n * S n) * hh n = INR (S n)).
  { intros n. rewrite mult_INR. unfold hh. field. apply not_0_INR. lia. }
  assert (Up : Un_cv (fun n => F (INR (S n)) - F 0) (L - F 0)).
  { apply (CV_minus (fun n => F (INR (S n))) (fun _ => F 0)); auto.
    intros e He. exists 0%nat. intros. unfold R_dist. rewrite Rminus_diag_eq, Rabs_R0; auto. }
  assert (Lo : Un_cv (fun n => F (INR (S n)) - F 0 - hh n * f 0) (L - F 0)).
  { replace (L - F 0) with (L - F 0 - 0 * f 0) by ring.
    apply (CV_minus (fun n => F (INR (S n)) - F 0) (fun n => hh n * f 0)); auto.
    apply (CV_mult hh (fun _ => f 0)); [apply hh_cv|].
    intros e He. exists 0%nat. intros. unfold R_dist. rewrite Rminus_diag_eq, Rabs_R0; auto. }
  intros e He. destruct (Up e He) as [N1 H1]. destruct (Lo e He) as [N2 H2]. exists (max N1 N2). intros n Hn.
  specialize (H1 n ltac:(lia)). specialize (H2 n ltac:(lia)). unfold R_dist in *.
  destruct (Bound (hh n) (S n * S n)%nat (hh_pos n)) as [B1 B2]. rewrite E in B1, B2. unfold riemann.
  apply Rabs_def2 in H1. apply Rabs_def2 in H2. apply Rabs_def1; lra.
Qed.
