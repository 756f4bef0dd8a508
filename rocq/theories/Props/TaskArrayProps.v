(** C41: multi-task predictions are arranged by point and task. *)
From Coq Require Import List Arith Lia.
From Verif Require Import Model.TaskArray Proofs.TaskArrayP.
Import ListNotations.

(** mean, variance, one-direction gradients and covariance *)
Theorem task_arrays_partial : forall X Y A (x : list X) (y : list Y) (f : X * Y -> A) (c : X * Y -> X * Y -> A)
    (flat : array A) (S : array A),
  let prod := cartesian_product x y in let P := length x in let T := length y in
  (forall k z, nth_error prod k = Some z -> flat [k] = f z /\ flat [k; 0] = f z) ->
  (forall k l z w, nth_error prod k = Some z -> nth_error prod l = Some w -> S [k; l] = c z w) ->
  length prod = P * T /\
  forall p t xp yt, nth_error x p = Some xp -> nth_error y t = Some yt ->
    mean_re P T flat [p; t] = f (xp, yt) /\ vec_re P T flat [p; t] = f (xp, yt) /\
    forall p' t' xp' yt', nth_error x p' = Some xp' -> nth_error y t' = Some yt' ->
      cov_re P T S [p; p'; t; t'] = c (xp, yt) (xp', yt').
Proof.
intros X Y A x y f c flat S prod P T Hf Hc. split; [apply product_length|]. intros p t xp yt Hp Ht.
assert (Lp : p < P) by (apply nth_error_Some; congruence). assert (Lt : t < T) by (apply nth_error_Some; congruence).
pose proof (product_nth x y p t xp yt Hp Ht) as N. destruct (Hf _ _ N) as [F1 F2].
rewrite mean_re_l, vec_re_l by assumption. split; [exact F2|split; [exact F1|]]. intros p' t' xp' yt' Hp' Ht'.
assert (Lp' : p' < P) by (apply nth_error_Some; congruence). assert (Lt' : t' < T) by (apply nth_error_Some; congruence).
rewrite cov_re_l by assumption. apply Hc; [exact N|]. apply product_nth; assumption.
Qed.
Print Assumptions task_arrays_partial.

(** the gradients in all directions, [g] has a row per point of the product space: right for one task or one dimension *)
Theorem task_gradients_partial : forall X Y A (x : list X) (y : list Y) D (f : X * Y -> nat -> A) (g : array A),
  (forall k d z, nth_error (cartesian_product x y) k = Some z -> d < D -> g [k; d] = f z d) ->
  length y = 1 \/ D = 1 ->
  forall p d t xp yt, nth_error x p = Some xp -> nth_error y t = Some yt -> d < D ->
    grad_re (length x) (length y) D g [p; d; t] = f (xp, yt) d.
Proof.
intros X Y A x y D f g Hg TD p d t xp yt Hp Ht Hd.
assert (Lp : p < length x) by (apply nth_error_Some; congruence). assert (Lt : t < length y) by (apply nth_error_Some; congruence).
rewrite grad_re_l by assumption. rewrite <- (Hg (p + length x * t) d _ (product_nth x y p t xp yt Hp Ht) Hd).
destruct TD as [E|E].
- rewrite E in *. replace t with 0 by lia. rewrite Nat.mul_1_r, !Nat.mul_0_r, !Nat.add_0_r, modn, divn by assumption. reflexivity.
- rewrite E in *. replace d with 0 by lia. rewrite Nat.mul_1_l, Nat.add_0_l.
  pose proof (lt_flat (length x) (length y) p t Lp Lt). rewrite Nat.mod_small, Nat.div_small by lia. reflexivity.
Qed.
Print Assumptions task_gradients_partial.

(** with two tasks and two dimensions or more, the entry for the first point, second dimension and first task is the
    derivative of the first task's or second task's value in another dimension, for every number of points *)
Theorem task_gradients_refuted : forall X Y A (x : list X) (y : list Y) D (f : X * Y -> nat -> A) (g : array A) x0 y0 y1,
  (forall k d z, nth_error (cartesian_product x y) k = Some z -> d < D -> g [k; d] = f z d) ->
  nth_error x 0 = Some x0 -> nth_error y 0 = Some y0 -> nth_error y 1 = Some y1 -> 2 <= D ->
  grad_re (length x) (length y) D g [0; 1; 0] = f (x0, y1) 0.
Proof.
intros X Y A x y D f g x0 y0 y1 Hg Hx H0 H1 HD.
assert (Lx : 0 < length x) by (apply nth_error_Some; congruence). assert (Ly : 1 < length y) by (apply nth_error_Some; congruence).
rewrite grad_re_l by lia. rewrite !Nat.mul_0_r, Nat.add_0_r, Nat.mul_1_r, Nat.add_0_l.
rewrite Nat.mod_small, Nat.div_small by nia.
apply Hg; [|lia]. replace (length x) with (0 + length x * 1) by lia. apply product_nth; assumption.
Qed.
Print Assumptions task_gradients_refuted.

(** the derivative of the covariance matrix: right for one task or one point, wrong otherwise *)
Theorem task_covariance_gradient_partial : forall X Y A (x : list X) (y : list Y) (c : X * Y -> X * Y -> A) (S : array A),
  (forall k l z w, nth_error (cartesian_product x y) k = Some z -> nth_error (cartesian_product x y) l = Some w -> S [k; l] = c z w) ->
  length y = 1 \/ length x = 1 ->
  forall p t xp yt p' t' xp' yt', nth_error x p = Some xp -> nth_error y t = Some yt -> nth_error x p' = Some xp' -> nth_error y t' = Some yt' ->
    cov_grad_re (length x) (length y) S [p; p'; t; t'] = c (xp, yt) (xp', yt').
Proof.
intros X Y A x y c S Hc O p t xp yt p' t' xp' yt' Hp Ht Hp' Ht'.
assert (Lp : p < length x) by (apply nth_error_Some; congruence). assert (Lt : t < length y) by (apply nth_error_Some; congruence).
assert (Lp' : p' < length x) by (apply nth_error_Some; congruence). assert (Lt' : t' < length y) by (apply nth_error_Some; congruence).
rewrite cov_grad_re_l by assumption.
rewrite <- (Hc (p + length x * t) (p' + length x * t') _ _ (product_nth x y p t xp yt Hp Ht) (product_nth x y p' t' xp' yt' Hp' Ht')).
destruct O as [E|E]; rewrite E in *.
- replace t with 0 by lia. replace t' with 0 by lia. rewrite Nat.mul_1_r. repeat rewrite ?Nat.mul_0_r, ?Nat.add_0_r.
  rewrite modn, divn by assumption. reflexivity.
- replace p with 0 by lia. replace p' with 0 by lia. rewrite !Nat.mul_1_l, !Nat.add_0_l, modn, divn by assumption. reflexivity.
Qed.
Print Assumptions task_covariance_gradient_partial.
Theorem task_covariance_gradient_refuted : forall X Y A (x : list X) (y : list Y) (c : X * Y -> X * Y -> A) (S : array A) x0 x1 y0 y1,
  (forall k l z w, nth_error (cartesian_product x y) k = Some z -> nth_error (cartesian_product x y) l = Some w -> S [k; l] = c z w) ->
  nth_error x 0 = Some x0 -> nth_error x 1 = Some x1 -> nth_error y 0 = Some y0 -> nth_error y 1 = Some y1 ->
  cov_grad_re (length x) (length y) S [0; 1; 0; 0] = c (x0, y1) (x0, y0).
Proof.
intros X Y A x y c S x0 x1 y0 y1 Hc Hx0 Hx1 H0 H1.
assert (Lx : 1 < length x) by (apply nth_error_Some; congruence). assert (Ly : 1 < length y) by (apply nth_error_Some; congruence).
rewrite cov_grad_re_l by lia. repeat rewrite ?Nat.mul_0_r, ?Nat.add_0_r. rewrite Nat.mul_1_r, Nat.add_0_l.
rewrite Nat.mod_small, Nat.div_small by nia.
apply Hc.
- replace (length x) with (0 + length x * 1) by lia. apply product_nth; assumption.
- replace 0 with (0 + length x * 0) by lia. apply product_nth; assumption.
Qed.
Print Assumptions task_covariance_gradient_refuted.

(** examples: three points and two tasks, values named by point and task *)
Definition xs := [10; 20; 30]. Definition ys := [1; 2].
Definition val (z : nat * nat) := fst z + snd z.
Definition flat : array nat := fun idx => match idx with k :: _ => val (nth k (cartesian_product xs ys) (0, 0)) | [] => 0 end.
Example task_arrays_ex : mean_re 3 2 flat [2; 1] = 32 /\ vec_re 3 2 flat [0; 1] = 12 /\
  cov_re 3 2 (fun idx => 100 * flat idx + flat (tl idx)) [2; 0; 1; 0] = 3211 /\
  (* the value for point 20, task 1 and dimension 1 is asked, the one of task 2 and dimension 0 returned *)
  grad_re 3 2 2 (fun idx => 100 * flat idx + nth 1 idx 0) [1; 1; 0] = 2200.
Proof. repeat split. Qed.
