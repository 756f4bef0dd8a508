(** The analytic gradients are the derivatives. *)
From Coq Require Import Reals Lra Lia List Psatz.
From Coquelicot Require Import Coquelicot.
From Verif Require Import Model.Prelude Model.Kernels Spec.Sums Spec.KernelSpec.
Local Open Scope R_scope.

Lemma with_entry_same h i t : with_entry h i t i = t.
Proof. unfold with_entry. rewrite Nat.eqb_refl. reflexivity. Qed.
Lemma with_entry_other h i t j : j <> i -> with_entry h i t j = h j.
Proof. intros H. unfold with_entry. destruct (Nat.eqb_spec j i); [contradiction|reflexivity]. Qed.
Lemma rsum_single f n k : (k < n)%nat -> rsum f n = rsum (fun i => if Nat.eqb i k then 0 else f i) n + f k.
Proof.
  intros H. induction n; [lia|]. cbn. destruct (Nat.eq_dec k n) as [->|].
  - rewrite Nat.eqb_refl. rewrite (rsum_ext f (fun i => if Nat.eqb i n then 0 else f i)); [lra|].
    intros i Hi. destruct (Nat.eqb_spec i n); [lia|reflexivity].
  - rewrite IHn by lia. destruct (Nat.eqb_spec n k); [lia|]. lra.
Qed.
Lemma sqa a : Rabs a ^ 2 = a ^ 2. Proof. apply pow2_abs. Qed.

Lemma dist_split D (x y : point) h dir t : (dir < D)%nat ->
  rsum (fun i => Rabs ((x i - y i) / with_entry h (S dir) t (S i)) ^ 2) D
  = rsum (fun i => if Nat.eqb i dir then 0 else ((x i - y i) / h (S i)) ^ 2) D + ((x dir - y dir) / t) ^ 2.
Proof.
  intros H. rewrite (rsum_single _ D dir H). rewrite with_entry_same, sqa. f_equal. apply rsum_ext. intros i Hi.
  destruct (Nat.eqb_spec i dir); [reflexivity|]. rewrite sqa, with_entry_other; [reflexivity|lia].
Qed.
Lemma with_entry_id h i : forall j, with_entry h i (h i) j = h j.
Proof. intros j. unfold with_entry. destruct (Nat.eqb_spec j i); subst; auto. Qed.

Lemma mat1_of_sqrt rest delta amp h : 0 <= rest -> h <> 0 -> rest + (delta / h) ^ 2 <> 0 ->
  derivable_pt_lim (fun t => amp * matern1 (sqrt (rest + (delta / t) ^ 2)) 1) h
    (amp * matern1_grad (sqrt (rest + (delta / h) ^ 2)) (- delta ^ 2 / (h ^ 3 * sqrt (rest + (delta / h) ^ 2)))).
Proof.
  intros R0 H0 N. assert (P : 0 < rest + (delta / h) ^ 2) by (pose proof (pow2_ge_0 (delta / h)); lra).
  pose proof (sqrt_lt_R0 _ P) as S0. apply is_derive_Reals. unfold matern1, matern1_grad.
  auto_derive.
  - replace (rest + delta * / h * (delta * / h * 1)) with (rest + (delta / h) ^ 2) by (unfold Rdiv; ring). auto.
  - replace (rest + delta * / h * (delta * / h * 1)) with (rest + (delta / h) ^ 2) by (unfold Rdiv; ring).
    remember (sqrt (rest + (delta / h) ^ 2)) as s. replace (- (sqrt 3 * s) * / 1) with (- (sqrt 3 * s)) by field.
    remember (exp (- (sqrt 3 * s))) as e. field. lra.
Qed.
Lemma matern1_grad_0 d : matern1_grad d 0 = 0.
Proof. unfold matern1_grad. ring. Qed.
Lemma rest_nonneg D (x y : point) h dir : 0 <= rsum (fun i => if Nat.eqb i dir then 0 else ((x i - y i) / h (S i)) ^ 2) D.
Proof. apply rsum_nonneg. intros i _. destruct (Nat.eqb i dir); [lra|apply pow2_ge_0]. Qed.

Lemma dpl_ext f g x l : (forall t, f t = g t) -> derivable_pt_lim f x l -> derivable_pt_lim g x l.
Proof. intros E H eps He. destruct (H eps He) as [d Hd]. exists d. intros h. rewrite <- !E. apply Hd. Qed.

Lemma default_gradient_l D x y h k : (forall i, (i < D)%nat -> h (S i) <> 0) ->
  derivable_pt_lim (fun t => default_kernel D x y (with_entry h k t)) (h k) (default_gradient D x y h k).
Proof.
  intros H. destruct k as [|dir]; unfold default_gradient.
  - apply (dpl_ext (mult_real_fct (matern1 (sqrt (rsum (fun i => Rabs ((x i - y i) / h (S i)) ^ 2) D)) 1) id)).
    + intros t. unfold mult_real_fct, id. apply Rmult_comm.
    + pose proof (derivable_pt_lim_scal id (matern1 (sqrt (rsum (fun i => Rabs ((x i - y i) / h (S i)) ^ 2) D)) 1) (h O) 1 (derivable_pt_lim_id _)) as P.
      rewrite Rmult_1_r in P. exact P.
  - destruct (Nat.ltb_spec dir D) as [Hd|Hd].
    + assert (E0 : rsum (fun i => Rabs ((x i - y i) / h (S i)) ^ 2) D
                   = rsum (fun i => if Nat.eqb i dir then 0 else ((x i - y i) / h (S i)) ^ 2) D + ((x dir - y dir) / h (S dir)) ^ 2).
      { rewrite <- (dist_split D x y h dir (h (S dir)) Hd). apply rsum_ext. intros i _. rewrite with_entry_id. reflexivity. }
      rewrite E0. pose proof (rest_nonneg D x y h dir) as R0.
      set (rest := rsum (fun i => if Nat.eqb i dir then 0 else ((x i - y i) / h (S i)) ^ 2) D) in *.
      apply (dpl_ext (fun t => h O * matern1 (sqrt (rest + ((x dir - y dir) / t) ^ 2)) 1)).
      { intros t. unfold default_kernel. rewrite (dist_split D x y h dir t Hd). reflexivity. }
      set (delta := x dir - y dir) in *.
      pose proof (pow2_ge_0 (delta / h (S dir))) as Q0.
      destruct (Req_EM_T (sqrt (rest + (delta / h (S dir)) ^ 2)) 0) as [Z|Z].
      * apply sqrt_eq_0 in Z; [|lra]. assert (rest = 0) by lra. assert (Q : (delta / h (S dir)) ^ 2 = 0) by lra.
        assert (delta = 0).
        { specialize (H dir Hd). destruct (Req_dec delta 0); auto. exfalso.
          assert (delta / h (S dir) <> 0). { unfold Rdiv. apply Rmult_integral_contrapositive_currified; [auto|]. apply Rinv_neq_0_compat, H. }
          nra. }
        rewrite matern1_grad_0, Rmult_0_r. replace rest with 0. replace delta with 0.
        apply (dpl_ext (fun _ => h O * matern1 (sqrt 0) 1)); [|apply derivable_pt_lim_const].
        intros t. replace (0 + (0 / t) ^ 2) with 0 by (unfold Rdiv; ring). reflexivity.
      * rewrite sqa. apply mat1_of_sqrt; [exact R0|apply H, Hd|]. intros Q. apply Z. rewrite Q. apply sqrt_0.
    + apply (dpl_ext (fun _ => default_kernel D x y h)); [|apply derivable_pt_lim_const].
      intros t. unfold default_kernel. change (with_entry h (S dir) t O) with (h O). f_equal. f_equal. f_equal.
      apply rsum_ext. intros i Hi. rewrite with_entry_other; [reflexivity|lia].
Qed.

(** non-stationary kernel *)
Lemma rsum_derive (f : nat -> R -> R) (f' : nat -> R) x n : (forall i, (i < n)%nat -> derivable_pt_lim (f i) x (f' i)) ->
  derivable_pt_lim (fun t => rsum (fun i => f i t) n) x (rsum f' n).
Proof.
  intros H. induction n; cbn; [apply derivable_pt_lim_const|].
  apply (derivable_pt_lim_plus (fun t => rsum (fun i => f i t) n) (f n)); auto.
Qed.
Lemma g_dw D m x x0 w l k : (k < m)%nat ->
  derivable_pt_lim (fun t => g D m x x0 (with_entry w k t) l) (w k) (dgdw D x x0 l k).
Proof.
  intros Hk. unfold g.
  assert (E : dgdw D x x0 l k = rsum (fun i => if Nat.eqb i k then basis D x (x0 i) l else 0) m).
  { rewrite (rsum_single _ m k Hk), Nat.eqb_refl. rewrite (rsum_ext _ (fun _ => 0)), rsum_const; [unfold dgdw; ring|].
    intros i Hi. destruct (Nat.eqb i k); reflexivity. }
  rewrite E. apply (rsum_derive (fun i t => with_entry w k t i * basis D x (x0 i) l)). intros i Hi.
  unfold with_entry. destruct (Nat.eqb_spec i k) as [->|].
  - apply is_derive_Reals. auto_derive; auto. ring.
  - apply derivable_pt_lim_const.
Qed.
Lemma g_dl D m x x0 w l : l <> 0 -> derivable_pt_lim (fun t => g D m x x0 w t) l (dgdl D m x x0 w l).
Proof.
  intros Hl. unfold g, dgdl. apply (rsum_derive (fun i t => w i * basis D x (x0 i) t)). intros i _.
  unfold basis. apply is_derive_Reals. auto_derive; auto.
  replace (- distance D x (x0 i) ^ 2 / l) with (- (distance D x (x0 i) * (distance D x (x0 i) * 1)) * / l) by (unfold Rdiv; ring).
  field. auto.
Qed.
Lemma g_ext D m x x0 w w' l : (forall i, w i = w' i) -> g D m x x0 w l = g D m x x0 w' l.
Proof. intros E. unfold g. apply rsum_ext. intros. rewrite E. reflexivity. Qed.
Lemma non_stat_dw D m x y x0 w l k : (k < m)%nat ->
  derivable_pt_lim (fun t => non_stat D m x y x0 (with_entry w k t) l) (w k) (non_stat_gradient D m x y x0 w l k).
Proof.
  intros Hk. unfold non_stat, non_stat_gradient. destruct (Nat.ltb_spec k m); [|lia].
  pose proof (derivable_pt_lim_mult _ _ _ _ _ (g_dw D m x x0 w l k Hk) (g_dw D m y x0 w l k Hk)) as P. cbv beta in P.
  rewrite (g_ext D m x x0 (with_entry w k (w k)) w), (g_ext D m y x0 (with_entry w k (w k)) w) in P by (apply with_entry_id).
  rewrite (Rmult_comm (g D m x x0 w l)) in P. exact P.
Qed.
Lemma non_stat_dl D m x y x0 w l : l <> 0 ->
  derivable_pt_lim (fun t => non_stat D m x y x0 w t) l (non_stat_gradient D m x y x0 w l m).
Proof.
  intros Hl. unfold non_stat, non_stat_gradient. rewrite Nat.ltb_irrefl.
  pose proof (derivable_pt_lim_mult _ _ _ _ _ (g_dl D m x x0 w l Hl) (g_dl D m y x0 w l Hl)) as P. cbv beta in P.
  rewrite (Rmult_comm (g D m x x0 w l)) in P. exact P.
Qed.
