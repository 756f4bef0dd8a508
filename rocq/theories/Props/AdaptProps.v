(** Property C66: adaptation of the normal proposal. *)
From Coq Require Import Reals Lra.
From Verif Require Import Model.Prelude Model.Adapt.
Local Open Scope R_scope.

(** sum of n terms *)
Fixpoint rsum (f : nat -> R) (n : nat) : R := match n with O => 0 | S m => rsum f m + f m end.
(** a covariance matrix of size d: symmetric and non-negative in every direction *)
Definition covariance (d : nat) (A : nat -> nat -> R) : Prop :=
  (forall i j, A i j = A j i) /\ forall v, 0 <= rsum (fun i => rsum (fun j => v i * A i j * v j) d) d.

Lemma rsum_ext f g n : (forall i, f i = g i) -> rsum f n = rsum g n.
Proof. intros H. induction n; cbn; congruence. Qed.
Lemma rsum_plus f g n : rsum (fun i => f i + g i) n = rsum f n + rsum g n.
Proof. induction n; cbn; lra. Qed.
Lemma rsum_scal c f n : rsum (fun i => c * f i) n = c * rsum f n.
Proof. induction n; cbn; [lra|]. rewrite IHn. lra. Qed.
Lemma rsum_lsum {A} (f : nat -> A -> R) (l : list A) n : rsum (fun i => lsum (f i) l) n = lsum (fun a => rsum (fun i => f i a) n) l.
Proof.
  induction l as [|a l IH].
  - induction n; cbn in *; lra.
  - change (lsum (fun a => rsum (fun i => f i a) n) (a :: l)) with (rsum (fun i => f i a) n + lsum (fun a => rsum (fun i => f i a) n) l).
    rewrite <- IH. apply rsum_plus.
Qed.
Lemma lsum_ext {A} (f g : A -> R) l : (forall a, f a = g a) -> lsum f l = lsum g l.
Proof. intros H. unfold lsum. induction l; cbn; congruence. Qed.
Lemma lsum_scal {A} c (f : A -> R) l : lsum (fun a => c * f a) l = c * lsum f l.
Proof. induction l as [|a l IH]; [cbn; lra|]. unfold lsum in *. cbn. rewrite IH. lra. Qed.
Lemma lsum_nonneg {A} (f : A -> R) l : (forall a, 0 <= f a) -> 0 <= lsum f l.
Proof. intros H. unfold lsum. induction l; cbn; [lra|]. specialize (H a). lra. Qed.
Lemma square_sum (a : nat -> R) n : rsum (fun i => rsum (fun j => a i * a j) n) n = rsum a n * rsum a n.
Proof.
  rewrite (rsum_ext _ (fun i => rsum a n * a i)) by (intros; rewrite rsum_scal; lra). apply rsum_scal.
Qed.

Lemma cov_ok d l : (2 <= length l)%nat -> covariance d (cov l).
Proof.
  intros Hl. assert (Hp : 0 < INR (length l) - 1).
  { assert (INR 2 <= INR (length l)) by now apply le_INR. cbn in H. lra. }
  split.
  - intros i j. unfold cov. f_equal. apply lsum_ext. intros. lra.
  - intros v. unfold cov. set (m := fun i => mean (fun y => y i) l). set (c := INR (length l) - 1) in *.
    assert (E : rsum (fun i => rsum (fun j => v i * (lsum (fun x => (x i - m i) * (x j - m j)) l / c) * v j) d) d
      = / c * lsum (fun x => rsum (fun i => v i * (x i - m i)) d * rsum (fun i => v i * (x i - m i)) d) l).
    { rewrite <- lsum_scal.
      rewrite (lsum_ext _ (fun x => rsum (fun i => rsum (fun j => / c * ((v i * (x i - m i)) * (v j * (x j - m j)))) d) d)).
      2:{ intros x. rewrite <- square_sum. rewrite <- rsum_scal. apply rsum_ext. intros i. now rewrite <- rsum_scal. }
      rewrite <- rsum_lsum. apply rsum_ext. intros i. rewrite <- rsum_lsum. apply rsum_ext. intros j.
      rewrite lsum_scal. rewrite (lsum_ext (fun a => v i * (a i - m i) * (v j * (a j - m j))) (fun a => (v i * v j) * ((a i - m i) * (a j - m j)))) by (intros; ring).
      rewrite lsum_scal. unfold Rdiv. ring. }
    change (0 <= rsum (fun i => rsum (fun j => v i * (lsum (fun x => (x i - m i) * (x j - m j)) l / c) * v j) d) d).
    rewrite E. apply Rmult_le_pos; [left; now apply Rinv_0_lt_compat|]. apply lsum_nonneg. intros x. apply Rle_0_sqr.
Qed.

Lemma gamma2_ok c1 e K : 0 <= c1 -> (0 < K)%nat -> 0 < gamma2 c1 e K <= 1.
Proof.
  intros Hc HK. unfold gamma2. assert (Hb : 3 <= INR e / INR K + 3).
  { assert (0 <= INR e / INR K); [|lra]. apply Rmult_le_pos; [apply pos_INR|]. left. apply Rinv_0_lt_compat, lt_0_INR. exact HK. }
  assert (Hr : 1 <= Rpower (INR e / INR K + 3) c1).
  { rewrite <- (Rpower_O (INR e / INR K + 3)) by lra. apply Rle_Rpower; lra. }
  split; [apply Rinv_0_lt_compat; lra|]. rewrite <- Rinv_1. apply Rinv_le_contravar; lra.
Qed.

(** C66, true for adaptation windows of at least three iterations (the default is ten): the scale stays positive
    and the proposal covariance stays a covariance matrix. *)
Theorem adapt_covariance_partial : forall d c0 c1 r_opt K adapt_cov e jumps xs s,
  0 <= c1 -> (3 <= K)%nat -> (0 < e)%nat -> (e <= length jumps)%nat -> (e <= length xs)%nat ->
  0 < d_sigma s -> covariance d (d_cov s) ->
  exists s', adapt_normal c0 c1 r_opt K adapt_cov e jumps xs s = Some s' /\ 0 < d_sigma s' /\ covariance d (d_cov s').
Proof.
  intros d c0 c1 r_opt K adapt_cov e jumps xs s Hc HK He Hj Hx Hs Hcov. unfold adapt_normal.
  destruct (Nat.eqb_spec (e mod K) 0) as [E|E]; [|eauto].
  assert (HKe : (K <= e)%nat). { apply Nat.div_exact in E; [|lia]. destruct (e / K)%nat; [lia|]. nia. }
  assert (Lw : forall A (l : list A), (e <= length l)%nat -> length (window e K l) = (K - 1)%nat).
  { intros A l H. unfold window. rewrite firstn_length, skipn_length. lia. }
  pose proof (Lw _ jumps Hj) as L1. destruct (window e K jumps) as [|j0 js] eqn:E1; [cbn in L1; lia|].
  destruct adapt_cov.
  - pose proof (Lw _ xs Hx) as L2. destruct (window e K xs) as [|x0 [|x1 w]] eqn:E2; [cbn in L2; lia|cbn in L2; lia|].
    eexists. split; [reflexivity|]. cbn [d_sigma d_cov]. split; [apply exp_pos|].
    set (W := x0 :: x1 :: w). pose proof (cov_ok d W ltac:(cbn; lia)) as [C1 C2]. destruct Hcov as [S1 S2].
    destruct (gamma2_ok c1 e K Hc ltac:(lia)) as [G1 G2]. set (g := gamma2 c1 e K) in *. split.
    + intros i j. now rewrite (C1 i j), (S1 i j).
    + intros v. specialize (C2 v). specialize (S2 v).
      assert (EQ : rsum (fun i => rsum (fun j => v i * (d_cov s i j + g * (cov W i j - d_cov s i j)) * v j) d) d
        = (1 - g) * rsum (fun i => rsum (fun j => v i * d_cov s i j * v j) d) d + g * rsum (fun i => rsum (fun j => v i * cov W i j * v j) d) d).
      { rewrite <- !rsum_scal, <- rsum_plus. apply rsum_ext. intros i. rewrite <- !rsum_scal, <- rsum_plus. apply rsum_ext. intros j. ring. }
      rewrite EQ. assert (0 <= (1 - g) * rsum (fun i => rsum (fun j => v i * d_cov s i j * v j) d) d) by (apply Rmult_le_pos; lra).
      assert (0 <= g * rsum (fun i => rsum (fun j => v i * cov W i j * v j) d) d) by (apply Rmult_le_pos; lra). lra.
  - eexists. split; [reflexivity|]. cbn [d_sigma d_cov]. split; [apply exp_pos|exact Hcov].
Qed.
Print Assumptions adapt_covariance_partial.

(** with a window of two iterations the covariance is estimated from one sample: NaN *)
Theorem adapt_covariance_refuted : forall c0 c1 r_opt jumps xs s,
  length jumps = 2%nat -> length xs = 2%nat -> adapt_normal c0 c1 r_opt 2 true 2 jumps xs s = None.
Proof.
  intros c0 c1 r_opt [|j0 [|j1 [|]]] [|x0 [|x1 [|]]] s; try discriminate. reflexivity.
Qed.
Print Assumptions adapt_covariance_refuted.

(** three iterations, one coordinate, samples 1 and 3: sample variance 2; the variance 2 is kept *)
Example adapt_covariance_ex : exists s', adapt_normal 10 0 0 3 true 3 [1; 1; 1] [(fun _ => 0); (fun _ => 1); (fun _ => 3)] (Dist 1 (fun _ _ => 2)) = Some s' /\
  d_cov s' 0%nat 0%nat = 2 /\ 0 < d_sigma s'.
Proof.
  eexists. split; [reflexivity|]. cbn [d_cov d_sigma]. split; [|apply exp_pos].
  replace (cov [fun _ : nat => 1; fun _ : nat => 3] 0%nat 0%nat) with 2; [ring|]. unfold cov, mean, lsum. cbn. field.
Qed.
