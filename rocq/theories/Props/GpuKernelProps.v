(** C179: the GPU variants of the Wendland kernel against the CPU's. *)
From Coq Require Import Reals ZArith Lra Lia.
From Flocq Require Import Core.
From Verif Require Import Spec.Sums Model.DeepKernel Proofs.DeepKernelP Model.Rounding Proofs.RoundingP Model.Kernels Model.GpuKernel Proofs.GpuKernelP.
Local Open Scope R_scope.
Local Notation F := (generic_format radix2 (FLT_exp (-149) 24)).

(** False: coordinates are cast to single precision before they are subtracted.  Points whose true distance is far beyond the
    support get the covariance of a point with itself.  Here the kernel on the CPU is zero. *)
Theorem gpu_kernel_refuted : forall k a d h0 h, (-100 <= k)%Z -> F a -> F h0 -> F h -> bpow radix2 k <= a -> 0 < h <= d -> d < bpow radix2 (k - 24) ->
  gpu_dense h0 h a (a + d) = h0 /\ exact h0 h a (a + d) = 0.
Proof.
  intros k a d h0 h K Ha H0 Hh Hk Hd Hd'. split.
  - unfold gpu_dense. rewrite (single_lost k a d) by (assumption || lra). rewrite !single_id by assumption. unfold dist32.
    replace (a - a) with 0 by lra. rewrite single_0. replace (0 / h) with 0 by (unfold Rdiv; ring). rewrite single_0. replace (0 ^ 2) with 0 by ring.
    rewrite single_0, Rplus_0_l, single_0, sqrt_0, single_0. rewrite Rmin_left by lra. apply poly32_0, H0.
  - apply exact_far; [lra|]. replace (a - (a + d)) with (- d) by lra. rewrite Rabs_Ropp, Rabs_pos_eq by lra. lra.
Qed.
Print Assumptions gpu_kernel_refuted.

(** What holds: for coordinates and hyperparameters that are single-precision numbers the dense variant is within a thousandth of the signal
    variance, keeps the support and the value at distance zero.  The sparse variant subtracts in double precision: it is as close for all
    coordinates up to a million length scales, and keeps the support of the whitened coordinates. *)
Theorem gpu_kernel_partial :
  (forall h0 h x1 x2, / 10 ^ 25 <= h0 -> / 10 ^ 25 <= h -> F x1 -> F x2 -> F h0 -> F h -> Rabs (gpu_dense h0 h x1 x2 - exact h0 h x1 x2) <= h0 * / 1000) /\
  (forall h0 h x1 x2, / 10 ^ 25 <= h0 -> 0 < h -> Rabs x1 <= 1000000 * h -> Rabs x2 <= 1000000 * h ->
     Rabs (gpu_sparse h0 h x1 x2 - exact h0 h x1 x2) <= h0 * / 1000) /\
  (forall h0 h x1 x2, F x1 -> F x2 -> F h -> 0 < h -> h <= Rabs (x1 - x2) -> gpu_dense h0 h x1 x2 = 0 /\ exact h0 h x1 x2 = 0) /\
  (forall h0 h x, F h0 -> gpu_dense h0 h x x = h0 /\ gpu_sparse h0 h x x = h0 /\ exact h0 h x x = h0) /\
  (forall h0 h x1 x2, 1 <= Rabs (fl (fl (x2 / h) - fl (x1 / h))) -> gpu_sparse h0 h x1 x2 = 0).
Proof.
  split; [exact dense_err|]. split; [exact sparse_err|].
  split; [|split].
  - intros h0 h x1 x2 H1 H2 Hh P D. split; [|apply exact_far; assumption]. unfold gpu_dense. rewrite (single_id x1 H1), (single_id x2 H2), (single_id h Hh).
    rewrite Rmin_right; [apply poly32_1|]. unfold dist32. apply single_ge_1. rewrite <- sqrt_1. apply sqrt_le_1_alt. apply single_ge_1. rewrite Rplus_0_l.
    apply single_ge_1.
    assert (Q : forall u, h <= u -> 1 <= single (single u / h)).
    { intros u Hu. apply single_ge_1. apply Rmult_le_reg_r with h; [exact P|]. unfold Rdiv. rewrite Rmult_assoc, Rinv_l by lra.
      rewrite Rmult_1_l, Rmult_1_r. rewrite <- (single_id h Hh) at 1. apply single_mono, Hu. }
    destruct (Rle_dec 0 (x1 - x2)) as [S|S].
    + rewrite Rabs_pos_eq in D by exact S. specialize (Q _ D). nra.
    + rewrite Rabs_left in D by lra. specialize (Q _ D).
      replace (single (single (x1 - x2) / h)) with (- single (single (- (x1 - x2)) / h)); [nra|].
      rewrite single_opp. unfold Rdiv. rewrite Ropp_mult_distr_l_reverse, single_opp. lra.
  - intros h0 h x H0. split; [|split; [|apply exact_0]].
    + unfold gpu_dense, dist32. replace (single x - single x) with 0 by lra. rewrite single_0. replace (0 / single h) with 0 by (unfold Rdiv; ring).
      rewrite single_0. replace (0 ^ 2) with 0 by ring. rewrite single_0, Rplus_0_l, single_0, sqrt_0, single_0, Rmin_left by lra.
      rewrite single_id by exact H0. apply poly32_0, H0.
    + unfold gpu_sparse. cbv zeta. replace (fl (x / h) - fl (x / h)) with 0 by lra. rewrite fl_0, Rabs_R0, single_0, Rmult_0_r, single_0.
      destruct (Rle_dec 0 1) as [L|L]; [|lra]. rewrite Rmin_left, sqrt_0, single_0 by lra. apply poly32_0, H0.
  - intros h0 h x1 x2 H. unfold gpu_sparse. cbv zeta. set (diff := fl (fl (x2 / h) - fl (x1 / h))) in *.
    destruct (Rle_dec (Rabs diff) 1) as [L|L]; [|reflexivity].
    assert (E : single diff * single diff = 1).
    { assert (A : Rabs diff = 1) by lra. unfold Rabs in A. destruct (Rcase_abs diff).
      - replace diff with (- (1)) by lra. rewrite single_opp, single_1. lra.
      - replace diff with 1 by lra. rewrite single_1. lra. }
    rewrite E, single_1, Rmin_left, sqrt_1, single_1 by lra. destruct (Rle_dec 1 1); [apply poly32_1|reflexivity].
Qed.
Print Assumptions gpu_kernel_partial.

(** inputs of the size of time stamps, unit length scale, one unit apart: signal variance instead of zero *)
Example gpu_kernel_ex : gpu_dense 1 1 134217728 (134217728 + 1) = 1 /\ exact 1 1 134217728 (134217728 + 1) = 0.
Proof.
  assert (P : bpow radix2 27 = 134217728) by (cbn; lra). apply (gpu_kernel_refuted 27); try lia; try lra.
  - rewrite <- P. apply F_pow. lia.
  - apply (F_pow 0). lia.
  - apply (F_pow 0). lia.
  - cbn. lra.
Qed.
