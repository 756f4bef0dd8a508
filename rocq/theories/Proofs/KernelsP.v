(** Lemmas about the kernels: profiles, gradients, support, counterexamples. *)
From Coq Require Import Reals Lra Lia List Psatz.
From Coquelicot Require Import Coquelicot.
From Verif Require Import Model.Prelude Model.Kernels Spec.Sums Spec.KernelSpec Proofs.PsdP Proofs.KernelPsdP.
Import ListNotations.
Local Open Scope R_scope.

(** ** Profiles *)
Lemma exp_le a b : a <= b -> exp a <= exp b.
Proof. intros [H| ->]; [left; apply exp_increasing, H|lra]. Qed.
Lemma s3 : 0 < sqrt 3. Proof. apply sqrt_lt_R0; lra. Qed.
Lemma s5 : 0 < sqrt 5. Proof. apply sqrt_lt_R0; lra. Qed.
Lemma s5s : sqrt 5 * sqrt 5 = 5. Proof. apply sqrt_sqrt; lra. Qed.
Lemma matern1_M1 d l : 0 <= d -> 0 < l -> matern1 d l = M1 ((sqrt 3 * d / l) ^ 2).
Proof.
  intros Hd Hl. unfold matern1, M1. pose proof s3. rewrite sqrt_pow2; [|apply Rmult_le_pos; [nra|left; apply Rinv_0_lt_compat, Hl]].
  f_equal. f_equal. field. lra.
Qed.
Lemma matern2_M2 d l : 0 <= d -> 0 < l -> matern2 d l = M2 ((sqrt 5 * d / l) ^ 2).
Proof.
  intros Hd Hl. unfold matern2, M2. pose proof s5. pose proof s5s as E. rewrite sqrt_pow2; [|apply Rmult_le_pos; [nra|left; apply Rinv_0_lt_compat, Hl]].
  f_equal; [|f_equal; field; lra]. f_equal. replace ((sqrt 5 * d / l) ^ 2) with (sqrt 5 * sqrt 5 * d ^ 2 / l ^ 2) by (field; lra).
  rewrite E. field. lra.
Qed.
Lemma quot_le c d d' l : 0 <= c -> 0 < l -> 0 <= d -> d <= d' -> 0 <= c * d / l <= c * d' / l.
Proof.
  intros Hc Hl H0 H1. assert (0 < / l) by (apply Rinv_0_lt_compat, Hl). unfold Rdiv.
  split; [apply Rmult_le_pos; [nra|lra]|]. apply Rmult_le_compat_r; [lra|nra].
Qed.
Lemma matern1_profile l : 0 < l -> correlation_profile (fun d => matern1 d l).
Proof.
  intros Hl. split; [|split].
  - rewrite matern1_M1 by lra. replace ((sqrt 3 * 0 / l) ^ 2) with 0 by (field; lra). unfold M1. rewrite sqrt_0, Ropp_0, exp_0. lra.
  - intros d Hd. rewrite matern1_M1 by lra. apply M_pos. apply pow2_ge_0.
  - intros d d' Hd H. rewrite !matern1_M1 by lra. apply M1_anti; [apply pow2_ge_0|]. apply pow_incr. apply quot_le; auto. left; apply s3.
Qed.
Lemma matern2_profile l : 0 < l -> correlation_profile (fun d => matern2 d l).
Proof.
  intros Hl. split; [|split].
  - rewrite matern2_M2 by lra. replace ((sqrt 5 * 0 / l) ^ 2) with 0 by (field; lra). unfold M2. rewrite sqrt_0, Ropp_0, exp_0. lra.
  - intros d Hd. rewrite matern2_M2 by lra. pose proof (M_pos ((sqrt 5 * d / l) ^ 2) (pow2_ge_0 _)). lra.
  - intros d d' Hd H. rewrite !matern2_M2 by lra. apply M2_anti; [apply pow2_ge_0|]. apply pow_incr. apply quot_le; auto. left; apply s5.
Qed.
Lemma exponential_profile l : 0 < l -> correlation_profile (fun d => exponential d l).
Proof.
  intros Hl. unfold exponential. split; [|split].
  - replace (-0 / l) with 0 by (field; lra). apply exp_0.
  - intros. left. apply exp_pos.
  - intros d d' Hd H. apply exp_le. pose proof (quot_le 1 d d' l). unfold Rdiv in *. rewrite !Rmult_1_l in *. lra.
Qed.
Lemma sq_exp_profile l : 0 < l -> correlation_profile (fun d => sq_exp d l).
Proof.
  intros Hl. unfold sq_exp. split; [|split].
  - replace (- 0 ^ 2 / (2 * l ^ 2)) with 0 by (field; lra). apply exp_0.
  - intros. left. apply exp_pos.
  - intros d d' Hd H. apply exp_le. assert (d ^ 2 <= d' ^ 2) by (apply pow_incr; lra).
    pose proof (quot_le 1 (d ^ 2) (d' ^ 2) (2 * l ^ 2) ltac:(lra) ltac:(nra) ltac:(nra) ltac:(nra)). unfold Rdiv in *. rewrite !Rmult_1_l in *. lra.
Qed.
Lemma robust_exponential d phi : phi <> 0 -> exponential_robust d phi = exponential d (/ phi ^ 2).
Proof. intros H. unfold exponential_robust, exponential. f_equal. field. auto. Qed.
Lemma robust_matern1 d phi : phi <> 0 -> matern1_robust d phi = matern1 d (/ phi ^ 2).
Proof. intros H. unfold matern1_robust, matern1. f_equal; [|f_equal]; field; auto. Qed.
Lemma robust_sq_exp d phi : phi <> 0 -> sq_exp_robust d phi = sq_exp d (/ (sqrt 2 * Rabs phi)).
Proof.
  intros H. unfold sq_exp_robust, sq_exp. f_equal.
  assert (0 < sqrt 2) by (apply sqrt_lt_R0; lra). assert (E : sqrt 2 * sqrt 2 = 2) by (apply sqrt_sqrt; lra).
  assert (0 < Rabs phi) by (apply Rabs_pos_lt, H).
  assert (P : (/ (sqrt 2 * Rabs phi)) ^ 2 = / (2 * phi ^ 2)).
  { rewrite <- (pow2_abs phi). replace 2 with (sqrt 2 * sqrt 2) at 2. field. lra. }
  rewrite P. field. auto.
Qed.
Lemma phi2 phi : phi <> 0 -> 0 < / phi ^ 2.
Proof. intros H. apply Rinv_0_lt_compat. nra. Qed.

(** the constant of the robust twice-differentiable Matern kernel *)
Lemma s5_bounds : 2.236 < sqrt 5 < 2.237.
Proof. pose proof s5s. pose proof s5. split; nra. Qed.
Lemma exp_le_inv_poly t : 0 <= t -> (1 + t / 8) ^ 8 <= exp t.
Proof.
  intros H. assert (E : exp t = exp (t / 8) ^ 8).
  { replace (exp (t / 8) ^ 8) with (((exp (t/8) * exp (t/8)) * (exp (t/8) * exp (t/8))) * ((exp (t/8) * exp (t/8)) * (exp (t/8) * exp (t/8)))) by ring.
    rewrite <- !exp_plus. f_equal. field. }
  rewrite E. apply pow_incr. pose proof (exp_ge_1 (t / 8)). lra.
Qed.
(** exp t <= 1 / (1 - t/8)^8 for 0 <= t < 8 *)
Lemma exp_upper t : 0 <= t -> t < 8 -> exp t * (1 - t / 8) ^ 8 <= 1.
Proof.
  intros H H8. assert (E : exp t = exp (t / 8) ^ 8).
  { replace (exp (t / 8) ^ 8) with (((exp (t/8) * exp (t/8)) * (exp (t/8) * exp (t/8))) * ((exp (t/8) * exp (t/8)) * (exp (t/8) * exp (t/8)))) by ring.
    rewrite <- !exp_plus. f_equal. field. }
  rewrite E, <- Rpow_mult_distr. assert (K : exp (t / 8) * (1 - t / 8) <= 1).
  { assert (1 - t / 8 <= exp (- (t / 8))). { destruct (Req_dec t 0) as [->|]; [replace (- (0 / 8)) with 0 by field; rewrite exp_0; lra|]. pose proof (exp_ineq1 (- (t / 8))). lra. }
    assert (exp (t / 8) * exp (- (t / 8)) = 1) by (rewrite <- exp_plus, Rplus_opp_r; apply exp_0).
    pose proof (exp_pos (t / 8)). nra. }
  rewrite <- (pow1 8). apply pow_incr. split; [|lra]. apply Rmult_le_pos; [left; apply exp_pos|lra].
Qed.
Lemma matern2_robust_big phi : phi <> 0 -> 3 / 2 < matern2_robust (/ (2 * phi ^ 2)) phi.
Proof.
  intros H. unfold matern2_robust. pose proof (phi2 phi H).
  replace (sqrt 5 * / (2 * phi ^ 2) * phi ^ 2) with (sqrt 5 / 2) by (field; auto).
  replace (5 * (/ (2 * phi ^ 2)) ^ 2 * (3 * phi ^ 4)) with (15 / 4) by (field; auto).
  replace (- (sqrt 5 * / (2 * phi ^ 2)) * phi ^ 2) with (- (sqrt 5 / 2)) by (field; auto).
  pose proof s5_bounds as B. rewrite exp_Ropp.
  assert (E : exp (sqrt 5 / 2) <= 7 / 2).
  { pose proof (exp_upper (sqrt 5 / 2) ltac:(lra) ltac:(lra)) as U.
    assert (K : (86 / 100) ^ 8 <= (1 - sqrt 5 / 2 / 8) ^ 8) by (apply pow_incr; lra).
    pose proof (exp_pos (sqrt 5 / 2)). assert (299 / 1000 <= (86 / 100) ^ 8) by lra.
    assert (exp (sqrt 5 / 2) * (299 / 1000) <= 1) by nra. lra. }
  pose proof (exp_pos (sqrt 5 / 2)).
  apply (Rmult_lt_reg_r (exp (sqrt 5 / 2))); [auto|]. rewrite Rmult_assoc, Rinv_l, Rmult_1_r; lra.
Qed.
Lemma matern2_robust_zero phi : matern2_robust 0 phi = 1.
Proof.
  unfold matern2_robust. replace (sqrt 5 * 0 * phi ^ 2) with 0 by ring. replace (- (sqrt 5 * 0) * phi ^ 2) with 0 by ring.
  rewrite exp_0. ring.
Qed.

(** ** sparse_kernel *)
Definition sk (u : R) : R := 3 * u ^ 2 * ln (u / (1 + sqrt (1 - u ^ 2))) + (2 * u ^ 2 + 1) * sqrt (1 - u ^ 2).
Lemma sk_derive u : 0 < u < 1 -> is_derive sk u (6 * u * (ln (u / (1 + sqrt (1 - u ^ 2))) + sqrt (1 - u ^ 2))).
Proof.
  intros H. unfold sk. assert (P : 0 < 1 - u ^ 2) by nra. pose proof (sqrt_lt_R0 _ P) as S0.
  assert (SS : sqrt (1 - u ^ 2) * sqrt (1 - u ^ 2) = 1 - u ^ 2) by (apply sqrt_sqrt; lra).
  assert (Q : 0 < u / (1 + sqrt (1 - u ^ 2))) by (apply Rdiv_lt_0_compat; lra).
  auto_derive.
  - replace (1 + - (u * (u * 1))) with (1 - u ^ 2) by ring. repeat split; auto; lra.
  - replace (1 + - (u * (u * 1))) with (1 - u ^ 2) by ring. change (1 + sqrt (1 - u ^ 2)) with (1 + sqrt (1 - u ^ 2)).
    remember (sqrt (1 - u ^ 2)) as s eqn:Es. clear Es. change (u * / (1 + s)) with (u / (1 + s)).
    remember (ln (u / (1 + s))) as L eqn:EL. clear EL. field_simplify_eq; [|split; lra].
    replace (u ^ 3) with (u * (1 - s * s)) by (rewrite SS; ring). ring.
Qed.
Lemma psi_pos s : 0 < s < 1 -> s < (ln (1 + s) - ln (1 - s)) / 2.
Proof.
  intros H.
  destruct (MVT_gen (fun t => (ln (1 + t) - ln (1 - t)) / 2 - t) 0 s (fun t => / (1 - t ^ 2) - 1)) as [c [Hc E]].
  - intros t. rewrite Rmin_left, Rmax_right by lra. intros Ht. auto_derive; [repeat split; lra|]. field. repeat split; nra.
  - intros t. rewrite Rmin_left, Rmax_right by lra. intros Ht. apply derivable_continuous_pt, ex_derive_Reals_0. auto_derive. repeat split; lra.
  - rewrite Rmin_left, Rmax_right in Hc by lra. replace (1 - 0) with 1 in E by ring. rewrite Rplus_0_r, ln_1 in E.
    assert (C : 0 <= / (1 - c ^ 2) - 1).
    { assert (1 <= / (1 - c ^ 2)); [|lra]. rewrite <- Rinv_1 at 1. apply Rinv_le_contravar; nra. }
    destruct (Req_dec c 0) as [->|].
    + (* strictness needs an interior point: compare with the midpoint *)
      clear C. assert (Z0 : / (1 - 0 ^ 2) - 1 = 0) by field. rewrite Z0 in E.
      assert (EE : (ln (1 + s) - ln (1 - s)) / 2 - s = 0) by lra.
      destruct (MVT_gen (fun t => (ln (1 + t) - ln (1 - t)) / 2 - t) 0 (s / 2) (fun t => / (1 - t ^ 2) - 1)) as [c1 [Hc1 E1]].
      * intros t. rewrite Rmin_left, Rmax_right by lra. intros Ht. auto_derive; [repeat split; lra|]. field. repeat split; nra.
      * intros t. rewrite Rmin_left, Rmax_right by lra. intros Ht. apply derivable_continuous_pt, ex_derive_Reals_0. auto_derive. repeat split; lra.
      * destruct (MVT_gen (fun t => (ln (1 + t) - ln (1 - t)) / 2 - t) (s / 2) s (fun t => / (1 - t ^ 2) - 1)) as [c2 [Hc2 E2]].
        -- intros t. rewrite Rmin_left, Rmax_right by lra. intros Ht. auto_derive; [repeat split; lra|]. field. repeat split; nra.
        -- intros t. rewrite Rmin_left, Rmax_right by lra. intros Ht. apply derivable_continuous_pt, ex_derive_Reals_0. auto_derive. repeat split; lra.
        -- rewrite Rmin_left, Rmax_right in Hc1, Hc2 by lra. replace (1 - 0) with 1 in E1 by ring. rewrite Rplus_0_r, ln_1 in E1.
           assert (0 <= / (1 - c1 ^ 2) - 1).
           { assert (1 <= / (1 - c1 ^ 2)); [|lra]. rewrite <- Rinv_1 at 1. apply Rinv_le_contravar; nra. }
           assert (0 < / (1 - c2 ^ 2) - 1).
           { assert (1 < / (1 - c2 ^ 2)); [|lra]. rewrite <- Rinv_1 at 1. apply Rinv_lt_contravar; nra. }
           nra.
    + assert (0 < / (1 - c ^ 2) - 1).
      { assert (1 < / (1 - c ^ 2)); [|lra]. rewrite <- Rinv_1 at 1. apply Rinv_lt_contravar; nra. }
      nra.
Qed.
Lemma sk_slope u : 0 < u < 1 -> ln (u / (1 + sqrt (1 - u ^ 2))) + sqrt (1 - u ^ 2) < 0.
Proof.
  intros H. assert (P : 0 < 1 - u ^ 2) by nra. pose proof (sqrt_lt_R0 _ P) as S0.
  assert (SS : sqrt (1 - u ^ 2) * sqrt (1 - u ^ 2) = 1 - u ^ 2) by (apply sqrt_sqrt; lra).
  remember (sqrt (1 - u ^ 2)) as s eqn:Es. clear Es.
  assert (S1 : s < 1) by nra. pose proof (psi_pos s ltac:(lra)) as Q.
  rewrite ln_div by lra.
  assert (E : 2 * ln u = ln (1 + s) + ln (1 - s)).
  { rewrite <- ln_mult by lra. replace ((1 + s) * (1 - s)) with (u * u) by lra. rewrite ln_mult by lra. ring. }
  lra.
Qed.
Lemma sk_cont u : 0 < u <= 1 -> continuity_pt sk u.
Proof.
  intros H. unfold sk.
  assert (CS : continuity_pt (fun u => sqrt (1 - u ^ 2)) u).
  { apply (continuity_pt_comp (fun u => 1 - u ^ 2) sqrt); [apply derivable_continuous_pt; reg|apply sqrt_cont; nra]. }
  pose proof (sqrt_pos (1 - u ^ 2)) as S0.
  apply (continuity_pt_plus (fun u => 3 * u ^ 2 * ln (u / (1 + sqrt (1 - u ^ 2)))) (fun u => (2 * u ^ 2 + 1) * sqrt (1 - u ^ 2))).
  - apply (continuity_pt_mult (fun u => 3 * u ^ 2)); [apply derivable_continuous_pt; reg|].
    apply (continuity_pt_comp (fun u => u / (1 + sqrt (1 - u ^ 2))) ln).
    + apply (continuity_pt_div (fun u => u) (fun u => 1 + sqrt (1 - u ^ 2))); [apply derivable_continuous_pt; reg| |lra].
      apply (continuity_pt_plus (fun _ => 1) (fun u => sqrt (1 - u ^ 2))); [apply continuity_pt_const; intros ? ?; reflexivity|exact CS].
    + assert (L : 0 < u / (1 + sqrt (1 - u ^ 2))) by (apply Rdiv_lt_0_compat; lra).
      apply derivable_continuous_pt, ex_derive_Reals_0. auto_derive. exact L.
  - apply (continuity_pt_mult (fun u => 2 * u ^ 2 + 1)); [apply derivable_continuous_pt; reg|exact CS].
Qed.
Lemma sk_strict u v : 0 < u -> u < v -> v <= 1 -> sk v < sk u.
Proof.
  intros H0 H1 H2.
  assert (W : forall a b, u <= a -> a < b -> b <= v -> exists c, a <= c <= b /\ sk b - sk a = (6 * c * (ln (c / (1 + sqrt (1 - c ^ 2))) + sqrt (1 - c ^ 2))) * (b - a)).
  { intros a b Ha Hab Hb.
    destruct (MVT_gen sk a b (fun u => 6 * u * (ln (u / (1 + sqrt (1 - u ^ 2))) + sqrt (1 - u ^ 2)))) as [c [Hc E]].
    - intros t. rewrite Rmin_left, Rmax_right by lra. intros. apply sk_derive. lra.
    - intros t. rewrite Rmin_left, Rmax_right by lra. intros. apply sk_cont. lra.
    - rewrite Rmin_left, Rmax_right in Hc by lra. exists c. auto. }
  assert (N : forall c, 0 < c <= 1 -> 6 * c * (ln (c / (1 + sqrt (1 - c ^ 2))) + sqrt (1 - c ^ 2)) <= 0).
  { intros c Hc. destruct (Req_dec c 1) as [->|].
    - replace (1 - 1 ^ 2) with 0 by ring. rewrite sqrt_0. replace (1 / (1 + 0)) with 1 by field. rewrite ln_1. lra.
    - pose proof (sk_slope c ltac:(lra)). nra. }
  destruct (W u ((u + v) / 2)) as [c1 [B1 E1]]; try lra. destruct (W ((u + v) / 2) v) as [c2 [B2 E2]]; try lra.
  pose proof (N c2 ltac:(lra)) as N2. pose proof (sk_slope c1 ltac:(lra)) as N1.
  remember (6 * c2 * (ln (c2 / (1 + sqrt (1 - c2 ^ 2))) + sqrt (1 - c2 ^ 2))) as a2.
  remember (ln (c1 / (1 + sqrt (1 - c1 ^ 2))) + sqrt (1 - c1 ^ 2)) as a1.
  assert (6 * c1 * a1 < 0) by nra. assert (6 * c1 * a1 * ((u + v) / 2 - u) < 0) by nra.
  assert (a2 * (v - (u + v) / 2) <= 0) by nra. lra.
Qed.
Lemma sk_one : sk 1 = 0.
Proof. unfold sk. replace (1 - 1 ^ 2) with 0 by ring. rewrite sqrt_0. replace (1 / (1 + 0)) with 1 by field. rewrite ln_1. ring. Qed.
Lemma sk_amp : 0 < sqrt 2 / (3 * sqrt PI).
Proof. apply Rdiv_lt_0_compat; [apply sqrt_lt_R0; lra|]. pose proof (sqrt_lt_R0 _ PI_RGT_0). lra. Qed.
Lemma sparse_kernel_sk d r : sparse_kernel d r = sqrt 2 / (3 * sqrt PI) * sk (sparse_dist d r / r).
Proof. reflexivity. Qed.
Lemma sparse_dist_range d r : 0 < r -> 0 <= d -> 0 < sparse_dist d r / r <= 1.
Proof.
  intros Hr Hd. assert (K : 0 < sparse_dist d r <= r).
  { unfold sparse_dist. destruct (Req_EM_T d 0); destruct (Rlt_dec _ _); lra. }
  split; [apply Rdiv_lt_0_compat; lra|]. apply (Rmult_le_reg_r r); [lra|]. unfold Rdiv. rewrite Rmult_assoc, Rinv_l; lra.
Qed.
Lemma sk_range u : 0 < u <= 1 -> 0 <= sk u.
Proof. intros H. destruct (Req_dec u 1) as [->|]; [rewrite sk_one; lra|]. pose proof (sk_strict u 1). rewrite sk_one in *. lra. Qed.
Lemma sk_lt_1 u : 0 < u <= 1 -> sk u < 1.
Proof.
  intros H. destruct (Req_dec u 1) as [->|N]; [rewrite sk_one; lra|]. unfold sk.
  pose proof (sk_slope u ltac:(lra)) as L. assert (P : 0 < 1 - u ^ 2) by nra. pose proof (sqrt_lt_R0 _ P) as S0.
  assert (SS : sqrt (1 - u ^ 2) * sqrt (1 - u ^ 2) = 1 - u ^ 2) by (apply sqrt_sqrt; lra).
  remember (sqrt (1 - u ^ 2)) as s. remember (ln (u / (1 + s))) as l. assert (s < 1) by nra. assert (0 < u ^ 2) by nra. nra.
Qed.

(** the derivative of the Wendland profile is -22 d (1-d)^7 (16 d^2 + 7 d + 1) *)
Lemma wendland_profile_le d : 0 <= d <= 1 -> (1 - d) ^ 8 * (32 * d ^ 3 + 25 * d ^ 2 + 8 * d + 1) <= 1.
Proof.
  intros Hd. destruct (Req_dec d 0) as [->|H0]; [lra|].
  destruct (MVT_cor2 (fun t => (1 - t) ^ 8 * (32 * t ^ 3 + 25 * t ^ 2 + 8 * t + 1)) (fun t => - (22 * t * (1 - t) ^ 7 * (16 * t ^ 2 + 7 * t + 1))) 0 d) as [c [E Hc]]; [lra| |].
  - intros c Hc. apply is_derive_Reals. auto_derive; [auto|]. ring.
  - assert (0 <= (1 - c) ^ 7) by (apply pow_le; lra). assert (0 <= 16 * c ^ 2 + 7 * c + 1) by nra.
    assert (0 <= 22 * c * (1 - c) ^ 7 * (16 * c ^ 2 + 7 * c + 1)) by (repeat apply Rmult_le_pos; lra).
    assert (Z : (1 - 0) ^ 8 * (32 * 0 ^ 3 + 25 * 0 ^ 2 + 8 * 0 + 1) = 1) by ring. rewrite Z in E. nra.
Qed.
