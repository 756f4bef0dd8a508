(** Lemmas on the GPU kernels in single precision. *)
From Coq Require Import Reals ZArith Lra Lia Psatz.
From Flocq Require Import Core Relative.
From Verif Require Import Spec.Sums Model.DeepKernel Proofs.DeepKernelP Model.Rounding Proofs.RoundingP Model.Kernels Model.GpuKernel.
Local Open Scope R_scope.
Local Notation F := (generic_format radix2 (FLT_exp (-149) 24)).
#[global] Instance p24' : Prec_gt_0 24. Proof. unfold Prec_gt_0. lia. Qed.

(** the exact kernel for one column, as computed on the CPU in double precision *)
Definition exact (h0 h x1 x2 : R) : R := wendland_dense 1 (fun _ => x1) (fun _ => x2) (fun i => match i with O => h0 | S _ => h end).

Lemma single_mono x y : x <= y -> single x <= single y.
Proof. intros H. apply round_le; [apply FLT_exp_valid; exact p24'|apply valid_rnd_N|exact H]. Qed.
Lemma single_0 : single 0 = 0.
Proof. apply round_0, valid_rnd_N. Qed.
Lemma F_pow k : (-149 <= k)%Z -> F (bpow radix2 k).
Proof. intros H. apply generic_format_bpow. unfold FLT_exp. lia. Qed.
Lemma single_1 : single 1 = 1.
Proof. apply single_id. apply (F_pow 0). lia. Qed.
Lemma single_F x : F (single x).
Proof. apply generic_format_round; [apply FLT_exp_valid; exact p24'|apply valid_rnd_N]. Qed.
Lemma single_ge_1 x : 1 <= x -> 1 <= single x.
Proof. intros H. rewrite <- single_1. apply single_mono, H. Qed.
Lemma single_nonneg x : 0 <= x -> 0 <= single x.
Proof. intros H. rewrite <- single_0. apply single_mono, H. Qed.
Lemma single_opp x : single (- x) = - single x.
Proof. apply round_NE_opp. Qed.

Lemma poly32_0 h0 : F h0 -> poly32 h0 0 = h0.
Proof.
  intros H. unfold poly32. cbv zeta. replace (1 - 0) with 1 by lra. rewrite single_1, pow1, single_1, Rmult_1_r, (single_id h0 H).
  replace (0 ^ 3) with 0 by ring. replace (0 ^ 2) with 0 by ring. repeat progress rewrite ?single_0, ?Rmult_0_r, ?Rplus_0_l. rewrite single_1, Rmult_1_r. apply single_id, H.
Qed.
Lemma poly32_1 h0 : poly32 h0 1 = 0.
Proof.
  unfold poly32. cbv zeta. replace (1 - 1) with 0 by lra. rewrite single_0. replace (0 ^ 8) with 0 by ring. rewrite single_0, Rmult_0_r, single_0, Rmult_0_l.
  apply single_0.
Qed.
Lemma exact_0 h0 h x : exact h0 h x x = h0.
Proof.
  unfold exact, wendland_dense, rsum. cbn. replace ((x - x) / h) with 0 by (unfold Rdiv; ring). replace (0 + 0 * (0 * 1)) with 0 by ring. rewrite sqrt_0.
  unfold clip1. destruct (Rlt_dec 1 0) as [H|H]; [lra|]. unfold wendland_poly. ring.
Qed.
Lemma exact_far h0 h x1 x2 : 0 < h -> h <= Rabs (x1 - x2) -> exact h0 h x1 x2 = 0.
Proof.
  intros Hh H. unfold exact, wendland_dense, rsum. cbn.
  replace (0 + (x1 - x2) / h * ((x1 - x2) / h * 1)) with (Rsqr ((x1 - x2) / h)) by (unfold Rsqr; ring). rewrite sqrt_Rsqr_abs.
  assert (G : 1 <= Rabs ((x1 - x2) / h)).
  { unfold Rdiv. rewrite Rabs_mult, Rabs_inv, (Rabs_pos_eq h) by lra. apply Rmult_le_reg_r with h; [exact Hh|]. rewrite Rmult_assoc, Rinv_l by lra. lra. }
  unfold clip1. destruct (Rlt_dec 1 _) as [L|L].
  - unfold wendland_poly. ring.
  - replace (Rabs ((x1 - x2) / h)) with 1 by lra. unfold wendland_poly. ring.
Qed.

(** ** errors of the values *)
Definition e0 : R := 61 / 1000000000.
Lemma single_err x : Rabs (single x - x) <= / 16777216 * Rabs x + / 10 ^ 40.
Proof.
  destruct (error_N_FLT radix2 (-149) 24 p24' (fun z => negb (Z.even z)) x) as (e & t & He & Ht & _ & E). unfold single. 
  change (round radix2 (FLT_exp (-149) 24) (Znearest (fun z => negb (Z.even z))) x) with (round radix2 (FLT_exp (-149) 24) ZnearestE x) in E.
  rewrite E. replace (x * (1 + e) + t - x) with (x * e + t) by ring. eapply Rle_trans; [apply Rabs_triang|]. rewrite Rabs_mult.
  assert (U : u_ro radix2 24 = / 16777216) by (unfold u_ro; cbn; lra).
  apply Rplus_le_compat.
  - rewrite Rmult_comm. apply Rmult_le_compat_r; [apply Rabs_pos|]. rewrite <- U. eapply Rle_trans; [exact He|]. 
    unfold u_ro. cbn. lra.
  - eapply Rle_trans; [exact Ht|]. cbn. lra.
Qed.
Lemma tiny40 : 0 < / 10 ^ 40 <= / 10 ^ 30.
Proof. split; [apply Rinv_0_lt_compat; lra|]. apply Rinv_le_contravar; lra. Qed.
Lemma tiny30 : 0 < / 10 ^ 30 <= / 10 ^ 12.
Proof. split; [apply Rinv_0_lt_compat; lra|]. apply Rinv_le_contravar; lra. Qed.
(** for values at most B, of at least unit size *)
Lemma err_B x B : 1 <= B -> Rabs x <= B -> Rabs (single x - x) <= B * e0.
Proof.
  intros HB H. eapply Rle_trans; [apply single_err|]. pose proof tiny40. pose proof tiny30. unfold e0. assert (/ 10 ^ 12 = 1 / 1000000000000) by lra. lra.
Qed.
Lemma abs2 x y e : Rabs (x - y) <= e <-> - e <= x - y <= e.
Proof. split; [intros H; unfold Rabs in H; destruct (Rcase_abs (x - y)); lra|intros H; apply Rabs_le; exact H]. Qed.
Lemma range1 x : 0 <= x <= 1 -> 0 <= single x <= 1.
Proof. intros H. split; [apply single_nonneg; lra|]. rewrite <- single_1. apply single_mono. lra. Qed.

Lemma pow_lip n : forall x y, 0 <= x <= 1 -> 0 <= y <= 1 -> Rabs (x ^ n - y ^ n) <= INR n * Rabs (x - y).
Proof.
  induction n as [|n IH]; intros x y Hx Hy; [cbn; rewrite Rminus_diag_eq by reflexivity; rewrite Rabs_R0; lra|].
  rewrite S_INR. cbn [pow]. replace (x * x ^ n - y * y ^ n) with (x * (x ^ n - y ^ n) + (x - y) * y ^ n) by ring.
  eapply Rle_trans; [apply Rabs_triang|]. rewrite !Rabs_mult. specialize (IH x y Hx Hy).
  assert (0 <= y ^ n <= 1) by (split; [apply pow_le; lra|rewrite <- (pow1 n); apply pow_incr; lra]).
  rewrite (Rabs_pos_eq x) by lra. rewrite (Rabs_pos_eq (y ^ n)) by lra. pose proof (Rabs_pos (x ^ n - y ^ n)). pose proof (Rabs_pos (x - y)). nra.
Qed.
Lemma pow_range n x : 0 <= x <= 1 -> 0 <= x ^ n <= 1.
Proof. intros H. split; [apply pow_le; lra|rewrite <- (pow1 n); apply pow_incr; lra]. Qed.

(** a rounded power of a number of the unit interval *)
Lemma single_pow n d dh del : 0 <= d <= 1 -> 0 <= dh <= 1 -> Rabs (dh - d) <= del -> 0 <= single (dh ^ n) <= 1 /\ Rabs (single (dh ^ n) - d ^ n) <= INR n * del + e0.
Proof.
  intros Hd Hh He. pose proof (pow_range n dh Hh) as Pn. split; [apply range1, Pn|].
  replace (single (dh ^ n) - d ^ n) with ((single (dh ^ n) - dh ^ n) + (dh ^ n - d ^ n)) by ring. eapply Rle_trans; [apply Rabs_triang|].
  pose proof (pow_lip n dh d Hh Hd). pose proof (err_B (dh ^ n) 1 ltac:(lra) ltac:(rewrite Rabs_pos_eq; lra)).
  assert (INR n * Rabs (dh - d) <= INR n * del) by (apply Rmult_le_compat_l; [apply pos_INR|exact He]). lra.
Qed.

Lemma poly32_err h0 d dh del : / 10 ^ 25 <= h0 -> 0 <= d <= 1 -> 0 <= dh <= 1 -> Rabs (dh - d) <= del -> del <= / 1000 ->
  Rabs (poly32 h0 dh - wendland_poly d h0) <= h0 * (700 * del + / 10000).
Proof.
  intros H0 Hd Hh He Hdel. assert (Dp : 0 <= del) by (eapply Rle_trans; [apply Rabs_pos|exact He]).
  pose proof tiny40 as T1. pose proof tiny30 as T2. assert (P0 : 0 < h0) by (eapply Rlt_le_trans; [|exact H0]; apply Rinv_0_lt_compat; lra).
  unfold poly32, wendland_poly. cbv zeta.
  (* the factor (1 - d)^8 *)
  assert (A1 : 0 <= single (1 - dh) <= 1) by (apply range1; lra).
  assert (A1e : Rabs (single (1 - dh) - (1 - d)) <= del + e0).
  { replace (single (1 - dh) - (1 - d)) with ((single (1 - dh) - (1 - dh)) + (d - dh)) by ring. eapply Rle_trans; [apply Rabs_triang|].
    pose proof (err_B (1 - dh) 1 ltac:(lra) ltac:(rewrite Rabs_pos_eq; lra)). rewrite Rabs_minus_sym in He. lra. }
  destruct (single_pow 8 (1 - d) (single (1 - dh)) (del + e0) ltac:(lra) A1 A1e) as [A2 A2e]. set (a2 := single (single (1 - dh) ^ 8)) in *.
  replace (INR 8) with 8 in A2e by (cbn; lra).
  pose proof (pow_range 8 (1 - d) ltac:(lra)) as AA. set (A := (1 - d) ^ 8) in *.
  (* the factor with the powers of d *)
  destruct (single_pow 3 d dh del Hd Hh He) as [C3 C3e]. destruct (single_pow 2 d dh del Hd Hh He) as [C2 C2e].
  set (c3 := single (dh ^ 3)) in *. set (c2 := single (dh ^ 2)) in *. replace (INR 3) with 3 in C3e by (cbn; lra). replace (INR 2) with 2 in C2e by (cbn; lra).
  pose proof (pow_range 3 d Hd) as D3. pose proof (pow_range 2 d Hd) as D2. set (d3 := d ^ 3) in *. set (d2 := d ^ 2) in *.
  pose proof (err_B (32 * c3) 32 ltac:(lra) ltac:(rewrite Rabs_pos_eq; lra)) as R1. set (t1 := single (32 * c3)) in *.
  pose proof (err_B (25 * c2) 25 ltac:(lra) ltac:(rewrite Rabs_pos_eq; lra)) as R2. set (t2 := single (25 * c2)) in *.
  pose proof (err_B (8 * dh) 8 ltac:(lra) ltac:(rewrite Rabs_pos_eq; lra)) as R3. set (t3 := single (8 * dh)) in *.
  apply abs2 in R1. apply abs2 in R2. apply abs2 in R3. apply abs2 in C3e. apply abs2 in C2e. apply abs2 in He. apply abs2 in A2e. unfold e0 in *.
  pose proof (err_B (t1 + t2) 58 ltac:(lra) ltac:(unfold e0 in *; apply Rabs_le; lra)) as R4. set (t4 := single (t1 + t2)) in *. apply abs2 in R4. unfold e0 in *.
  pose proof (err_B (t4 + t3) 67 ltac:(lra) ltac:(apply Rabs_le; lra)) as R5. set (t5 := single (t4 + t3)) in *. apply abs2 in R5. unfold e0 in *.
  pose proof (err_B (t5 + 1) 68 ltac:(lra) ltac:(apply Rabs_le; lra)) as R6. set (b := single (t5 + 1)) in *. apply abs2 in R6. unfold e0 in *.
  set (B := 32 * d3 + 25 * d2 + 8 * d + 1) in *.
  assert (Be : Rabs (b - B) <= 154 * del + / 50000) by (apply abs2; unfold B; lra).
  assert (BB : 1 <= B <= 66) by (unfold B; lra).
  (* h0 * a2 *)
  pose proof (single_err (h0 * a2)) as R7. set (a3 := single (h0 * a2)) in *. rewrite Rabs_mult, (Rabs_pos_eq h0), (Rabs_pos_eq a2) in R7 by lra.
  assert (T0 : / 10 ^ 40 <= h0 * / 10 ^ 12).
  { apply Rle_trans with (/ 10 ^ 25 * / 10 ^ 12); [rewrite <- Rinv_mult by lra; apply Rinv_le_contravar; lra|]. apply Rmult_le_compat_r; [left; apply Rinv_0_lt_compat; lra|exact H0]. }
  assert (T12 : / 10 ^ 12 = 1 / 1000000000000) by lra.
  assert (A3e : Rabs (a3 - h0 * A) <= h0 * (8 * del + 7 / 10000000)).
  { replace (a3 - h0 * A) with ((a3 - h0 * a2) + h0 * (a2 - A)) by ring. eapply Rle_trans; [apply Rabs_triang|]. rewrite Rabs_mult, (Rabs_pos_eq h0) by lra.
    assert (Rabs (a2 - A) <= 8 * (del + 61 / 1000000000) + 61 / 1000000000) by (apply abs2; exact A2e).
    assert (h0 * Rabs (a2 - A) <= h0 * (8 * (del + 61 / 1000000000) + 61 / 1000000000)) by (apply Rmult_le_compat_l; lra).
    assert (/ 16777216 * (h0 * a2) <= / 16777216 * h0) by (apply Rmult_le_compat_l; [lra|nra]). rewrite T12 in T0. lra. }
  (* the product *)
  assert (Q : Rabs (a3 * b - h0 * A * B) <= h0 * ((8 * del + 7 / 10000000) * 67 + (154 * del + / 50000))).
  { replace (a3 * b - h0 * A * B) with ((a3 - h0 * A) * b + h0 * A * (b - B)) by ring. eapply Rle_trans; [apply Rabs_triang|]. rewrite !Rabs_mult.
    rewrite (Rabs_pos_eq h0), (Rabs_pos_eq A) by lra.
    assert (Rabs b <= 67) by (apply abs2 in Be; apply Rabs_le; lra).
    assert (Rabs (a3 - h0 * A) * Rabs b <= h0 * (8 * del + 7 / 10000000) * 67) by (apply Rmult_le_compat; auto using Rabs_pos).
    assert (h0 * A * Rabs (b - B) <= h0 * (154 * del + / 50000)).
    { apply Rle_trans with (h0 * 1 * Rabs (b - B)); [apply Rmult_le_compat_r; [apply Rabs_pos|apply Rmult_le_compat_l; lra]|]. rewrite Rmult_1_r. apply Rmult_le_compat_l; lra. }
    lra. }
  pose proof (single_err (a3 * b)) as R8.
  assert (M : Rabs (a3 * b) <= h0 * 68).
  { apply Rle_trans with (Rabs (a3 * b - h0 * A * B) + Rabs (h0 * A * B)); [replace (a3 * b) with ((a3 * b - h0 * A * B) + h0 * A * B) at 1 by ring; apply Rabs_triang|].
    assert (0 <= h0 * A * B <= h0 * 66) by (split; [apply Rmult_le_pos; [apply Rmult_le_pos|]; lra|apply Rle_trans with (h0 * 1 * 66); [apply Rmult_le_compat; try lra; [apply Rmult_le_pos; lra|apply Rmult_le_compat_l; lra]|lra]]).
    rewrite (Rabs_pos_eq (h0 * A * B)) by lra. nra. }
  replace (single (a3 * b) - h0 * A * B) with ((single (a3 * b) - a3 * b) + (a3 * b - h0 * A * B)) by ring. eapply Rle_trans; [apply Rabs_triang|].
  rewrite T12 in T0. clearbody a3 b A B. nra.
Qed.
(** ** errors of the distances *)
Lemma clip1_min d : clip1 d = Rmin d 1.
Proof. unfold clip1, Rmin. destruct (Rlt_dec 1 d), (Rle_dec d 1); lra. Qed.
Lemma exact_eq h0 h x1 x2 : exact h0 h x1 x2 = wendland_poly (Rmin (Rabs ((x1 - x2) / h)) 1) h0.
Proof.
  unfold exact, wendland_dense, rsum. cbn. replace (0 + (x1 - x2) / h * ((x1 - x2) / h * 1)) with (Rsqr ((x1 - x2) / h)) by (unfold Rsqr; ring).
  rewrite sqrt_Rsqr_abs, clip1_min. reflexivity.
Qed.
Lemma sqrt_err s : Rabs s <= 3 -> Rabs (sqrt (single (s ^ 2)) - Rabs s) <= 19 / 100000000.
Proof.
  intros H. set (a := Rabs s) in *. assert (Ha : 0 <= a) by apply Rabs_pos. replace (s ^ 2) with (a ^ 2) by (unfold a; apply pow2_abs).
  pose proof (single_err (a ^ 2)) as E. rewrite (Rabs_pos_eq (a ^ 2)) in E by nra. assert (P : 0 <= single (a ^ 2)) by (apply single_nonneg; nra).
  set (A := single (a ^ 2)) in *. pose proof tiny40 as T1. pose proof tiny30 as T2. apply abs2 in E.
  pose proof (sqrt_pos A) as Sp. pose proof (sqrt_sqrt A P) as SS. set (q := sqrt A) in *.
  destruct (Rle_dec (/ 10 ^ 10) a) as [L|L].
  - assert (0 < a) by (assert (0 < / 10 ^ 10) by (apply Rinv_0_lt_compat; lra); lra).
    assert (T : / 10 ^ 40 <= / 10 ^ 30 * a).
    { apply Rle_trans with (/ 10 ^ 30 * / 10 ^ 10); [rewrite <- Rinv_mult by lra; apply Rinv_le_contravar; lra|]. apply Rmult_le_compat_l; lra. }
    assert (Q : Rabs (q - a) * a <= / 16777216 * a ^ 2 + / 10 ^ 30 * a).
    { apply Rle_trans with (Rabs (q - a) * (q + a)); [apply Rmult_le_compat_l; [apply Rabs_pos|lra]|].
      rewrite <- (Rabs_pos_eq (q + a)) by lra. rewrite <- Rabs_mult. replace ((q - a) * (q + a)) with (A - a ^ 2) by (rewrite <- SS; ring). apply abs2. lra. }
    assert (Q' : Rabs (q - a) <= / 16777216 * a + / 10 ^ 30) by (apply Rmult_le_reg_r with a; [assumption|nra]).
    assert (/ 10 ^ 12 = 1 / 1000000000000) by lra. lra.
  - assert (K : / 10 ^ 10 = 1 / 10000000000) by lra. rewrite K in L. assert (K2 : / 10 ^ 40 <= 1 / 10000000000 * (1 / 10000000000)).
    { replace (1 / 10000000000 * (1 / 10000000000)) with (/ 10 ^ 20) by lra. apply Rinv_le_contravar; lra. }
    assert (a ^ 2 <= 1 / 10000000000 * (1 / 10000000000)) by nra. assert (q * q <= 4 * (1 / 10000000000 * (1 / 10000000000))) by lra.
    assert (q <= 2 / 10000000000) by nra. apply abs2. lra.
Qed.
Lemma rmin_lip a b e : Rabs (a - b) <= e -> Rabs (Rmin a 1 - Rmin b 1) <= e.
Proof. intros H. apply abs2 in H. apply abs2. unfold Rmin. destruct (Rle_dec a 1), (Rle_dec b 1); lra. Qed.
Lemma abs_lip a b e : Rabs (a - b) <= e -> Rabs (Rabs a - Rabs b) <= e.
Proof. intros H. eapply Rle_trans; [apply Rabs_triang_inv2|exact H]. Qed.

Lemma dense_dist h x1 x2 : / 10 ^ 25 <= h -> F x1 -> F x2 -> F h -> Rabs ((x1 - x2) / h) <= 2 -> Rabs (dist32 x1 x2 h - Rabs ((x1 - x2) / h)) <= 1 / 1000000.
Proof.
  intros Hh _ _ _ Hr. assert (Ph : 0 < h) by (eapply Rlt_le_trans; [|exact Hh]; apply Rinv_0_lt_compat; lra). set (r := (x1 - x2) / h) in *.
  assert (Er : x1 - x2 = r * h) by (unfold r; field; lra). unfold dist32. rewrite Rplus_0_l.
  pose proof (single_err (x1 - x2)) as E1. rewrite Er, Rabs_mult, (Rabs_pos_eq h) in E1 by lra. rewrite Er. set (p := single (r * h)) in *.
  pose proof tiny40 as T1. pose proof tiny30 as T2. assert (T12 : / 10 ^ 12 = 1 / 1000000000000) by lra.
  assert (T0 : / 10 ^ 40 <= h * / 10 ^ 12).
  { apply Rle_trans with (/ 10 ^ 25 * / 10 ^ 12); [rewrite <- Rinv_mult by lra; apply Rinv_le_contravar; lra|]. apply Rmult_le_compat_r; [left; apply Rinv_0_lt_compat; lra|exact Hh]. }
  rewrite T12 in T0.
  assert (E2 : Rabs (p / h - r) <= 13 / 100000000).
  { apply Rmult_le_reg_r with h; [exact Ph|]. replace (Rabs (p / h - r) * h) with (Rabs (p - r * h)).
    - nra.
    - replace (p - r * h) with ((p / h - r) * h) by (field; lra). rewrite Rabs_mult, (Rabs_pos_eq h) by lra. reflexivity. }
  assert (E3 : Rabs (single (p / h) - r) <= 32 / 100000000).
  { replace (single (p / h) - r) with ((single (p / h) - p / h) + (p / h - r)) by ring. eapply Rle_trans; [apply Rabs_triang|].
    assert (Rabs (p / h) <= 3) by (replace (p / h) with ((p / h - r) + r) by ring; eapply Rle_trans; [apply Rabs_triang|lra]).
    pose proof (err_B (p / h) 3 ltac:(lra) H). unfold e0 in *. lra. }
  set (s := single (p / h)) in *. assert (Hs : Rabs s <= 3) by (replace s with ((s - r) + r) by ring; eapply Rle_trans; [apply Rabs_triang|lra]).
  pose proof (sqrt_err s Hs) as E4. pose proof (abs_lip _ _ _ E3) as E5.
  assert (SQ : single (single (s ^ 2)) = single (s ^ 2)) by (apply single_id, single_F). rewrite SQ.
  assert (E6 : Rabs (sqrt (single (s ^ 2))) <= 4) by (apply abs2 in E4; rewrite Rabs_pos_eq by apply sqrt_pos; lra).
  pose proof (err_B _ 4 ltac:(lra) E6) as E7. unfold e0 in E7. apply abs2 in E4. apply abs2 in E5. apply abs2 in E7. apply abs2. lra.
Qed.

Lemma whiten_err h x1 x2 : 0 < h -> Rabs x1 <= 1000000 * h -> Rabs x2 <= 1000000 * h ->
  Rabs (fl (fl (x2 / h) - fl (x1 / h)) - (x2 - x1) / h) <= 1 / 1000000000.
Proof.
  intros Ph H1 H2.
  assert (Q : forall x, Rabs x <= 1000000 * h -> Rabs (x / h) <= 1000000).
  { intros x H. unfold Rdiv. rewrite Rabs_mult, Rabs_inv, (Rabs_pos_eq h) by lra. apply Rmult_le_reg_r with h; [exact Ph|]. rewrite Rmult_assoc, Rinv_l by lra. lra. }
  pose proof (Q x1 H1) as Q1. pose proof (Q x2 H2) as Q2. pose proof (fl_err (x1 / h)) as E1. pose proof (fl_err (x2 / h)) as E2.
  set (z1 := fl (x1 / h)) in *. set (z2 := fl (x2 / h)) in *. pose proof (fl_err (z2 - z1)) as E3.
  assert (U : u53 <= 12 / 10 ^ 17) by (unfold u53; cbn; lra). assert (U0 : 0 <= u53) by (unfold u53; cbn; lra).
  pose proof small_1075 as T. pose proof tiny40 as T1. pose proof tiny30 as T2. assert (T12 : / 10 ^ 12 = 1 / 1000000000000) by lra.
  assert (B1 : Rabs (z1 - x1 / h) <= 3 / 10000000000) by (pose proof (Rabs_pos (x1 / h)); nra).
  assert (B2 : Rabs (z2 - x2 / h) <= 3 / 10000000000) by (pose proof (Rabs_pos (x2 / h)); nra).
  assert (B3 : Rabs (z2 - z1) <= 2000001).
  { apply abs2 in B1. apply abs2 in B2. assert (- 1000000 <= x1 / h <= 1000000) by (apply Rabs_le_inv; exact Q1).
    assert (- 1000000 <= x2 / h <= 1000000) by (apply Rabs_le_inv; exact Q2). apply Rabs_le. lra. }
  assert (B4 : Rabs (fl (z2 - z1) - (z2 - z1)) <= 3 / 10000000000) by (pose proof (Rabs_pos (z2 - z1)); nra).
  apply abs2 in B1. apply abs2 in B2. apply abs2 in B4. apply abs2. replace ((x2 - x1) / h) with (x2 / h - x1 / h) by (unfold Rdiv; ring). lra.
Qed.

(** ** the kernels *)
Lemma dense_err h0 h x1 x2 : / 10 ^ 25 <= h0 -> / 10 ^ 25 <= h -> F x1 -> F x2 -> F h0 -> F h -> Rabs (gpu_dense h0 h x1 x2 - exact h0 h x1 x2) <= h0 * / 1000.
Proof.
  intros H0 Hh F1 F2 F0 Fh. assert (Ph : 0 < h) by (eapply Rlt_le_trans; [|exact Hh]; apply Rinv_0_lt_compat; lra).
  assert (P0 : 0 < h0) by (eapply Rlt_le_trans; [|exact H0]; apply Rinv_0_lt_compat; lra).
  unfold gpu_dense. rewrite (single_id x1 F1), (single_id x2 F2), (single_id h0 F0), (single_id h Fh), exact_eq.
  destruct (Rle_dec (Rabs ((x1 - x2) / h)) 2) as [L|L].
  - pose proof (dense_dist h x1 x2 Hh F1 F2 Fh L) as E. apply rmin_lip in E.
    eapply Rle_trans; [apply (poly32_err h0 _ _ (1 / 1000000)); auto|].
    + split; [apply Rmin_glb; [apply Rabs_pos|lra]|apply Rmin_r].
    + split; [apply Rmin_glb; [apply single_nonneg, sqrt_pos|lra]|apply Rmin_r].
    + lra.
    + nra.
  - rewrite (Rmin_right (Rabs _)) by lra.
    assert (D : 1 <= dist32 x1 x2 h).
    { assert (Q : forall u, h <= u -> 1 <= single (single u / h)).
      { intros u Hu. apply single_ge_1. apply Rmult_le_reg_r with h; [exact Ph|]. unfold Rdiv. rewrite Rmult_assoc, Rinv_l by lra.
        rewrite Rmult_1_l, Rmult_1_r. rewrite <- (single_id h Fh) at 1. apply single_mono, Hu. }
      assert (D : h <= Rabs (x1 - x2)).
      { replace (x1 - x2) with ((x1 - x2) / h * h) by (field; lra). rewrite Rabs_mult, (Rabs_pos_eq h) by lra. nra. }
      unfold dist32. apply single_ge_1. rewrite <- sqrt_1. apply sqrt_le_1_alt. apply single_ge_1. rewrite Rplus_0_l. apply single_ge_1.
      destruct (Rle_dec 0 (x1 - x2)) as [S|S].
      - rewrite Rabs_pos_eq in D by exact S. specialize (Q _ D). nra.
      - rewrite Rabs_left in D by lra. specialize (Q _ D).
        replace (single (single (x1 - x2) / h)) with (- single (single (- (x1 - x2)) / h)); [nra|].
        rewrite single_opp. unfold Rdiv. rewrite Ropp_mult_distr_l_reverse, single_opp. lra. }
    rewrite Rmin_right by exact D. rewrite poly32_1. unfold wendland_poly. replace (1 - 1) with 0 by lra. rewrite pow_ne_zero by discriminate.
    rewrite Rmult_0_r, Rmult_0_l, Rminus_0_r, Rabs_R0. nra.
Qed.

Lemma sparse_err h0 h x1 x2 : / 10 ^ 25 <= h0 -> 0 < h -> Rabs x1 <= 1000000 * h -> Rabs x2 <= 1000000 * h -> Rabs (gpu_sparse h0 h x1 x2 - exact h0 h x1 x2) <= h0 * / 1000.
Proof.
  intros H0 Ph H1 H2. assert (P0 : 0 < h0) by (eapply Rlt_le_trans; [|exact H0]; apply Rinv_0_lt_compat; lra).
  pose proof (whiten_err h x1 x2 Ph H1 H2) as E. unfold gpu_sparse. cbv zeta. set (diff := fl (fl (x2 / h) - fl (x1 / h))) in *. rewrite exact_eq.
  replace (Rabs ((x1 - x2) / h)) with (Rabs ((x2 - x1) / h)) by (rewrite <- Rabs_Ropp; f_equal; unfold Rdiv; ring). set (r := (x2 - x1) / h) in *.
  apply abs_lip in E. assert (Rr : 0 <= Rmin (Rabs r) 1 <= 1) by (split; [apply Rmin_glb; [apply Rabs_pos|lra]|apply Rmin_r]).
  destruct (Rle_dec (Rabs diff) 1) as [L|L].
  - assert (S1 : Rabs (single diff) <= 1).
    { apply Rabs_le. assert (-1 <= diff <= 1) by (apply Rabs_le_inv; exact L). split.
      - apply Rle_trans with (single (- (1))); [rewrite single_opp, single_1; lra|]. apply single_mono. lra.
      - rewrite <- single_1. apply single_mono. lra. }
    pose proof (err_B diff 1 ltac:(lra) L) as E2. apply abs_lip in E2. set (s := single diff) in *. replace (s * s) with (s ^ 2) by ring.
    assert (S2 : 0 <= single (s ^ 2) <= 1) by (apply range1; rewrite <- pow2_abs; pose proof (Rabs_pos s); nra).
    destruct (Rle_dec (single (s ^ 2)) 1) as [_|N]; [|lra]. rewrite (Rmin_left (single _)) by lra.
    pose proof (sqrt_err s ltac:(lra)) as E3.
    assert (S3 : 0 <= sqrt (single (s ^ 2)) <= 1) by (split; [apply sqrt_pos|rewrite <- sqrt_1; apply sqrt_le_1_alt; lra]).
    pose proof (err_B _ 1 ltac:(lra) ltac:(rewrite (Rabs_pos_eq (sqrt (single (s ^ 2)))) by lra; apply S3)) as E4.
    eapply Rle_trans; [apply (poly32_err h0 (Rmin (Rabs r) 1) _ (1 / 1000000)); auto using range1|nra].
    + replace (single (sqrt (single (s ^ 2)))) with (Rmin (single (sqrt (single (s ^ 2)))) 1) by (apply Rmin_left, range1, S3). apply rmin_lip.
      unfold e0 in *. apply abs2 in E. apply abs2 in E2. apply abs2 in E3. apply abs2 in E4. apply abs2. lra.
    + lra.
  - assert (E1 : Rabs (1 - Rmin (Rabs r) 1) <= 1 / 1000000).
    { replace 1 with (Rmin (Rabs diff) 1) at 1 by (apply Rmin_right; lra). apply rmin_lip. lra. }
    pose proof (poly32_err h0 (Rmin (Rabs r) 1) 1 (1 / 1000000) H0 Rr ltac:(lra) E1 ltac:(lra)) as Q. rewrite poly32_1 in Q. nra.
Qed.
