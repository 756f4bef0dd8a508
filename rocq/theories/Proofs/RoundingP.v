(** Lemmas on rounding to doubles. *)
From Coq Require Import Reals ZArith Lra Lia Psatz.
From Flocq Require Import Core Relative.
From Verif Require Import Spec.Sums Model.Rounding Spec.RoundingSpec.
Local Open Scope R_scope.
Local Notation fexp := (FLT_exp (-1074) 53).
Local Notation F := (generic_format radix2 fexp).
#[global] Instance p53 : Prec_gt_0 53. Proof. unfold Prec_gt_0. lia. Qed.

Lemma bpow_2 e : bpow radix2 e = powerRZ 2 e.
Proof. apply (bpow_powerRZ radix2). Qed.
Lemma double_F x : double x <-> F x.
Proof.
  split.
  - intros [m [e [E [M L]]]]. apply generic_format_FLT. apply (FLT_spec radix2 (-1074) 53 x (Float radix2 m e)); [|exact M|exact L].
    unfold F2R. cbn [Fnum Fexp]. rewrite bpow_powerRZ. exact E.
  - intros H. apply FLT_format_generic in H; [|exact p53]. destruct H as [[m e] E M L]. exists m, e. cbn [Fnum Fexp] in *.
    unfold F2R in E. cbn [Fnum Fexp] in E. rewrite bpow_powerRZ in E. split; [exact E|]. split; [exact M|exact L].
Qed.
Lemma fl_F x : F (fl x).
Proof. apply generic_format_round; [apply FLT_exp_valid; exact p53|apply valid_rnd_N]. Qed.
Lemma fl_id x : F x -> fl x = x.
Proof. intros H. apply round_generic; [apply valid_rnd_N|exact H]. Qed.
Lemma fl_mono x y : x <= y -> fl x <= fl y.
Proof. intros H. apply round_le; [apply FLT_exp_valid; exact p53|apply valid_rnd_N|exact H]. Qed.
Lemma fl_0 : fl 0 = 0.
Proof. apply round_0, valid_rnd_N. Qed.
Lemma fl_opp x : fl (- x) = - fl x.
Proof. apply round_NE_opp. Qed.
Lemma F_opp x : F x -> F (- x).
Proof. apply generic_format_opp. Qed.
Lemma fl_nonneg x : 0 <= x -> 0 <= fl x.
Proof. intros H. rewrite <- fl_0. apply fl_mono, H. Qed.

Lemma ulp_pow k : (-1000 <= k)%Z -> ulp radix2 fexp (bpow radix2 k) = bpow radix2 (k - 52).
Proof. intros H. rewrite ulp_bpow. f_equal. unfold FLT_exp. lia. Qed.
Lemma ulp_ge k a : (-1000 <= k)%Z -> bpow radix2 k <= a -> bpow radix2 (k - 52) <= ulp radix2 fexp a.
Proof. intros K H. rewrite <- ulp_pow by exact K. apply ulp_le_pos; [apply FLT_exp_valid; exact p53|apply FLT_exp_monotone|apply bpow_ge_0|exact H]. Qed.
Lemma bpow_half k : bpow radix2 (k - 1) = bpow radix2 k / 2.
Proof. replace (k - 1)%Z with (k + -1)%Z by lia. rewrite bpow_plus. change (bpow radix2 (-1)) with (/ 2). unfold Rdiv. reflexivity. Qed.
(** ** too small a change is lost *)
Lemma lost_up k a d : (-900 <= k)%Z -> F a -> bpow radix2 k <= a -> 0 <= d < bpow radix2 (k - 53) -> fl (a + d) = a.
Proof.
  intros K Ha Hk Hd. assert (P : 0 < a) by (eapply Rlt_le_trans; [apply bpow_gt_0|exact Hk]).
  apply Rle_antisym.
  - apply round_N_le_midp; [apply FLT_exp_valid; exact p53|exact Ha|].
    rewrite succ_eq_pos by lra. pose proof (ulp_ge k a ltac:(lia) Hk) as U.
    replace (k - 53)%Z with (k - 52 - 1)%Z in Hd by lia. rewrite bpow_half in Hd. lra.
  - rewrite <- (fl_id a Ha) at 1. apply fl_mono. lra.
Qed.
Lemma lost_down k a d : (-900 <= k)%Z -> F a -> bpow radix2 k < a -> 0 <= d < bpow radix2 (k - 53) -> fl (a - d) = a.
Proof.
  intros K Ha Hk Hd. assert (P : 0 < a) by (eapply Rlt_trans; [apply bpow_gt_0|exact Hk]).
  assert (V : Valid_exp fexp) by (apply FLT_exp_valid; exact p53).
  apply Rle_antisym.
  - rewrite <- (fl_id a Ha) at 2. apply fl_mono. lra.
  - apply round_N_ge_midp; [exact V|exact Ha|].
    assert (Q : bpow radix2 k <= pred radix2 fexp a).
    { apply pred_ge_gt; [exact V| |exact Ha|exact Hk]. apply generic_format_bpow. unfold FLT_exp. lia. }
    pose proof (ulp_ge k _ ltac:(lia) Q) as U. pose proof (bpow_gt_0 radix2 k).
    assert (E : pred radix2 fexp a + ulp radix2 fexp (pred radix2 fexp a) = a).
    { rewrite <- succ_eq_pos by lra. apply succ_pred; assumption. }
    replace (k - 53)%Z with (k - 52 - 1)%Z in Hd by lia. rewrite bpow_half in Hd. lra.
Qed.
(** ** a large enough change is not *)
Lemma moves k a d : (-900 <= k)%Z -> F a -> 0 <= a < bpow radix2 k -> bpow radix2 (k - 54) < d -> a < fl (a + d).
Proof.
  intros K Ha Hk Hd. assert (V : Valid_exp fexp) by (apply FLT_exp_valid; exact p53).
  assert (U : ulp radix2 fexp a <= bpow radix2 (k - 53)).
  { destruct (Req_dec a 0) as [->|N].
    - rewrite ulp_FLT_0 by exact p53. apply bpow_le. lia.
    - unfold ulp. rewrite Req_bool_false by exact N. unfold cexp. apply bpow_le.
      assert (M : (mag radix2 a <= k)%Z) by (apply mag_le_bpow; [exact N|rewrite Rabs_pos_eq by lra; lra]).
      unfold FLT_exp. lia. }
  assert (S1 : a < succ radix2 fexp a).
  { destruct (Req_dec a 0) as [->|N]; [|apply succ_gt_id; exact N].
    rewrite succ_0, ulp_FLT_0 by exact p53. apply bpow_gt_0. }
  apply Rlt_le_trans with (1 := S1). apply round_N_ge_midp; [exact V|apply generic_format_succ; assumption|].
  rewrite pred_succ by assumption. rewrite succ_eq_pos by lra.
  replace (k - 54)%Z with (k - 53 - 1)%Z in Hd by lia. rewrite bpow_half in Hd. lra.
Qed.
Lemma double_zero : F 0. Proof. apply generic_format_0. Qed.
(** ** relative errors *)
Definition u53 : R := / 9007199254740992.
Lemma fl_rel x : bpow radix2 (-1022) <= Rabs x -> Rabs (fl x - x) <= u53 * Rabs x.
Proof.
  intros H. unfold u53. eapply Rle_trans; [apply relative_error_N_FLT; [exact p53|exact H]|].
  apply Rmult_le_compat_r; [apply Rabs_pos|]. cbn. lra.
Qed.
Lemma fl_rel_ex x : bpow radix2 (-1022) <= Rabs x -> exists d, Rabs d <= u53 /\ fl x = x * (1 + d).
Proof.
  intros H. destruct (relative_error_N_FLT_ex radix2 (-1074) 53 p53 (fun x => negb (Z.even x)) x H) as [d [A B]].
  exists d. split; [|exact B]. eapply Rle_trans; [exact A|]. unfold u53. cbn. lra.
Qed.
Lemma fl_err x : Rabs (fl x - x) <= u53 * Rabs x + bpow radix2 (-1075).
Proof.
  destruct (error_N_FLT radix2 (-1074) 53 p53 (fun x => negb (Z.even x)) x) as [d [t [A [B [_ E]]]]].
  change (round radix2 fexp (Znearest (fun x => negb (Z.even x))) x) with (fl x) in E. rewrite E.
  replace (x * (1 + d) + t - x) with (d * x + t) by ring. eapply Rle_trans; [apply Rabs_triang|]. rewrite Rabs_mult.
  apply Rplus_le_compat.
  - apply Rmult_le_compat_r; [apply Rabs_pos|]. eapply Rle_trans; [exact A|]. unfold u53. cbn. lra.
  - eapply Rle_trans; [exact B|]. change (-1075)%Z with (-1074 - 1)%Z. rewrite bpow_half. right. lra.
Qed.
(** a number that is tiny next to every literal *)
Lemma tiny_le k : (-1075 <= k)%Z -> bpow radix2 (-1075) <= bpow radix2 k.
Proof. intros H. apply bpow_le. exact H. Qed.
Lemma bpow_m60 : bpow radix2 (-60) = / 1152921504606846976.
Proof. reflexivity. Qed.
Lemma small_1075 : 0 < bpow radix2 (-1075) <= / 10 ^ 40.
Proof.
  split; [apply bpow_gt_0|]. eapply Rle_trans; [apply (tiny_le (-140)); lia|]. change (bpow radix2 (-140)) with (/ IZR (2 ^ 140)).
  apply Rinv_le_contravar; [apply pow_lt; lra|]. rewrite pow_IZR. apply IZR_le. vm_compute. discriminate.
Qed.
Lemma small_1022 : bpow radix2 (-1022) <= bpow radix2 (-960).
Proof. apply bpow_le. lia. Qed.
Lemma lit_bound k : (k <= 12)%nat -> Rabs (lit k - / 10 ^ k) <= u53 * / 10 ^ k.
Proof.
  intros H. assert (P : 0 < / 10 ^ k) by (apply Rinv_0_lt_compat, pow_lt; lra).
  rewrite <- (Rabs_pos_eq (/ 10 ^ k)) at 2 by lra. apply fl_rel. rewrite Rabs_pos_eq by lra.
  eapply Rle_trans; [apply (bpow_le radix2 _ (-60)); lia|]. rewrite bpow_m60. apply Rinv_le_contravar; [apply pow_lt; lra|].
  eapply Rle_trans; [apply (Rle_pow 10 k 12); [lra|exact H]|]. simpl. lra.
Qed.
Lemma lit_F k : F (lit k). Proof. apply fl_F. Qed.

(** ** differences *)
Lemma still_up k x e : (-900 <= k)%Z -> F x -> bpow radix2 k < Rabs x -> 0 <= e < bpow radix2 (k - 53) -> fl (x + e) = x /\ fl (x - e) = x.
Proof.
  intros K Fx H He. destruct (Rcase_abs x) as [N|N].
  - rewrite Rabs_left in H by exact N. pose proof (F_opp x Fx) as Fo. split.
    + replace (x + e) with (- (- x - e)) by ring. rewrite fl_opp, (lost_down k) by assumption. ring.
    + replace (x - e) with (- (- x + e)) by ring. rewrite fl_opp, (lost_up k) by (try assumption; lra). ring.
  - rewrite Rabs_pos_eq in H by lra. split; [apply (lost_up k)|apply (lost_down k)]; try assumption; lra.
Qed.
Lemma forward_zero k e f x : (-900 <= k)%Z -> F x -> bpow radix2 k < Rabs x -> 0 <= e < bpow radix2 (k - 53) -> forward e f x = 0.
Proof.
  intros K Fx H He. destruct (still_up k x e K Fx H He) as [A _]. unfold forward. rewrite A, Rminus_diag_eq by reflexivity.
  rewrite fl_0. unfold Rdiv. rewrite Rmult_0_l. apply fl_0.
Qed.
Lemma central_zero k e w f x : (-900 <= k)%Z -> F x -> bpow radix2 k < Rabs x -> 0 <= e < bpow radix2 (k - 53) -> central e w f x = 0.
Proof.
  intros K Fx H He. destruct (still_up k x e K Fx H He) as [A B]. unfold central. rewrite A, B, Rminus_diag_eq by reflexivity.
  rewrite fl_0. unfold Rdiv. rewrite Rmult_0_l. apply fl_0.
Qed.
Lemma quotient b s w : bpow radix2 (-60) <= w -> bpow radix2 (-860) <= Rabs b -> Rabs (s - w) <= 9 / 10000 * w ->
  Rabs (fl (fl (b * s) / w) - b) <= Rabs b / 1000.
Proof.
  intros Hw Hb Hs. assert (W : 0 < w) by (eapply Rlt_le_trans; [apply bpow_gt_0|exact Hw]).
  apply Rabs_le_inv in Hs. set (q := s / w). assert (Eq : s = q * w) by (unfold q; field; lra).
  assert (Q : 9991 / 10000 <= q <= 10009 / 10000) by (rewrite Eq in Hs; nra).
  assert (B0 : 0 <= Rabs b) by apply Rabs_pos.
  assert (X : bpow radix2 (-920) <= Rabs b * w).
  { change (-920)%Z with (-860 + -60)%Z. rewrite bpow_plus. apply Rmult_le_compat; try assumption; apply bpow_ge_0. }
  assert (Y1 : bpow radix2 (-1022) <= Rabs (b * s)).
  { rewrite Eq, !Rabs_mult, (Rabs_pos_eq q), (Rabs_pos_eq w) by lra. eapply Rle_trans; [apply (bpow_le radix2 _ (-921)); lia|].
    change (-921)%Z with (-920 - 1)%Z. rewrite bpow_half. nra. }
  destruct (fl_rel_ex _ Y1) as [d1 [D1 E1]]. rewrite E1.
  assert (Z1 : b * s * (1 + d1) / w = b * (q * (1 + d1))) by (rewrite Eq; field; lra). rewrite Z1.
  unfold u53 in D1. apply Rabs_le_inv in D1.
  assert (Y2 : bpow radix2 (-1022) <= Rabs (b * (q * (1 + d1)))).
  { rewrite Rabs_mult. rewrite (Rabs_pos_eq (q * (1 + d1))) by nra. eapply Rle_trans; [apply (bpow_le radix2 _ (-861)); lia|].
    change (-861)%Z with (-860 - 1)%Z. rewrite bpow_half. assert (1 / 2 <= q * (1 + d1)) by nra. nra. }
  destruct (fl_rel_ex _ Y2) as [d2 [D2 E2]]. rewrite E2. unfold u53 in D2. apply Rabs_le_inv in D2.
  replace (b * (q * (1 + d1)) * (1 + d2) - b) with (b * (q * (1 + d1) * (1 + d2) - 1)) by ring. rewrite Rabs_mult.
  unfold Rdiv. apply Rmult_le_compat_l; [exact B0|].
  assert (T : 99905 / 100000 <= q * (1 + d1) <= 100095 / 100000) by nra. set (t := q * (1 + d1)) in *.
  apply Rabs_le. nra.
Qed.
(** the step really taken *)
Lemma step_error x e B : Rabs x <= B -> 0 <= e <= 1 -> Rabs (fl (x + e) - (x + e)) <= u53 * (B + 1) + / 10 ^ 40 /\ Rabs (fl (x - e) - (x - e)) <= u53 * (B + 1) + / 10 ^ 40.
Proof.
  intros H He. pose proof small_1075 as T. assert (U : 0 < u53) by (unfold u53; lra).
  assert (A : Rabs (x + e) <= B + 1) by (eapply Rle_trans; [apply Rabs_triang|]; rewrite (Rabs_pos_eq e) by lra; lra).
  assert (C : Rabs (x - e) <= B + 1) by (eapply Rle_trans; [apply Rabs_triang|]; rewrite Rabs_Ropp, (Rabs_pos_eq e) by lra; lra).
  split; (eapply Rle_trans; [apply fl_err|]); nra.
Qed.
Lemma affine_forward e B a b x : bpow radix2 (-60) <= e <= 1 -> Rabs x <= B -> u53 * (B + 1) + / 10 ^ 40 <= 9 / 10000 * e ->
  bpow radix2 (-860) <= Rabs b -> Rabs (forward e (fun t => a + b * t) x - b) <= Rabs b / 1000.
Proof.
  intros He Hx HB Hb. unfold forward. replace (a + b * fl (x + e) - (a + b * x)) with (b * (fl (x + e) - x)) by ring.
  pose proof (bpow_gt_0 radix2 (-60)). apply quotient; [lra|exact Hb|].
  destruct (step_error x e B Hx ltac:(lra)) as [A _]. replace (fl (x + e) - x - e) with (fl (x + e) - (x + e)) by ring. lra.
Qed.
Lemma affine_central e w B a b x : bpow radix2 (-60) <= e <= 1 -> bpow radix2 (-60) <= w -> Rabs x <= B -> 2 * (u53 * (B + 1) + / 10 ^ 40) + Rabs (2 * e - w) <= 9 / 10000 * w ->
  bpow radix2 (-860) <= Rabs b -> Rabs (central e w (fun t => a + b * t) x - b) <= Rabs b / 1000.
Proof.
  intros He Hw Hx HB Hb. unfold central. replace (a + b * fl (x + e) - (a + b * fl (x - e))) with (b * (fl (x + e) - fl (x - e))) by ring.
  pose proof (bpow_gt_0 radix2 (-60)). apply quotient; [exact Hw|exact Hb|].
  destruct (step_error x e B Hx ltac:(lra)) as [A1 A2].
  replace (fl (x + e) - fl (x - e) - w) with ((fl (x + e) - (x + e)) + (- (fl (x - e) - (x - e)) + (2 * e - w))) by ring.
  eapply Rle_trans; [apply Rabs_triang|]. pose proof (Rabs_triang (- (fl (x - e) - (x - e))) (2 * e - w)) as T. rewrite Rabs_Ropp in T. lra.
Qed.
(** ** the unit cube *)
Lemma clip_range u : 0 <= Rmin (Rmax u 0) 1 <= 1.
Proof. split; [apply Rmin_glb; [apply Rmax_r|lra]|apply Rmin_r]. Qed.
Lemma clip_mono u v : u <= v -> Rmin (Rmax u 0) 1 <= Rmin (Rmax v 0) 1.
Proof. intros H. unfold Rmin, Rmax. repeat destruct Rle_dec; lra. Qed.
Lemma one_F : F 1.
Proof. change 1 with (bpow radix2 0). apply generic_format_bpow. unfold FLT_exp. lia. Qed.
Lemma span_F lo hi : F (span lo hi).
Proof. unfold span. destruct Rlt_dec; [apply fl_F|apply one_F]. Qed.
Lemma span_nonneg lo hi : 0 <= span lo hi.
Proof. unfold span. destruct Rlt_dec; [apply fl_nonneg; lra|lra]. Qed.
Lemma from_unit_low lo hi u : F lo -> lo <= from_unit lo hi u.
Proof.
  intros H. unfold from_unit. rewrite <- (fl_id lo H) at 1. apply fl_mono.
  assert (0 <= fl (Rmin (Rmax u 0) 1 * span lo hi)); [|lra]. apply fl_nonneg, Rmult_le_pos; [apply clip_range|apply span_nonneg].
Qed.
Lemma from_unit_mono lo hi u v : u <= v -> from_unit lo hi u <= from_unit lo hi v.
Proof.
  intros H. unfold from_unit. apply fl_mono, Rplus_le_compat_l, fl_mono, Rmult_le_compat_r; [apply span_nonneg|apply clip_mono, H].
Qed.
Lemma from_unit_0 lo hi : F lo -> from_unit lo hi 0 = lo.
Proof.
  intros H. unfold from_unit. rewrite Rmax_left, Rmin_left by lra. rewrite Rmult_0_l, fl_0, Rplus_0_r. apply fl_id, H.
Qed.
Lemma from_unit_top lo hi u : from_unit lo hi u <= fl (lo + span lo hi).
Proof.
  unfold from_unit. apply fl_mono, Rplus_le_compat_l. rewrite <- (fl_id (span lo hi)) at 2 by apply span_F. apply fl_mono.
  pose proof (clip_range u). pose proof (span_nonneg lo hi). nra.
Qed.
Lemma from_unit_zero hi u : F hi -> 0 < hi -> from_unit 0 hi u <= hi.
Proof.
  intros H P. eapply Rle_trans; [apply from_unit_top|]. unfold span. destruct Rlt_dec as [_|N]; [|lra].
  rewrite Rminus_0_r, Rplus_0_l, (fl_id hi H), (fl_id hi H). lra.
Qed.
Lemma from_unit_over lo hi u : lo < hi -> from_unit lo hi u <= hi + 3 * u53 * (Rabs lo + Rabs hi) + 3 * bpow radix2 (-1075).
Proof.
  intros H. eapply Rle_trans; [apply from_unit_top|]. unfold span. destruct Rlt_dec as [_|N]; [|lra].
  pose proof (fl_err (hi - lo)) as A. apply Rabs_le_inv in A. pose proof (fl_err (lo + fl (hi - lo))) as B. apply Rabs_le_inv in B.
  set (t := bpow radix2 (-1075)) in *. assert (T : 0 < t) by apply bpow_gt_0.
  assert (U : u53 = / 9007199254740992) by reflexivity.
  assert (C : Rabs (hi - lo) <= Rabs lo + Rabs hi) by (eapply Rle_trans; [apply Rabs_triang|]; rewrite Rabs_Ropp; lra).
  set (s := Rabs lo + Rabs hi) in *. assert (S0 : 0 <= s) by (unfold s; pose proof (Rabs_pos lo); pose proof (Rabs_pos hi); lra).
  assert (Hhi : Rabs hi <= s) by (unfold s; pose proof (Rabs_pos lo); lra).
  set (w := fl (hi - lo)) in *.
  assert (D : Rabs (lo + w) <= Rabs hi + (u53 * Rabs (hi - lo) + t)).
  { replace (lo + w) with (hi + (w - (hi - lo))) by ring. eapply Rle_trans; [apply Rabs_triang|]. apply Rplus_le_compat_l, Rabs_le. exact A. }
  set (p := Rabs (hi - lo)) in *. set (q := Rabs (lo + w)) in *. assert (q <= s + (u53 * s + t)).
  { assert (u53 * p <= u53 * s) by (apply Rmult_le_compat_l; [rewrite U; lra|exact C]). lra. }
  rewrite U in *. lra.
Qed.
(** ** diagonals *)
Lemma off_diagonal c A i j : i <> j -> F (A i j) -> on_diagonal c A i j = A i j.
Proof.
  intros N H. unfold on_diagonal. destruct (Nat.eqb_spec i j) as [E|_]; [contradiction|].
  rewrite Rmult_0_l, fl_0, Rplus_0_r. apply fl_id, H.
Qed.
Lemma at_diagonal c A i : F c -> on_diagonal c A i i = fl (A i i + c).
Proof. intros H. unfold on_diagonal. rewrite Nat.eqb_refl, Rmult_1_l, (fl_id c H). reflexivity. Qed.
Lemma rsum_delta n i (g : nat -> R) : (i < n)%nat -> rsum (fun j => if Nat.eqb i j then g j else 0) n = g i.
Proof.
  intros H. induction n; [lia|]. cbn [rsum]. destruct (Nat.eqb_spec i n) as [->|N].
  - rewrite (rsum_ext _ (fun _ => 0)), rsum_const; [lra|]. intros j Hj. destruct (Nat.eqb_spec n j); [lia|reflexivity].
  - rewrite IHn by lia. lra.
Qed.
Lemma qform_diag n A A' x : (forall i j, (i < n)%nat -> (j < n)%nat -> i <> j -> A' i j = A i j) ->
  qform n A' x = qform n A x + rsum (fun i => (A' i i - A i i) * x i ^ 2) n.
Proof.
  intros H. unfold qform. rewrite <- rsum_plus. apply rsum_ext. intros i Hi.
  rewrite <- (rsum_delta n i (fun j => (A' j j - A j j) * x j ^ 2) Hi). rewrite <- rsum_plus. apply rsum_ext. intros j Hj.
  destruct (Nat.eqb_spec i j) as [->|N]; [ring|rewrite H by assumption; ring].
Qed.
Lemma qform_ext n A A' x : (forall i j, (i < n)%nat -> (j < n)%nat -> A' i j = A i j) -> qform n A' x = qform n A x.
Proof. intros H. unfold qform. apply rsum_ext. intros i Hi. apply rsum_ext. intros j Hj. rewrite H by assumption. reflexivity. Qed.
Lemma rsum_pos f n i : (forall j, (j < n)%nat -> 0 <= f j) -> (i < n)%nat -> 0 < f i -> 0 < rsum f n.
Proof.
  intros H Hi P. induction n; [lia|]. cbn [rsum]. assert (0 <= f n) by (apply H; lia).
  assert (0 <= rsum f n) by (apply rsum_nonneg; intros; apply H; lia).
  destruct (Nat.eq_dec i n) as [->|N]; [lra|]. assert (0 < rsum f n) by (apply IHn; [intros; apply H; lia|lia]). lra.
Qed.
(** a positive semidefinite matrix whose diagonal really grows becomes positive definite *)
Lemma definite_of_moves n c A : (forall i j, (i < n)%nat -> (j < n)%nat -> F (A i j)) -> F c -> pos_semidefinite n A ->
  (forall i, (i < n)%nat -> A i i < fl (A i i + c)) -> pos_definite n (on_diagonal c A).
Proof.
  intros HF Hc PS M x [i [Hi N]]. rewrite (qform_diag n A).
  - specialize (PS x). assert (0 < rsum (fun i => (on_diagonal c A i i - A i i) * x i ^ 2) n); [|lra].
    apply rsum_pos with i; [|exact Hi|].
    + intros j Hj. rewrite at_diagonal by exact Hc. specialize (M j Hj). apply Rmult_le_pos; [lra|apply pow2_ge_0].
    + rewrite at_diagonal by exact Hc. specialize (M i Hi). apply Rmult_lt_0_compat; [lra|]. rewrite <- Rsqr_pow2. apply Rsqr_pos_lt, N.
  - intros a b Ha Hb D. apply off_diagonal; [exact D|apply HF; assumption].
Qed.
Lemma unchanged n k c A : (-900 <= k)%Z -> (forall i j, (i < n)%nat -> (j < n)%nat -> F (A i j)) -> F c -> 0 <= c < bpow radix2 (k - 53) ->
  (forall i, (i < n)%nat -> bpow radix2 k <= A i i) -> forall i j, (i < n)%nat -> (j < n)%nat -> on_diagonal c A i j = A i j.
Proof.
  intros K HF Hc Hb D i j Hi Hj. destruct (Nat.eq_dec i j) as [->|N]; [|apply off_diagonal; auto].
  rewrite at_diagonal by exact Hc. apply (lost_up k); auto.
Qed.
(** ** the sequences of shifts *)
Lemma times10 s : / 10 ^ 13 <= s -> F (fl (s * 10)) /\ Rabs (fl (s * 10) - 10 * s) <= u53 * (10 * s).
Proof.
  intros H. split; [apply fl_F|]. assert (P : 0 < / 10 ^ 13) by (apply Rinv_0_lt_compat, pow_lt; lra).
  replace (10 * s) with (s * 10) by ring. rewrite <- (Rabs_pos_eq (s * 10)) at 3 by lra. apply fl_rel. rewrite Rabs_pos_eq by lra.
  eapply Rle_trans; [apply (bpow_le radix2 _ (-60)); lia|]. rewrite bpow_m60. eapply Rle_trans; [|apply Rmult_le_compat_r; [lra|exact H]].
  simpl. lra.
Qed.
Definition near (s v : R) : Prop := F s /\ v * (1 - / 10 ^ 12) <= s <= v * (1 + / 10 ^ 12).
Lemma lit_near k : (k <= 12)%nat -> near (lit k) (/ 10 ^ k) /\ Rabs (lit k - / 10 ^ k) <= u53 * / 10 ^ k.
Proof.
  intros H. pose proof (lit_bound k H) as B. split; [|exact B]. split; [apply lit_F|]. apply Rabs_le_inv in B.
  assert (P : 0 < / 10 ^ k) by (apply Rinv_0_lt_compat, pow_lt; lra). set (v := / 10 ^ k) in *. clearbody v. unfold u53 in B. simpl. nra.
Qed.
Lemma ten_step s v t : 0 < v -> / 10 ^ 13 <= s -> Rabs (s - v) <= t * u53 * v -> 0 <= t <= 10 -> F (fl (s * 10)) /\ Rabs (fl (s * 10) - 10 * v) <= (t + 2) * u53 * (10 * v).
Proof.
  intros V H B T. destruct (times10 s H) as [A C]. split; [exact A|]. apply Rabs_le_inv in B. apply Rabs_le_inv in C.
  assert (P : 0 <= t * u53 * v <= v) by (unfold u53; nra).
  assert (S2 : s <= 2 * v) by lra. assert (u53 * (10 * s) <= 2 * u53 * (10 * v)) by (unfold u53; lra).
  replace ((t + 2) * u53 * (10 * v)) with (10 * (t * u53 * v) + 2 * u53 * (10 * v)) by ring. apply Rabs_le. lra.
Qed.
Lemma dense_shifts : exists a b c d, shifts next_dense 0 5 = (0 :: a :: b :: c :: d :: nil)%list /\
  F a /\ F b /\ F c /\ F d /\ 0 < a <= b /\ b <= c <= d /\ 9 / 10 ^ 8 < d < 11 / 10 ^ 8.
Proof.
  exists (lit 10), (fl (lit 10 * 10)), (fl (fl (lit 10 * 10) * 10)), (fl (fl (fl (lit 10 * 10) * 10) * 10)).
  pose proof (lit_bound 10 ltac:(lia)) as B.
  destruct (ten_step (lit 10) (/ 10 ^ 10) 1) as [F2 B2]; [simpl; lra|apply Rabs_le_inv in B; unfold u53 in B; simpl in *; lra|lra|lra|].
  set (b := fl (lit 10 * 10)) in *.
  destruct (ten_step b (10 * / 10 ^ 10) 3) as [F3 B3]; [simpl; lra|apply Rabs_le_inv in B2; unfold u53 in B2; simpl in *; lra| |lra|].
  { replace 3 with (1 + 2) by ring. exact B2. }
  set (c := fl (b * 10)) in *.
  destruct (ten_step c (10 * (10 * / 10 ^ 10)) 5) as [F4 B4]; [simpl; lra|apply Rabs_le_inv in B3; unfold u53 in B3; simpl in *; lra| |lra|].
  { replace 5 with (3 + 2) by ring. exact B3. }
  set (d := fl (c * 10)) in *.
  apply Rabs_le_inv in B, B2, B3, B4. unfold u53 in *.
  assert (A0 : lit 10 <> 0) by (simpl in B; lra). assert (b0 : b <> 0) by (simpl in B2; lra). assert (c0 : c <> 0) by (simpl in B3; lra).
  repeat match goal with |- _ /\ _ => split end; try assumption; try apply lit_F; try (simpl in *; lra).
  cbn [shifts].
  assert (N0 : next_dense 0 = lit 10) by (unfold next_dense; destruct (Req_EM_T 0 0); [reflexivity|lra]). rewrite ?N0.
  assert (N1 : next_dense (lit 10) = b) by (unfold next_dense; destruct (Req_EM_T (lit 10) 0); [contradiction|reflexivity]). rewrite ?N1.
  assert (N2 : next_dense b = c) by (unfold next_dense; destruct (Req_EM_T b 0); [contradiction|reflexivity]). rewrite ?N2.
  assert (N3 : next_dense c = d) by (unfold next_dense; destruct (Req_EM_T c 0); [contradiction|reflexivity]). rewrite ?N3. reflexivity.
Qed.
Lemma ilupp_shifts : exists a b c d, shifts next_ilupp 0 5 = (0 :: a :: b :: c :: d :: nil)%list /\
  F a /\ F b /\ F c /\ F d /\ 0 < a <= b /\ b <= c <= d /\ 99 / 10 ^ 11 < d < 101 / 10 ^ 11.
Proof.
  exists (lit 12), (fl (lit 12 * 10)), (fl (fl (lit 12 * 10) * 10)), (fl (fl (fl (lit 12 * 10) * 10) * 10)).
  pose proof (lit_bound 12 ltac:(lia)) as B.
  destruct (ten_step (lit 12) (/ 10 ^ 12) 1) as [F2 B2]; [simpl; lra|apply Rabs_le_inv in B; unfold u53 in B; simpl in *; lra|lra|lra|].
  set (b := fl (lit 12 * 10)) in *.
  destruct (ten_step b (10 * / 10 ^ 12) 3) as [F3 B3]; [simpl; lra|apply Rabs_le_inv in B2; unfold u53 in B2; simpl in *; lra| |lra|].
  { replace 3 with (1 + 2) by ring. exact B2. }
  set (c := fl (b * 10)) in *.
  destruct (ten_step c (10 * (10 * / 10 ^ 12)) 5) as [F4 B4]; [simpl; lra|apply Rabs_le_inv in B3; unfold u53 in B3; simpl in *; lra| |lra|].
  { replace 5 with (3 + 2) by ring. exact B3. }
  set (d := fl (c * 10)) in *.
  apply Rabs_le_inv in B, B2, B3, B4. unfold u53 in *.
  repeat match goal with |- _ /\ _ => split end; try assumption; try apply lit_F; try (simpl in *; lra).
  cbn [shifts].
  assert (N0 : next_ilupp 0 = lit 12) by (unfold next_ilupp; rewrite Rmult_0_l, fl_0, Rmax_right; [reflexivity|simpl in B; lra]). rewrite ?N0.
  assert (N1 : next_ilupp (lit 12) = b) by (unfold next_ilupp; fold b; apply Rmax_left; simpl in *; lra). rewrite ?N1.
  assert (N2 : next_ilupp b = c) by (unfold next_ilupp; fold c; apply Rmax_left; simpl in *; lra). rewrite ?N2.
  assert (N3 : next_ilupp c = d) by (unfold next_ilupp; fold d; apply Rmax_left; simpl in *; lra). rewrite ?N3. reflexivity.
Qed.
