From Coq Require Import Reals Lra Lia.
From Coquelicot Require Import Coquelicot.
From Verif Require Import Spec.MetricsSpec.
Local Open Scope R_scope.
Lemma s2pi : 0 < sqrt (2 * PI). Proof. apply sqrt_lt_R0. pose proof PI_RGT_0. lra. Qed.
Lemma pdf_pos z : 0 < normal_pdf z. Proof. unfold normal_pdf. apply Rdiv_lt_0_compat; [apply exp_pos|apply s2pi]. Qed.
Lemma pdf_even z : normal_pdf (- z) = normal_pdf z.
Proof. unfold normal_pdf. replace ((- z) ^ 2) with (z ^ 2) by ring. reflexivity. Qed.
Lemma pdf_derive z : is_derive normal_pdf z (- z * normal_pdf z).
Proof. pose proof s2pi as S0. unfold normal_pdf. auto_derive; [lra|]. change (- (z * (z * 1)) * / 2) with (- z ^ 2 / 2). change (1 + 1) with 2. field. lra. Qed.
Lemma der_cont (f : R -> R) z l : is_derive f z l -> continuity_pt f z.
Proof. intros D. apply derivable_continuous_pt. exists l. apply is_derive_Reals. exact D. Qed.
Section N.
Variable Phi : R -> R.
Hypothesis H : normal_cdf Phi.
Lemma Phi_der z : is_derive Phi z (normal_pdf z).
Proof. apply is_derive_Reals. apply H. Qed.
Lemma Phi_cont z : continuity_pt Phi z.
Proof. apply derivable_continuous_pt. exists (normal_pdf z). apply H. Qed.
(** zero derivative *)
Lemma const_of_derive (f : R -> R) : (forall z, is_derive f z 0) -> forall x y, f x = f y.
Proof.
intros D x y. destruct (MVT_gen f x y (fun _ => 0)) as [c [_ E]].
- intros; apply D.
- intros; eapply der_cont; apply D.
- lra.
Qed.
Lemma Phi_sym z : Phi (- z) = 1 - Phi z.
Proof.
assert (D : forall t, is_derive (fun t => Phi (- t) + Phi t) t 0).
{ intros t. replace 0 with (- 1 * normal_pdf (- t) + normal_pdf t) by (rewrite pdf_even; ring).
  apply (is_derive_plus (fun t => Phi (- t)) Phi); [|apply Phi_der].
  apply (is_derive_comp Phi (fun t => - t)); [apply Phi_der|]. auto_derive; [exact I|ring]. }
destruct H as [_ [L0 L1]].
assert (E : Phi (- z) + Phi z = 1); [|lra].
apply Rminus_diag_uniq. destruct (Req_dec (Phi (- z) + Phi z - 1) 0) as [|N]; [assumption|exfalso].
assert (P : 0 < Rabs (Phi (- z) + Phi z - 1) / 2) by (apply Rabs_pos_lt in N; lra).
destruct (L0 _ P) as [B0 HB0]. destruct (L1 _ P) as [B1 HB1].
set (w := Rmax B0 B1 + 1). assert (B0 <= w - 1 /\ B1 <= w - 1) as [h0 h1] by (unfold w; split; [pose proof (Rmax_l B0 B1)|pose proof (Rmax_r B0 B1)]; lra).
specialize (HB0 (- w) ltac:(lra)). specialize (HB1 w ltac:(lra)).
pose proof (const_of_derive _ D z w) as C; cbn beta in C. rewrite C in P, N, HB0, HB1.
pose proof (Rabs_triang (Phi (- w)) (Phi w - 1)). replace (Phi (- w) + (Phi w - 1)) with (Phi (- w) + Phi w - 1) in H0 by ring. lra.
Qed.
Lemma Phi_0 : Phi 0 = 1 / 2.
Proof. pose proof (Phi_sym 0). rewrite Ropp_0 in H0. lra. Qed.
Lemma Phi_incr x y : x < y -> Phi x < Phi y.
Proof.
intros L. destruct (MVT_gen Phi x y normal_pdf) as [c [_ E]].
- intros; apply Phi_der.
- intros; apply Phi_cont.
- pose proof (pdf_pos c). assert (0 < normal_pdf c * (y - x)) by (apply Rmult_lt_0_compat; lra). lra.
Qed.
Lemma Phi_incr' x y : Phi x <= Phi y -> x <= y.
Proof. intros L. destruct (Rle_lt_dec x y) as [|h]; [assumption|]. apply Phi_incr in h. lra. Qed.
Lemma Phi_pos z : 0 < Phi z.
Proof.
destruct (Rlt_le_dec 0 (Phi z)) as [|h]; [assumption|exfalso].
pose proof (Phi_incr (z - 1) z ltac:(lra)).
assert (P : 0 < - Phi (z - 1)) by lra.
destruct H as [_ [L0 _]]. destruct (L0 _ P) as [B HB].
set (w := Rmin (z - 1) (- B - 1)). assert (w <= z - 1 /\ w <= - B - 1) as [a b] by (unfold w; split; [apply Rmin_l|apply Rmin_r]).
specialize (HB w ltac:(lra)). assert (Phi w <= Phi (z - 1)).
{ destruct (Req_dec w (z - 1)) as [->|]; [lra|]. left; apply Phi_incr; lra. }
rewrite Rabs_left in HB by lra. lra.
Qed.
Lemma Phi_lt1 z : Phi z < 1. Proof. pose proof (Phi_pos (- z)). rewrite Phi_sym in H0. lra. Qed.

(** the standard score z (2 Phi z - 1) + 2 phi z - 1/sqrt pi is smallest at 0 *)
Definition score z := z * (2 * Phi z - 1) + 2 * normal_pdf z - 1 / sqrt PI.
Lemma score_derive z : is_derive score z (2 * Phi z - 1).
Proof.
unfold score.
assert (E : is_derive (fun z => z * (2 * Phi z - 1) + 2 * normal_pdf z - 1 / sqrt PI) z
  ((1 * (2 * Phi z - 1) + z * (2 * normal_pdf z)) + 2 * (- z * normal_pdf z) - 0)).
{ apply (is_derive_minus (fun z => z * (2 * Phi z - 1) + 2 * normal_pdf z) (fun _ => 1 / sqrt PI)); [|apply (is_derive_const (1 / sqrt PI) z)].
  apply (is_derive_plus (fun z => z * (2 * Phi z - 1)) (fun z => 2 * normal_pdf z)); [|apply (is_derive_scal normal_pdf); apply pdf_derive].
  apply (is_derive_mult (fun z => z) (fun z => 2 * Phi z - 1)); [apply (is_derive_id z)| |intros; apply Rmult_comm].
  replace (2 * normal_pdf z) with (2 * normal_pdf z - 0) by ring.
  apply (is_derive_minus (fun z => 2 * Phi z) (fun _ => 1)); [apply (is_derive_scal Phi); apply Phi_der|apply (is_derive_const 1 z)]. }
replace (2 * Phi z - 1) with ((1 * (2 * Phi z - 1) + z * (2 * normal_pdf z)) + 2 * (- z * normal_pdf z) - 0) by ring. exact E.
Qed.
Lemma score_min z : score 0 <= score z.
Proof.
destruct (MVT_gen score 0 z (fun t => 2 * Phi t - 1)) as [c [Hc E]].
- intros; apply score_derive.
- intros; eapply der_cont; apply score_derive.
- assert (0 <= (2 * Phi c - 1) * (z - 0)); [|lra].
  destruct (Rle_lt_dec 0 z) as [h|h].
  + rewrite Rmin_left, Rmax_right in Hc by lra. apply Rmult_le_pos; [|lra].
    assert (Phi 0 <= Phi c) by (destruct (Req_dec 0 c) as [<-|]; [lra|left; apply Phi_incr; lra]). rewrite Phi_0 in H0. lra.
  + rewrite Rmin_right, Rmax_left in Hc by lra.
    assert (Phi c <= Phi 0) by (destruct (Req_dec 0 c) as [<-|]; [lra|left; apply Phi_incr; lra]). rewrite Phi_0 in H0.
    replace ((2 * Phi c - 1) * (z - 0)) with ((1 - 2 * Phi c) * (- z)) by ring. apply Rmult_le_pos; lra.
Qed.
Lemma score_0 : score 0 = (sqrt 2 - 1) / sqrt PI.
Proof.
unfold score, normal_pdf. replace (- 0 ^ 2 / 2) with 0 by field. rewrite exp_0.
assert (0 < sqrt 2) by (apply sqrt_lt_R0; lra). assert (0 < sqrt PI) by (apply sqrt_lt_R0; apply PI_RGT_0).
rewrite sqrt_mult by (pose proof PI_RGT_0; lra). pose proof (sqrt_sqrt 2 ltac:(lra)).
replace (2 * (1 / (sqrt 2 * sqrt PI))) with (sqrt 2 * sqrt 2 * (1 / (sqrt 2 * sqrt PI))) by (rewrite H2; reflexivity). field. lra.
Qed.
Lemma score_pos z : 0 < (sqrt 2 - 1) / sqrt PI <= score z.
Proof.
split; [|rewrite <- score_0; apply score_min].
apply Rdiv_lt_0_compat; [|apply sqrt_lt_R0; apply PI_RGT_0].
assert (sqrt 1 < sqrt 2) by (apply sqrt_lt_1_alt; lra). rewrite sqrt_1 in H0. lra.
Qed.

(** an antiderivative of Phi^2 *)
Definition anti z := z * Phi z ^ 2 + 2 * normal_pdf z * Phi z - Phi (sqrt 2 * z) / sqrt PI.
Lemma pdf_sqrt2 z : sqrt 2 * normal_pdf (sqrt 2 * z) / sqrt PI = 2 * normal_pdf z ^ 2.
Proof.
unfold normal_pdf. assert (0 < sqrt 2) by (apply sqrt_lt_R0; lra). assert (0 < sqrt PI) by (apply sqrt_lt_R0; apply PI_RGT_0).
pose proof (sqrt_sqrt 2 ltac:(lra)) as E2.
replace (- (sqrt 2 * z) ^ 2 / 2) with (- z ^ 2 / 2 + - z ^ 2 / 2) by (replace ((sqrt 2 * z) ^ 2) with (sqrt 2 * sqrt 2 * z ^ 2) by ring; rewrite E2; field).
rewrite exp_plus, sqrt_mult by (pose proof PI_RGT_0; lra).
set (e := exp _). replace (2 * (e / (sqrt 2 * sqrt PI)) ^ 2) with (2 * e ^ 2 / (sqrt 2 * sqrt 2 * sqrt PI ^ 2)) by (field; lra).
rewrite E2. field. lra.
Qed.
Lemma anti_derive z : is_derive anti z (Phi z ^ 2).
Proof.
assert (P0 : 0 < sqrt PI) by (apply sqrt_lt_R0; apply PI_RGT_0).
assert (D2 : is_derive (fun z => Phi z ^ 2) z (2 * Phi z * normal_pdf z)).
{ pose proof (is_derive_pow Phi 2 z _ (Phi_der z)) as Q. cbn [pred INR] in Q. replace (2 * Phi z * normal_pdf z) with ((1 + 1) * normal_pdf z * Phi z ^ 1) by ring. exact Q. }
assert (D3 : is_derive (fun z => Phi (sqrt 2 * z)) z (sqrt 2 * normal_pdf (sqrt 2 * z))).
{ apply (is_derive_comp Phi (fun z => sqrt 2 * z)); [apply Phi_der|]. auto_derive; [exact I|ring]. }
assert (E : is_derive anti z ((1 * Phi z ^ 2 + z * (2 * Phi z * normal_pdf z)) + ((2 * (- z * normal_pdf z)) * Phi z + 2 * normal_pdf z * normal_pdf z)
   - (sqrt 2 * normal_pdf (sqrt 2 * z)) / sqrt PI)).
{ unfold anti.
  apply (is_derive_minus (fun z => z * Phi z ^ 2 + 2 * normal_pdf z * Phi z) (fun z => Phi (sqrt 2 * z) / sqrt PI)).
  - apply (is_derive_plus (fun z => z * Phi z ^ 2) (fun z => 2 * normal_pdf z * Phi z)).
    + apply (is_derive_mult (fun z => z) (fun z => Phi z ^ 2)); [apply (is_derive_id z)|exact D2|intros; apply Rmult_comm].
    + apply (is_derive_mult (fun z => 2 * normal_pdf z) Phi); [apply (is_derive_scal normal_pdf); apply pdf_derive|apply Phi_der|intros; apply Rmult_comm].
  - unfold Rdiv. rewrite (Rmult_comm (sqrt 2 * _) (/ _)). eapply is_derive_ext; [intros t; apply Rmult_comm|]. apply (is_derive_scal (fun z => Phi (sqrt 2 * z))). exact D3. }
rewrite pdf_sqrt2 in E.
replace (Phi z ^ 2) with (1 * Phi z ^ 2 + z * (2 * Phi z * normal_pdf z) + (2 * (- z * normal_pdf z) * Phi z + 2 * normal_pdf z * normal_pdf z) - 2 * normal_pdf z ^ 2) by ring. exact E.
Qed.
Lemma anti_sum z : anti z + anti (- z) = score z.
Proof.
unfold anti, score. replace (sqrt 2 * - z) with (- (sqrt 2 * z)) by ring. rewrite !Phi_sym, pdf_even.
assert (0 < sqrt PI) by (apply sqrt_lt_R0; apply PI_RGT_0). field. lra.
Qed.
(** tails *)
Lemma pdf_bound z : z <> 0 -> Rabs z * normal_pdf z <= 2 / Rabs z.
Proof.
intros N. assert (A : 0 < Rabs z) by (apply Rabs_pos_lt; assumption).
assert (E : exp (- z ^ 2 / 2) <= 2 / z ^ 2).
{ assert (Z : 0 < z ^ 2) by nra. replace (- z ^ 2 / 2) with (- (z ^ 2 / 2)) by field. rewrite exp_Ropp.
  pose proof (exp_ineq1_le (z ^ 2 / 2)). replace (2 / z ^ 2) with (/ (z ^ 2 / 2)) by (field; lra).
  apply Rinv_le_contravar; lra. }
assert (L : 1 <= sqrt (2 * PI)). { rewrite <- sqrt_1. apply sqrt_le_1_alt. pose proof PI_RGT_0. pose proof PI2_1. lra. }
assert (F : normal_pdf z <= exp (- z ^ 2 / 2)).
{ unfold normal_pdf. apply (Rmult_le_reg_r (sqrt (2 * PI))); [lra|]. unfold Rdiv. rewrite Rmult_assoc, Rinv_l, Rmult_1_r by lra.
  pose proof (exp_pos (- z ^ 2 / 2)). unfold Rdiv in *. nra. }
replace (2 / Rabs z) with (Rabs z * (2 / z ^ 2)).
- apply Rmult_le_compat_l; lra.
- replace (z ^ 2) with (Rabs z * Rabs z) by (rewrite <- Rabs_mult, Rabs_pos_eq by nra; ring). field. lra.
Qed.
Lemma Phi_tail z : z <= - 1 -> Phi z <= normal_pdf z.
Proof.
intros L. destruct (Rle_lt_dec (Phi z) (normal_pdf z)) as [|h]; [assumption|exfalso].
assert (P : 0 < Phi z - normal_pdf z) by lra. destruct H as [_ [L0 _]]. destruct (L0 _ P) as [B HB].
set (w := Rmin (z - 1) (- B - 1)). assert (w <= z - 1 /\ w <= - B - 1) as [a b] by (unfold w; split; [apply Rmin_l|apply Rmin_r]).
specialize (HB w ltac:(lra)). rewrite Rabs_pos_eq in HB by (left; apply Phi_pos).
destruct (MVT_gen (fun t => Phi t - normal_pdf t) w z (fun t => normal_pdf t - - t * normal_pdf t)) as [c [Hc E]].
- intros; apply (is_derive_minus Phi normal_pdf); [apply Phi_der|apply pdf_derive].
- intros; eapply der_cont; apply (is_derive_minus Phi normal_pdf); [apply Phi_der|apply pdf_derive].
- cbn beta in E. rewrite Rmin_left, Rmax_right in Hc by lra. pose proof (pdf_pos c). pose proof (pdf_pos w).
  assert ((normal_pdf c - - c * normal_pdf c) * (z - w) <= 0); [|lra].
  replace (normal_pdf c - - c * normal_pdf c) with (- ((- 1 - c) * normal_pdf c)) by ring.
  assert (0 <= (-1 - c) * normal_pdf c) by (apply Rmult_le_pos; lra). nra.
Qed.
Lemma anti_tail eps : 0 < eps -> exists B, 1 <= B /\ forall z, z < - B -> Rabs (anti z) < eps.
Proof.
intros P. assert (P0 : 1 < sqrt PI).
{ rewrite <- sqrt_1. apply sqrt_lt_1_alt. pose proof PI_RGT_0. pose proof PI2_1. lra. }
assert (Q1 : 1 < sqrt 2) by (rewrite <- sqrt_1; apply sqrt_lt_1_alt; lra).
exists (Rmax 1 (8 / eps)). pose proof (Rmax_l 1 (8 / eps)) as m1. pose proof (Rmax_r 1 (8 / eps)) as m2. split; [assumption|]. intros z L.
assert (N : z <> 0) by lra. assert (A : Rabs z = - z) by (apply Rabs_left; lra).
pose proof (pdf_bound z N) as B1. pose proof (pdf_bound (sqrt 2 * z) ltac:(nra)) as B2.
assert (K : 2 / Rabs z < eps / 4).
{ rewrite A. apply (Rmult_lt_reg_r (- z)); [lra|]. unfold Rdiv. rewrite Rmult_assoc, Rinv_l, Rmult_1_r by lra.
  assert (8 / eps * eps < - z * eps) by (apply Rmult_lt_compat_r; lra). unfold Rdiv in H0. rewrite Rmult_assoc, Rinv_l in H0 by lra. lra. }
pose proof (Phi_pos z). pose proof (Phi_lt1 z). pose proof (pdf_pos z). pose proof (Phi_tail z ltac:(lra)).
pose proof (Phi_pos (sqrt 2 * z)). pose proof (Phi_incr (sqrt 2 * z) z ltac:(nra)).
assert (C1 : normal_pdf z < eps / 4) by (rewrite A in B1, K; assert (1 * normal_pdf z <= - z * normal_pdf z) by (apply Rmult_le_compat_r; lra); lra).
unfold anti.
assert (T1 : Rabs (z * Phi z ^ 2) < eps / 4).
{ rewrite Rabs_mult, (Rabs_pos_eq (Phi z ^ 2)) by nra. apply (Rle_lt_trans _ (Rabs z * normal_pdf z)); [|lra].
  apply Rmult_le_compat_l; [apply Rabs_pos|]. nra. }
assert (T2 : 0 <= 2 * normal_pdf z * Phi z < eps / 2) by nra.
assert (T3 : 0 <= Phi (sqrt 2 * z) / sqrt PI < eps / 4).
{ split; [left; apply Rdiv_lt_0_compat; lra|]. apply (Rmult_lt_reg_r (sqrt PI)); [lra|]. unfold Rdiv at 1. rewrite Rmult_assoc, Rinv_l, Rmult_1_r by lra. nra. }
apply Rabs_def2 in T1. apply Rabs_def1; lra.
Qed.
End N.
