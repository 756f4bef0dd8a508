(** Square roots, exponentials and Matern profiles of functions of negative type. *)
From Coq Require Import Reals Lra Lia List Psatz.
From Coquelicot Require Import Coquelicot.
From Verif Require Import Spec.Sums Spec.KernelSpec Proofs.PsdP.
Import ListNotations.
Local Open Scope R_scope.

Lemma cv_const c : Un_cv (fun _ => c) c.
Proof. intros e He. exists 0%nat. intros. unfold R_dist. rewrite Rminus_diag_eq, Rabs_R0; auto. Qed.
Lemma atan_cv c : 0 < c -> Un_cv (fun n => atan (INR (S n) / c)) (PI / 2).
Proof.
  intros Hc. apply (Un_cv_ext (fun n => PI / 2 - atan (hh n * c))).
  - intros n. pose proof (lt_0_INR (S n) ltac:(lia)) as Hn.
    replace (hh n * c) with (/ (INR (S n) / c)) by (unfold hh; field; lra).
    rewrite atan_inv; [ring|]. apply Rdiv_lt_0_compat; auto.
  - replace (PI / 2) with (PI / 2 - atan 0) at 1 by (rewrite atan_0; ring).
    apply (CV_minus (fun _ => PI / 2) (fun n => atan (hh n * c))); [apply cv_const|].
    apply (continuity_seq atan (fun n => hh n * c) 0).
    + apply derivable_continuous_pt, derivable_pt_atan.
    + replace 0 with (0 * c) by ring. apply (CV_mult hh (fun _ => c)); [apply hh_cv|apply cv_const].
Qed.
Lemma sqrt_cv lam : 0 <= lam -> Un_cv (fun n => 2 / PI * riemann (fun u => lam / (lam + u ^ 2)) n) (sqrt lam).
Proof.
  intros Hl. destruct (Req_dec lam 0) as [->|Hn].
  - rewrite sqrt_0. apply (Un_cv_ext (fun _ => 0)); [|apply cv_const].
    intros n. unfold riemann. rewrite (rsum_ext _ (fun _ => 0)), rsum_const; [ring|]. intros. unfold Rdiv. ring.
  - assert (L0 : 0 < lam) by lra. pose proof (sqrt_lt_R0 _ L0) as S0.
    assert (SS : sqrt lam * sqrt lam = lam) by (apply sqrt_sqrt; lra).
    replace (sqrt lam) with (2 / PI * (sqrt lam * (PI / 2) - sqrt lam * atan (0 / sqrt lam))) at 1.
    2:{ unfold Rdiv at 3. rewrite Rmult_0_l, atan_0. field. apply PI_neq0. }
    apply (CV_mult (fun _ => 2 / PI)); [apply cv_const|].
    apply (riemann_cv (fun u => sqrt lam * atan (u / sqrt lam)) (fun u => lam / (lam + u ^ 2))).
    + intros u Hu. auto_derive; [auto|]. clear Hl Hn L0. remember (sqrt lam) as s eqn:Es. clear Es. subst lam. field. nra.
    + intros u Hu. apply derivable_continuous_pt. apply ex_derive_Reals_0. auto_derive. auto.
    + intros u v Hu Hv. apply Rmult_le_compat_l; [lra|]. apply Rinv_le_contravar; nra.
    + intros u Hu. apply Rlt_le, Rdiv_lt_0_compat; nra.
    + apply (CV_mult (fun _ => sqrt lam)); [apply cv_const|]. apply atan_cv, S0.
Qed.
Lemma nt_sqrt {X} (p : X -> X -> R) : (forall x y, 0 <= p x y) -> neg_type p -> neg_type (fun x y => sqrt (p x y)).
Proof.
  intros P N. apply (nt_lim (fun n x y => 2 / PI * riemann (fun u => p x y / (p x y + u ^ 2)) n)).
  { intros x y. apply sqrt_cv, P. }
  intros n. apply (nt_scal (2 / PI) (fun x y => riemann (fun u => p x y / (p x y + u ^ 2)) n)).
  { pose proof PI_RGT_0. apply Rlt_le, Rdiv_lt_0_compat; lra. }
  unfold riemann. apply (nt_rsum (fun k x y => hh n * (p x y / (p x y + (INR (S k) * hh n) ^ 2)))).
  intros i _. apply (nt_scal (hh n) (fun x y => p x y / (p x y + (INR (S i) * hh n) ^ 2))); [left; apply hh_pos|].
  assert (U : 0 < INR (S i) * hh n) by (apply Rmult_lt_0_compat; [apply lt_0_INR; lia|apply hh_pos]).
  remember (INR (S i) * hh n) as u eqn:Eu. clear Eu.
  apply (nt_ext (fun x y => 1 - u ^ 2 * / (p x y + u ^ 2))).
  - intros x y. specialize (P x y). field. nra.
  - apply (nt_bounded 1 (fun x y => u ^ 2 * / (p x y + u ^ 2))).
    apply (mult_scal (u ^ 2) (fun x y => / (p x y + u ^ 2))); [nra|]. apply mult_resolvent; auto. nra.
Qed.
Lemma nt_mult {X} (p : X -> X -> R) : neg_type p -> mult (fun x y => exp (- p x y)).
Proof. intros N. apply (mult_ext (fun x y => exp (- (1 * p x y)))); [intros; f_equal; ring|]. apply N. lra. Qed.

Definition M1 (lam : R) : R := (1 + sqrt lam) * exp (- sqrt lam).
Definition M2 (lam : R) : R := (1 + sqrt lam + lam / 3) * exp (- sqrt lam).
Lemma exp_ge_1 t : 0 <= t -> 1 + t <= exp t.
Proof. intros [H| <-]; [left; apply exp_ineq1; lra|rewrite exp_0; lra]. Qed.
Lemma M2_small lam : 0 <= lam -> M2 lam * lam <= 256.
Proof.
  intros H. unfold M2. pose proof (sqrt_pos lam) as S0. pose proof (sqrt_sqrt lam H) as SS. remember (sqrt lam) as s.
  assert (E : exp s = exp (s / 4) ^ 4). { replace (exp (s / 4) ^ 4) with (exp (s/4) * exp (s/4) * (exp (s/4) * exp (s/4))) by ring. rewrite <- !exp_plus. f_equal. field. }
  pose proof (exp_ge_1 (s / 4) ltac:(lra)) as G.
  assert (G2 : (1 + s / 4) ^ 4 <= exp s). { rewrite E. apply pow_incr. lra. }
  rewrite exp_Ropp. rewrite Rmult_assoc, (Rmult_comm _ lam), <- Rmult_assoc.
  apply (Rmult_le_reg_r (exp s)); [apply exp_pos|]. rewrite Rmult_assoc, Rinv_l, Rmult_1_r; [|pose proof (exp_pos s); lra].
  rewrite <- SS in *. assert (0 <= s ^ 3) by (apply pow_le; lra). assert (0 <= s ^ 4) by (apply pow_le; lra).
  assert (0 <= s ^ 2) by (apply pow_le; lra). nra.
Qed.
Lemma M_pos lam : 0 <= lam -> 0 <= M1 lam <= M2 lam.
Proof.
  intros H. unfold M1, M2. pose proof (sqrt_pos lam). pose proof (exp_pos (- sqrt lam)). split; [nra|].
  apply Rmult_le_compat_r; lra.
Qed.
Lemma M_cv (M : R -> R) lam : 0 <= lam -> (forall a, 0 <= a -> 0 <= M a <= M2 a) -> Un_cv (fun n => - M (lam + INR (S n))) 0.
Proof.
  intros H B e He. destruct (hh_cv (e / 256)) as [N HN]; [lra|]. exists N. intros n Hn. specialize (HN n Hn).
  unfold R_dist in *. rewrite Rminus_0_r in *. rewrite Rabs_Ropp.
  pose proof (lt_0_INR (S n) ltac:(lia)) as Hs. pose proof (hh_pos n) as Hh. rewrite Rabs_right in HN by lra.
  destruct (B (lam + INR (S n)) ltac:(lra)) as [B1 B2]. rewrite Rabs_right by lra.
  pose proof (M2_small (lam + INR (S n)) ltac:(lra)) as Sm.
  assert (M (lam + INR (S n)) * INR (S n) <= 256) by nra.
  assert (E : hh n * INR (S n) = 1) by (unfold hh; apply Rinv_l; lra).
  assert (M (lam + INR (S n)) <= 256 * hh n); [|lra].
  apply (Rmult_le_reg_r (INR (S n))); [exact Hs|]. rewrite Rmult_assoc, E. lra.
Qed.
Lemma M1_derive lam : 0 < lam -> is_derive M1 lam (- (/ 2 * exp (- sqrt lam))).
Proof.
  intros H. unfold M1. pose proof (sqrt_lt_R0 _ H). auto_derive; [auto|]. field. lra.
Qed.
Lemma M2_derive lam : 0 < lam -> is_derive M2 lam (- (/ 6 * M1 lam)).
Proof.
  intros H. unfold M2, M1. pose proof (sqrt_lt_R0 _ H). pose proof (sqrt_sqrt lam (Rlt_le _ _ H)) as SS. auto_derive; [auto|].
  remember (sqrt lam) as s. rewrite <- SS. field. lra.
Qed.
Lemma sqrt_cont a : 0 <= a -> continuity_pt sqrt a.
Proof. intros _. apply continuity_pt_filterlim, continuous_sqrt. Qed.
Lemma M1_cont a : 0 <= a -> continuity_pt M1 a.
Proof.
  intros H. unfold M1. apply (continuity_pt_mult (fun a => 1 + sqrt a) (fun a => exp (- sqrt a))).
  - apply (continuity_pt_plus (fun _ => 1) sqrt); [apply continuity_pt_const; intros ? ?; reflexivity|apply sqrt_cont, H].
  - apply (continuity_pt_comp (fun a => - sqrt a) exp); [apply (continuity_pt_opp sqrt), sqrt_cont, H|].
    apply derivable_continuous_pt, derivable_pt_exp.
Qed.
Lemma M2_cont a : 0 <= a -> continuity_pt M2 a.
Proof.
  intros H. unfold M2. apply (continuity_pt_mult (fun a => 1 + sqrt a + a / 3) (fun a => exp (- sqrt a))).
  - apply (continuity_pt_plus (fun a => 1 + sqrt a) (fun a => a / 3)).
    + apply (continuity_pt_plus (fun _ => 1) sqrt); [apply continuity_pt_const; intros ? ?; reflexivity|apply sqrt_cont, H].
    + apply derivable_continuous_pt. reg.
  - apply (continuity_pt_comp (fun a => - sqrt a) exp); [apply (continuity_pt_opp sqrt), sqrt_cont, H|].
    apply derivable_continuous_pt, derivable_pt_exp.
Qed.
Lemma exp_sqrt_anti a b : 0 <= a -> a <= b -> exp (- sqrt b) <= exp (- sqrt a).
Proof.
  intros Ha Hb. assert (sqrt a <= sqrt b) by (apply sqrt_le_1; lra).
  destruct (Req_dec (sqrt a) (sqrt b)) as [->|]; [lra|]. left. apply exp_increasing. lra.
Qed.
Lemma anti_of (F f : R -> R) a b : 0 <= a -> a <= b -> (forall t, 0 < t -> is_derive F t (- f t)) ->
  (forall t, 0 <= t -> continuity_pt F t) -> (forall t, 0 <= t -> 0 <= f t) -> F b <= F a.
Proof.
  intros Ha Hb D C P. destruct (MVT_gen F a b (fun t => - f t)) as [c [Hc E]].
  - intros t. rewrite Rmin_left by lra. intros; apply D; lra.
  - intros t. rewrite Rmin_left by lra. intros; apply C; lra.
  - rewrite Rmin_left in Hc by lra. specialize (P c ltac:(lra)). nra.
Qed.
Lemma M1_anti a b : 0 <= a -> a <= b -> M1 b <= M1 a.
Proof.
  intros Ha Hb. apply (anti_of M1 (fun t => / 2 * exp (- sqrt t))); auto using M1_derive, M1_cont.
  intros t _. pose proof (exp_pos (- sqrt t)). lra.
Qed.
Lemma M2_anti a b : 0 <= a -> a <= b -> M2 b <= M2 a.
Proof.
  intros Ha Hb. apply (anti_of M2 (fun t => / 6 * M1 t)); auto using M2_derive, M2_cont.
  intros t Ht. pose proof (M_pos t Ht). lra.
Qed.
(** Integrating a family h(p + v) over v keeps it a multiplier. *)
Lemma mult_tail {X} (p : X -> X -> R) (F f : R -> R) : (forall x y, 0 <= p x y) ->
  (forall t, 0 < t -> is_derive F t (- f t)) -> (forall t, 0 <= t -> continuity_pt F t) ->
  (forall a b, 0 <= a -> a <= b -> f b <= f a) -> (forall t, 0 <= t -> 0 <= f t) ->
  (forall lam, 0 <= lam -> Un_cv (fun n => - F (lam + INR (S n))) 0) ->
  (forall v, 0 <= v -> mult (fun x y => f (p x y + v))) -> mult (fun x y => F (p x y)).
Proof.
  intros P D C A N L M. apply (mult_lim (fun n x y => riemann (fun v => f (p x y + v)) n)).
  - intros x y. specialize (P x y). replace (F (p x y)) with (0 - - F (p x y + 0)) by (rewrite Rplus_0_r; ring).
    apply (riemann_cv (fun v => - F (p x y + v))).
    + intros u Hu. specialize (D (p x y + u) ltac:(lra)).
      assert (Q : is_derive (fun v => p x y + v) u 1) by (auto_derive; auto; ring).
      pose proof (is_derive_opp _ _ _ (is_derive_comp F (fun v => p x y + v) u _ _ D Q)) as G.
      replace (f (p x y + u)) with (opp (scal 1 (- f (p x y + u)))); [exact G|]. cbn. unfold mult; cbn. ring.
    + intros u Hu. apply (continuity_pt_opp (fun v => F (p x y + v))).
      apply (continuity_pt_comp (fun v => p x y + v) F); [apply derivable_continuous_pt; reg|apply C; lra].
    + intros u v Hu Hv. apply A; lra.
    + intros u Hu. apply N; lra.
    + apply L, P.
  - intros n. unfold riemann. apply (mult_rsum (fun k x y => hh n * f (p x y + INR (S k) * hh n))).
    intros i _. apply (mult_scal (hh n) (fun x y => f (p x y + INR (S i) * hh n))); [left; apply hh_pos|].
    apply M. apply Rmult_le_pos; [apply pos_INR|left; apply hh_pos].
Qed.
Lemma nt_shift {X} (p : X -> X -> R) v : 0 <= v -> neg_type p -> neg_type (fun x y => p x y + v).
Proof. intros Hv N. apply (nt_plus p (fun _ _ => v)); [exact N|apply nt_const, Hv]. Qed.
Lemma mult_M1 {X} (p : X -> X -> R) : (forall x y, 0 <= p x y) -> neg_type p -> mult (fun x y => M1 (p x y)).
Proof.
  intros P N. apply (mult_tail p M1 (fun t => / 2 * exp (- sqrt t))); auto using M1_derive, M1_cont.
  - intros a b Ha Hb. pose proof (exp_sqrt_anti a b Ha Hb). lra.
  - intros t _. pose proof (exp_pos (- sqrt t)). lra.
  - intros lam Hl. apply M_cv; auto. intros a Ha. apply M_pos, Ha.
  - intros v Hv. apply (mult_scal (/ 2) (fun x y => exp (- sqrt (p x y + v)))); [lra|].
    apply nt_mult, nt_sqrt; [intros x y; specialize (P x y); lra|]. apply nt_shift; auto.
Qed.
Lemma mult_M2 {X} (p : X -> X -> R) : (forall x y, 0 <= p x y) -> neg_type p -> mult (fun x y => M2 (p x y)).
Proof.
  intros P N. apply (mult_tail p M2 (fun t => / 6 * M1 t)); auto using M2_derive, M2_cont.
  - intros a b Ha Hb. pose proof (M1_anti a b Ha Hb). lra.
  - intros t Ht. pose proof (M_pos t Ht). lra.
  - intros lam Hl. apply M_cv; auto. intros a Ha. pose proof (M_pos a Ha). lra.
  - intros v Hv. apply (mult_scal (/ 6) (fun x y => M1 (p x y + v))); [lra|].
    apply (mult_M1 (fun x y => p x y + v)); [intros x y; specialize (P x y); lra|]. apply nt_shift; auto.
Qed.
(** the squared Euclidean distance of features *)
Lemma nt_sqdist {X} (f : nat -> X -> R) D : neg_type (fun x y => rsum (fun i => (f i x - f i y) ^ 2) D).
Proof. apply (nt_rsum (fun i x y => (f i x - f i y) ^ 2)). intros i _. apply nt_sqdiff. Qed.
Lemma sqdist_nonneg {X} (f : nat -> X -> R) D x y : 0 <= rsum (fun i => (f i x - f i y) ^ 2) D.
Proof. apply rsum_nonneg. intros. apply pow2_ge_0. Qed.
