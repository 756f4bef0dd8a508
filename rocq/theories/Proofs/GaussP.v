(** The standard normal distribution function exists: the Gaussian integral, by differentiating
    (int_0^t exp(-x^2/2))^2 / 2 + int_0^1 exp(-t^2 (1+x^2)/2) / (1+x^2). *)
From Coq Require Import Reals Lra Psatz.
From Coquelicot Require Import Coquelicot.
From Verif Require Import Spec.MetricsSpec Proofs.NormalP.
Local Open Scope R_scope.
Definition g (x : R) : R := exp (- x ^ 2 / 2).
Definition G (t : R) : R := RInt g 0 t.
Lemma g_derive x : is_derive g x (- x * g x).
Proof. unfold g. auto_derive; [trivial|]. change (x * (x * 1)) with (x ^ 2). replace (- x ^ 2 * / 2) with (- x ^ 2 / 2) by reflexivity. field. Qed.
Lemma g_cont x : continuous g x.
Proof. apply continuity_pt_filterlim. eapply der_cont. apply g_derive. Qed.
Lemma G_int a b : ex_RInt g a b.
Proof. apply (ex_RInt_continuous g). intros; apply g_cont. Qed.
Lemma G_derive t : is_derive G t (g t).
Proof. unfold G. apply (is_derive_RInt g (fun t => RInt g 0 t) 0); [|apply g_cont]. apply filter_forall. intros y. apply (RInt_correct g). apply G_int. Qed.
Definition h (t x : R) : R := exp (- t ^ 2 * (1 + x ^ 2) / 2) / (1 + x ^ 2).
Definition Hh (t : R) : R := RInt (h t) 0 1.
Lemma h_derive_x t x : ex_derive (h t) x.
Proof. unfold h. auto_derive. nra. Qed.
Lemma h_int t a b : ex_RInt (h t) a b.
Proof. apply (ex_RInt_continuous (h t)). intros z _. apply continuity_pt_filterlim. destruct (h_derive_x t z) as [l Hl]. eapply der_cont, Hl. Qed.
Lemma h_derive t x : is_derive (fun t => h t x) t (- t * (g t * g (t * x))).
Proof.
unfold h, g. rewrite <- exp_plus. auto_derive; [nra|]. 
replace (- t ^ 2 / 2 + - (t * x) ^ 2 / 2) with (- t ^ 2 * (1 + x ^ 2) / 2) by field.
change (x * (x * 1)) with (x ^ 2). change (t * (t * 1)) with (t ^ 2). change (- t ^ 2 * (1 + x ^ 2) * / 2) with (- t ^ 2 * (1 + x ^ 2) / 2). field. nra.
Qed.
Lemma c2d_comp1 (f : R -> R) (k : R -> R -> R) x y : (forall z, continuity_pt f z) -> continuity_2d_pt k x y -> continuity_2d_pt (fun a b => f (k a b)) x y.
Proof. intros F K. apply continuity_1d_2d_pt_comp; auto. Qed.
Lemma g_pt z : continuity_pt g z. Proof. eapply der_cont, g_derive. Qed.
Lemma Hh_derive t : is_derive Hh t (- g t * G t).
Proof.
assert (E : RInt (fun x => Derive (fun u => h u x) t) 0 1 = - g t * G t).
{ transitivity (RInt (fun x => - g t * (t * g (t * x + 0))) 0 1).
  { apply RInt_ext. intros x _. transitivity (- t * (g t * g (t * x))); [apply is_derive_unique, h_derive|]. rewrite Rplus_0_r.
    assert (K : (- t * (g t * g (t * x)) = - g t * (t * g (t * x)))%R) by ring. exact K. }
  transitivity (- g t * RInt (fun x => t * g (t * x + 0)) 0 1).
  { apply (RInt_scal (fun x => t * g (t * x + 0)) 0 1 (- g t)).
    apply (ex_RInt_continuous (fun x => t * g (t * x + 0))). intros z _. apply continuity_pt_filterlim. eapply (der_cont (fun x => t * g (t * x + 0)) z).
    unfold g. auto_derive; [trivial|reflexivity]. }
  f_equal. unfold G. transitivity (RInt g (t * 0 + 0) (t * 1 + 0)); [|f_equal; ring].
  apply (RInt_comp_lin g t 0 0 1). apply G_int. }
rewrite <- E. unfold Hh. apply is_derive_RInt_param.
- apply filter_forall. intros y x _. eexists. apply h_derive.
- intros x _. apply (continuity_2d_pt_ext (fun u v => - u * (g u * g (u * v)))).
  + intros u v. symmetry. apply is_derive_unique, h_derive.
  + apply continuity_2d_pt_mult; [apply continuity_2d_pt_opp, continuity_2d_pt_id1|].
    apply continuity_2d_pt_mult; apply c2d_comp1; try (intros; apply g_pt); [apply continuity_2d_pt_id1|].
    apply continuity_2d_pt_mult; [apply continuity_2d_pt_id1|apply continuity_2d_pt_id2].
- apply filter_forall. intros y. apply h_int.
Qed.
Lemma Hh_0 : Hh 0 = PI / 4.
Proof.
unfold Hh. rewrite (RInt_ext _ (fun x => / (1 + x ^ 2))).
2:{ intros x _. unfold h. replace (- 0 ^ 2 * (1 + x ^ 2) / 2) with 0 by field. rewrite exp_0. apply Rmult_1_l. }
apply is_RInt_unique. replace (PI / 4) with (minus (atan 1) (atan 0)) by (rewrite atan_0, atan_1; unfold minus, plus, opp; cbn; ring).
apply (is_RInt_derive atan (fun x => / (1 + x ^ 2))).
- intros x _. apply is_derive_Reals. apply derivable_pt_lim_atan.
- intros x _. apply continuity_pt_filterlim. eapply (der_cont (fun x => / (1 + x ^ 2)) x). auto_derive; [nra|reflexivity].
Qed.
Lemma G_0 : G 0 = 0. Proof. apply (RInt_point 0 g). Qed.
Lemma gauss_id t : G t ^ 2 = PI / 2 - 2 * Hh t.
Proof.
assert (C : G t ^ 2 / 2 + Hh t = G 0 ^ 2 / 2 + Hh 0).
{ apply (const_of_derive (fun t => G t ^ 2 / 2 + Hh t)). intros z.
  evar_last. { apply (is_derive_plus (fun t => G t ^ 2 / 2) Hh z (G z * g z) (- g z * G z)); [|apply Hh_derive].
    evar_last. { apply (is_derive_ext (fun t => scal (/2) (G t ^ 2))). intros; unfold scal; cbn; unfold mult; cbn; field.
      apply (is_derive_scal (fun t => G t ^ 2)). apply (is_derive_pow G 2). apply G_derive. }
    cbn. field. }
  unfold plus; cbn. ring. }
rewrite Hh_0 in C. rewrite G_0 in C. lra.
Qed.
Lemma Hh_bound t : 0 <= Hh t <= g t.
Proof.
assert (P : forall x, 0 <= h t x <= g t).
{ intros x. unfold h, g. assert (0 < 1 + x ^ 2) by nra. split; [apply Rlt_le, Rdiv_lt_0_compat; [apply exp_pos|assumption]|].
  apply Rle_trans with (exp (- t ^ 2 * (1 + x ^ 2) / 2)).
  - pose proof (exp_pos (- t ^ 2 * (1 + x ^ 2) / 2)). apply (Rmult_le_reg_r (1 + x ^ 2)); [assumption|]. unfold Rdiv at 1. rewrite Rmult_assoc, Rinv_l by lra. nra.
  - destruct (Req_dec (- t ^ 2 * (1 + x ^ 2) / 2) (- t ^ 2 / 2)) as [->|N]; [lra|]. left. apply exp_increasing.
    assert (0 <= t ^ 2 * x ^ 2) by (apply Rmult_le_pos; nra). lra. }
unfold Hh. split.
- apply RInt_ge_0; [lra|apply h_int|]. intros; apply P.
- replace (g t) with (RInt (fun _ => g t) 0 1) by (rewrite RInt_const; unfold scal; cbn; unfold mult; cbn; ring).
  apply RInt_le; [lra|apply h_int|apply ex_RInt_const|]. intros; apply P.
Qed.
Lemma G_odd t : G (- t) = - G t.
Proof.
assert (C : G (- t) + G t = G (- 0) + G 0).
{ apply (const_of_derive (fun t => G (- t) + G t)). intros z. evar_last. { apply (is_derive_plus (fun t => G (- t)) G z (- g z) (g z)); [|apply G_derive].
    evar_last. { apply (is_derive_comp G Ropp); [apply G_derive|]. apply (is_derive_opp (fun x => x) z 1). apply (is_derive_id z). }
    unfold scal; cbn; unfold mult, opp; cbn. replace (g (- z)) with (g z) by (unfold g; f_equal; field). unfold one; cbn. ring. }
  unfold plus; cbn; ring. }
rewrite Ropp_0, G_0 in C. lra.
Qed.
Lemma G_pos t : 0 <= t -> 0 <= G t.
Proof. intros T. apply RInt_ge_0; [assumption|apply G_int|]. intros; unfold g; left; apply exp_pos. Qed.
Definition std_cdf (t : R) : R := 1 / 2 + G t / sqrt (2 * PI).
Lemma g_small t : 0 < t -> g t <= 2 / t ^ 2.
Proof.
intros T. unfold g. replace (- t ^ 2 / 2) with (- (t ^ 2 / 2)) by field. rewrite exp_Ropp. assert (0 < t ^ 2) by nra.
replace (2 / t ^ 2) with (/ (t ^ 2 / 2)) by (field; lra). apply Rinv_le_contravar; [lra|]. pose proof (exp_ineq1 (t ^ 2 / 2) ltac:(lra)). lra.
Qed.
Lemma G_lim t : 1 <= t -> Rabs (std_cdf t - 1) <= 2 / t.
Proof.
intros T. set (s := sqrt (2 * PI)). assert (S : 0 < s) by apply s2pi. assert (S2 : s ^ 2 = 2 * PI) by (unfold s; rewrite <- Rsqr_pow2; apply Rsqr_sqrt; pose proof PI_RGT_0; lra).
pose proof (gauss_id t) as I. pose proof (Hh_bound t) as B. pose proof (G_pos t ltac:(lra)) as P. pose proof (g_small t ltac:(lra)) as Gs.
assert (PI3 : 3 < PI) by (pose proof PI2_3_2; lra).
unfold std_cdf. fold s. set (u := G t / s). assert (Gu : G t = u * s) by (unfold u; field; lra). assert (U : 0 <= u) by (unfold u; apply Rmult_le_pos; [assumption|left; apply Rinv_0_lt_compat; assumption]).
rewrite Gu in I. replace ((u * s) ^ 2) with (u ^ 2 * s ^ 2) in I by ring. rewrite S2 in I.
assert (E : 2 * PI * (1 / 2 - u) * (1 / 2 + u) = 2 * Hh t) by lra.
assert (U2 : u <= 1 / 2). { destruct (Rle_lt_dec u (1 / 2)); [assumption|]. assert (0 < 2 * PI * (u - 1 / 2) * (1 / 2 + u)) by (apply Rmult_lt_0_compat; [apply Rmult_lt_0_compat|]; lra). lra. }
assert (2 / t ^ 2 <= 1 / t * 2). { replace (1 / t * 2) with (2 * (/ t)) by (field; lra). unfold Rdiv. apply Rmult_le_compat_l; [lra|]. apply Rinv_le_contravar; nra. }
assert (E3 : 1 / 2 - u <= 2 / t).
{ assert (PH : 2 * PI * (1 / 2 - u) * (1 / 2 + u) >= PI * (1 / 2 - u)).
  { assert (0 <= 2 * PI * (1 / 2 - u) * u) by (apply Rmult_le_pos; [apply Rmult_le_pos|]; lra). lra. }
  assert (3 * (1 / 2 - u) <= PI * (1 / 2 - u)) by (apply Rmult_le_compat_r; lra). assert (3 * (1 / 2 - u) <= 2 * (2 / t)) by (unfold Rdiv in *; lra).
  assert (0 < 2 / t) by (apply Rdiv_lt_0_compat; lra). lra. }
rewrite Rabs_left1; lra.
Qed.
Lemma std_cdf_sym t : std_cdf (- t) = 1 - std_cdf t.
Proof. unfold std_cdf. rewrite G_odd. unfold Rdiv. ring_simplify. lra. Qed.
Theorem std_normal : normal_cdf std_cdf.
Proof.
split; [|split].
- intros z. apply is_derive_Reals. unfold std_cdf. evar_last.
  { apply (is_derive_plus (fun _ => 1 / 2) (fun t => G t / sqrt (2 * PI)) z 0 (g z / sqrt (2 * PI))); [apply (is_derive_const (1/2) z)|].
    apply (is_derive_ext (fun t => scal (/ sqrt (2 * PI)) (G t))). intros; unfold scal; cbn; unfold mult; cbn. unfold Rdiv. ring.
    evar_last. apply (is_derive_scal G). apply G_derive. unfold Rdiv. ring. }
  unfold plus; cbn. unfold normal_pdf, g. ring.
- intros eps E. exists (Rmax 1 (2 / eps)). intros z Hz. pose proof (Rmax_l 1 (2 / eps)). pose proof (Rmax_r 1 (2 / eps)).
  replace (std_cdf z) with (- (std_cdf (- z) - 1)) by (rewrite std_cdf_sym; ring). rewrite Rabs_Ropp.
  apply Rle_lt_trans with (2 / (- z)); [apply G_lim; lra|]. apply (Rmult_lt_reg_r (- z)); [lra|]. replace (2 / - z * - z) with 2 by (field; lra).
  assert (eps * (2 / eps) < eps * - z) by (apply Rmult_lt_compat_l; lra). replace (eps * (2 / eps)) with 2 in * by (field; lra). lra.
- intros eps E. exists (Rmax 1 (2 / eps)). intros z Hz. pose proof (Rmax_l 1 (2 / eps)). pose proof (Rmax_r 1 (2 / eps)).
  apply Rle_lt_trans with (2 / z); [apply G_lim; lra|]. apply (Rmult_lt_reg_r z); [lra|]. replace (2 / z * z) with 2 by (field; lra).
  assert (eps * (2 / eps) < eps * z) by (apply Rmult_lt_compat_l; lra). replace (eps * (2 / eps)) with 2 in * by (field; lra). lra.
Qed.
(** and so does its quantile function *)
Theorem std_quantile : exists ppf, quantile std_cdf ppf.
Proof.
pose proof std_normal as H. destruct H as [_ [L R]].
assert (K : forall p, 0 < p < 1 -> bound (fun z => std_cdf z <= p) /\ exists z, std_cdf z <= p).
{ intros p P. split.
  - destruct (R (1 - p) ltac:(lra)) as [B HB]. exists (B + 1). intros z Hz. destruct (Rle_lt_dec z (B + 1)); [assumption|]. specialize (HB z ltac:(lra)). apply Rabs_def2 in HB. lra.
  - destruct (L p ltac:(lra)) as [B HB]. exists (- B - 1). specialize (HB (- B - 1) ltac:(lra)). apply Rabs_def2 in HB. lra. }
exists (fun p => match Rlt_dec 0 p with left a => match Rlt_dec p 1 with left b => proj1_sig (completeness _ (proj1 (K p (conj a b))) (proj2 (K p (conj a b)))) | _ => 0 end | _ => 0 end).
intros p [P0 P1]. destruct (Rlt_dec 0 p) as [a|]; [|contradiction]. destruct (Rlt_dec p 1) as [b|]; [|contradiction].
destruct completeness as [m [U M]]. cbn. clear K.
pose proof (Phi_cont std_cdf std_normal m) as C.
destruct (Rtotal_order (std_cdf m) p) as [Lt|[E|Gt]]; [|exact E|]; exfalso.
- destruct (C (p - std_cdf m) ltac:(lra)) as [d [D0 D]]. specialize (D (m + d / 2)).
  assert (I : D_x no_cond m (m + d / 2) /\ R_dist (m + d / 2) m < d). { split; [split; [exact Logic.I|lra]|]. unfold R_dist. replace (m + d / 2 - m) with (d / 2) by ring. rewrite Rabs_pos_eq; lra. }
  specialize (D I). cbn in D. unfold R_dist in D. apply Rabs_def2 in D. specialize (U (m + d / 2)). cbn in U. lra.
- destruct (C (std_cdf m - p) ltac:(lra)) as [d [D0 D]].
  assert (U' : is_upper_bound (fun z => std_cdf z <= p) (m - d / 2)).
  { intros z Hz. destruct (Rle_lt_dec z (m - d / 2)); [assumption|]. pose proof (U z Hz). destruct (Req_dec z m) as [->|N]; [lra|].
    specialize (D z). assert (I : D_x no_cond m z /\ R_dist z m < d). { split; [split; [exact Logic.I|auto]|]. unfold R_dist. rewrite Rabs_left1; lra. }
    specialize (D I). cbn in D. unfold R_dist in D. apply Rabs_def2 in D. lra. }
  specialize (M _ U'). lra.
Qed.
