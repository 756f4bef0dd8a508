From Coq Require Import Reals Lra Lia.
From Coquelicot Require Import Coquelicot.
From Verif Require Import Model.Prelude Model.Kernels Model.BO Model.Surrogate Spec.Sums Spec.MetricsSpec Spec.SurrogateSpec.
From Coq Require Import Permutation Sorted.
From Verif Require Import Spec.GGMPFitSpec.
From Verif Require Import Proofs.KernelPsdP Proofs.KernelGradP Proofs.NormalP.
Local Open Scope R_scope.

(** ** Matern-5/2 as a function of the squared distance, continued below zero *)
Definition M2e (lam : R) : R := if Rlt_dec lam 0 then 1 - lam / 6 else M2 lam.
Lemma M1_neg lam : lam <= 0 -> M1 lam = 1.
Proof. intros H. unfold M1. rewrite sqrt_neg_0 by lra. rewrite Ropp_0, exp_0. ring. Qed.
Lemma M2_0 : M2 0 = 1.
Proof. unfold M2. rewrite sqrt_0, Ropp_0, exp_0. field. Qed.
Lemma M2e_derive lam : derivable_pt_lim M2e lam (- (/ 6 * M1 lam)).
Proof.
  destruct (Rtotal_order lam 0) as [N|[->|P]].
  - rewrite M1_neg by lra. intros e He.
    assert (D : derivable_pt_lim (fun t => 1 - t / 6) lam (- (/ 6 * 1))) by (apply is_derive_Reals; auto_derive; auto; field).
    destruct (D e He) as [d Hd]. assert (Q : 0 < Rmin d (- lam / 2)) by (apply Rmin_pos; [apply cond_pos|lra]).
    exists (mkposreal _ Q). cbn. intros h H0 Hh. eapply Rle_lt_trans; [|apply (Hd h H0); eapply Rlt_le_trans; [exact Hh|apply Rmin_l]].
    assert (Rabs h < - lam / 2) as B by (eapply Rlt_le_trans; [exact Hh|apply Rmin_r]). apply Rabs_def2 in B.
    unfold M2e. destruct (Rlt_dec (lam + h) 0); [|lra]. destruct (Rlt_dec lam 0); [|lra]. right. reflexivity.
  - rewrite M1_neg by lra. intros e He.
    assert (C : continuity_pt M1 0) by (apply M1_cont; lra).
    destruct (C e He) as [d [Hd C']].
    exists (mkposreal _ Hd). cbn. intros h H0 Hh. unfold M2e at 2. destruct (Rlt_dec 0 0); [lra|]. rewrite M2_0, Rplus_0_l.
    unfold M2e. destruct (Rlt_dec h 0).
    + replace ((1 - h / 6 - 1) / h - - (/ 6 * 1)) with 0 by (field; lra). rewrite Rabs_R0. exact He.
    + destruct (MVT_gen M2 0 h (fun t => - (/ 6 * M1 t))) as [c [Hc E]].
      * intros t. rewrite Rmin_left, Rmax_right by lra. intros; apply M2_derive; lra.
      * intros t. rewrite Rmin_left, Rmax_right by lra. intros; apply M2_cont; lra.
      * rewrite Rmin_left, Rmax_right in Hc by lra. rewrite M2_0 in E. rewrite E.
        replace (- (/ 6 * M1 c) * (h - 0) / h - - (/ 6 * 1)) with (- / 6 * (M1 c - 1)) by (field; lra).
        rewrite Rabs_mult, Rabs_Ropp, Rabs_right by lra.
        destruct (Req_dec c 0) as [->|Hn]. { rewrite (M1_neg 0) by lra. rewrite Rminus_eq_0, Rabs_R0. lra. }
        specialize (C' c). cbn in C'. unfold R_dist in C'. rewrite (M1_neg 0), Rminus_0_r in C' by lra.
        assert (Rabs (M1 c - 1) < e). { apply C'. split; [unfold D_x, no_cond; auto|]. rewrite Rabs_right in * by lra. lra. }
        pose proof (Rabs_pos (M1 c - 1)). lra.
  - apply is_derive_Reals. apply (is_derive_ext_loc M2); [|apply M2_derive, P].
    exists (mkposreal _ P). intros t Ht. cbn in Ht. unfold ball in Ht. cbn in Ht. unfold AbsRing_ball, abs, minus, plus, opp in Ht. cbn in Ht.
    apply Rabs_def2 in Ht. unfold M2e. destruct (Rlt_dec t 0); [lra|reflexivity].
Qed.
Definition sqd (D : nat) (x y : point) (hps : nat -> R) : R := rsum (fun i => ((x i - y i) / hps (S i)) ^ 2) D.
Lemma sqd_nonneg D x y hps : 0 <= sqd D x y hps.
Proof. apply rsum_nonneg. intros. apply pow2_ge_0. Qed.
Lemma sqrt5q q : 0 <= q -> sqrt (5 * q) = sqrt 5 * sqrt q.
Proof. intros. apply sqrt_mult; lra. Qed.
Lemma kernel_M2e D x y hps : surrogate_kernel D x y hps = hps O * M2e (5 * sqd D x y hps).
Proof.
  unfold surrogate_kernel, matern2, aniso_distance, M2e. pose proof (sqd_nonneg D x y hps) as N.
  destruct (Rlt_dec (5 * sqd D x y hps) 0); [lra|]. unfold M2. rewrite sqrt5q by exact N.
  rewrite (rsum_ext _ (fun i => ((x i - y i) / hps (S i)) ^ 2)) by (intros; apply sqa).
  change (rsum (fun i => ((x i - y i) / hps (S i)) ^ 2) D) with (sqd D x y hps).
  rewrite (pow2_sqrt _ N).
  f_equal. replace (- (sqrt 5 * sqrt (sqd D x y hps)) / 1) with (- (sqrt 5 * sqrt (sqd D x y hps))) by field. f_equal. field.
Qed.
Lemma M1_5q q : 0 <= q -> M1 (5 * q) = (1 + sqrt 5 * sqrt q) * exp (- sqrt 5 * sqrt q).
Proof. intros H. unfold M1. rewrite sqrt5q by exact H. f_equal. f_equal. ring. Qed.
Lemma comp_M2e (q : R -> R) (dq : R) x0 s : derivable_pt_lim q x0 dq ->
  derivable_pt_lim (fun t => s * M2e (5 * q t)) x0 (- (5 / 6) * s * M1 (5 * q x0) * dq).
Proof.
  intros H.
  replace (- (5 / 6) * s * M1 (5 * q x0) * dq) with (s * ((- (/ 6 * M1 (5 * q x0))) * (5 * dq))) by field.
  apply (derivable_pt_lim_scal (fun t => M2e (5 * q t))).
  apply (derivable_pt_lim_comp (fun t => 5 * q t) M2e); [|apply M2e_derive].
  apply (derivable_pt_lim_scal q). exact H.
Qed.

(** ** Derivatives of the kernel *)
Lemma sqd_sym D x y hps : sqd D x y hps = sqd D y x hps.
Proof. apply rsum_ext. intros. unfold Rdiv. ring. Qed.
Lemma sqd_ext D x y x' y' hps : (forall i, x i = x' i) -> (forall i, y i = y' i) -> sqd D x y hps = sqd D x' y' hps.
Proof. intros H H'. apply rsum_ext. intros. rewrite H, H'. reflexivity. Qed.
Lemma kernel_sym D x y hps : surrogate_kernel D x y hps = surrogate_kernel D y x hps.
Proof. rewrite !kernel_M2e, sqd_sym. reflexivity. Qed.
Lemma moved_0 u v i : moved u v 0 i = u i. Proof. unfold moved. ring. Qed.
Lemma dpl_eq f x l l' : l = l' -> derivable_pt_lim f x l -> derivable_pt_lim f x l'.
Proof. intros ->. auto. Qed.
Lemma rsum_scal_r c f n : rsum (fun i => f i * c) n = rsum f n * c.
Proof. rewrite (rsum_ext _ (fun i => c * f i)) by (intros; ring). rewrite rsum_scal. ring. Qed.
Lemma kernel_dx_l D x u hps : (forall i, (i < D)%nat -> hps (S i) <> 0) ->
  gradient_at D (fun u => surrogate_kernel D x u hps) u (surrogate_dx D u x hps).
Proof.
  intros H v. apply (dpl_ext (fun t => hps O * M2e (5 * sqd D (moved u v t) x hps))).
  { intros t. rewrite kernel_M2e, sqd_sym. reflexivity. }
  eapply dpl_eq; [|apply (comp_M2e (fun t => sqd D (moved u v t) x hps) (rsum (fun i => 2 * (u i - x i) * v i / hps (S i) ^ 2) D))].
  - rewrite (sqd_ext D (moved u v 0) x u x) by (intros; auto using moved_0). rewrite M1_5q by apply sqd_nonneg.
    unfold surrogate_dx. fold (sqd D u x hps). rewrite <- rsum_scal. apply rsum_ext. intros i Hi. field. apply H, Hi.
  - apply rsum_derive. intros i Hi. unfold moved. apply is_derive_Reals. specialize (H i Hi). auto_derive; [auto|]. field. exact H.
Qed.
Lemma grad_past D x y hps k : (D < k)%nat -> surrogate_grad D x y hps k = 0.
Proof. intros H. unfold surrogate_grad. destruct k; [lia|]. destruct (Nat.ltb_spec k D); [lia|reflexivity]. Qed.
Lemma kernel_grad_l D m x y hps : (D < m)%nat -> (forall i, (i < D)%nat -> hps (S i) <> 0) ->
  gradient_at m (fun h => surrogate_kernel D x y h) hps (surrogate_grad D x y hps).
Proof.
  intros Hm H v. apply (dpl_ext (fun t => moved hps v t O * M2e (5 * sqd D x y (moved hps v t)))).
  { intros t. rewrite kernel_M2e. reflexivity. }
  set (q := fun t => sqd D x y (moved hps v t)).
  set (dq := rsum (fun i => - 2 * (x i - y i) ^ 2 * v (S i) / hps (S i) ^ 3) D).
  assert (Q0 : q 0 = sqd D x y hps) by (apply rsum_ext; intros; unfold moved; rewrite Rmult_0_l, Rplus_0_r; reflexivity).
  assert (Q : derivable_pt_lim q 0 dq).
  { apply rsum_derive. intros i Hi. unfold moved. specialize (H i Hi). apply is_derive_Reals. auto_derive; [rewrite Rmult_0_l, Rplus_0_r; exact H|].
    rewrite Rmult_0_l, Rplus_0_r. field. exact H. }
  pose proof (comp_M2e q dq 0 1 Q) as C.
  eapply dpl_eq; [|apply (derivable_pt_lim_mult (fun t => moved hps v t O) (fun t => M2e (5 * q t)) 0 (v O) (- (5 / 6) * 1 * M1 (5 * q 0) * dq))].
  - rewrite Q0, moved_0.
    assert (T : rsum (fun i => surrogate_grad D x y hps i * v i) m = rsum (fun i => surrogate_grad D x y hps i * v i) (S D)).
    { clear - Hm. induction Hm as [|m Hm IH]; [reflexivity|]. cbn [rsum] in *. rewrite IH, (grad_past D x y hps m) by lia. ring. }
    rewrite T. clear T.
    assert (T : forall f n, rsum f (S n) = f O + rsum (fun i => f (S i)) n).
    { intros f n. induction n; cbn [rsum] in *; [ring|]. rewrite IHn. ring. }
    rewrite T. unfold surrogate_grad at 1. fold (sqd D x y hps).
    rewrite (rsum_ext _ (fun i => (5 / 3 * hps O * M1 (5 * sqd D x y hps)) * ((x i - y i) ^ 2 * v (S i) / hps (S i) ^ 3))).
    2:{ intros i Hi. unfold surrogate_grad. destruct (Nat.ltb_spec i D); [|lia]. fold (sqd D x y hps).
        rewrite M1_5q by apply sqd_nonneg. field. apply H, Hi. }
    rewrite rsum_scal. unfold dq. rewrite (rsum_ext (fun i => - 2 * (x i - y i) ^ 2 * v (S i) / hps (S i) ^ 3)
      (fun i => (- 2) * ((x i - y i) ^ 2 * v (S i) / hps (S i) ^ 3))) by (intros; unfold Rdiv; ring).
    rewrite rsum_scal.
    assert (E : M2e (5 * sqd D x y hps) = (1 + sqrt 5 * sqrt (sqd D x y hps) + 5 / 3 * sqrt (sqd D x y hps) ^ 2) * exp (- sqrt 5 * sqrt (sqd D x y hps))).
    { pose proof (sqd_nonneg D x y hps) as N. unfold M2e. destruct (Rlt_dec (5 * sqd D x y hps) 0); [lra|]. unfold M2.
      rewrite (sqrt5q _ N), (pow2_sqrt _ N). replace (- (sqrt 5 * sqrt (sqd D x y hps))) with (- sqrt 5 * sqrt (sqd D x y hps)) by ring.
      apply Rmult_eq_compat_r. field. }
    rewrite E. field.
  - unfold moved. apply is_derive_Reals. auto_derive; [auto|ring].
  - apply (dpl_ext (fun t => 1 * M2e (5 * q t))); [intros; ring|exact C].
Qed.

(** ** The mean *)
Lemma rsum_shift f n : rsum f (S n) = f O + rsum (fun i => f (S i)) n.
Proof. induction n; cbn [rsum] in *; [ring|]. rewrite IHn. ring. Qed.
Lemma rsum_split f n m : rsum f (n + m) = rsum f n + rsum (fun i => f (n + i)%nat) m.
Proof. induction m; [rewrite Nat.add_0_r; cbn; ring|]. rewrite Nat.add_succ_r. cbn. rewrite IHm. ring. Qed.
Lemma poly_mean_eq D c x : poly_mean D c x = c O + rsum (fun i => c (1 + i)%nat * x i + c (1 + D + i)%nat * x i ^ 2) D.
Proof.
  unfold poly_mean, n_coef. replace (1 + 2 * D)%nat with (S (D + D)) by lia. rewrite rsum_shift. cbn [design_row]. rewrite Rmult_1_l. f_equal.
  rewrite rsum_split, <- rsum_plus. apply rsum_ext. intros i Hi.
  destruct (Nat.ltb_spec i D); [|lia]. destruct (Nat.ltb_spec (D + i) D); [lia|]. replace (D + i - D)%nat with i by lia. cbn. ring.
Qed.
Lemma poly_mean_grad_l D c u : gradient_at D (poly_mean D c) u (poly_mean_dx D (Some c) u).
Proof.
  intros v. apply (dpl_ext (fun t => c O + rsum (fun i => c (1 + i)%nat * moved u v t i + c (1 + D + i)%nat * moved u v t i ^ 2) D)).
  { intros t. symmetry. apply poly_mean_eq. }
  eapply dpl_eq; [|apply (derivable_pt_lim_plus (fun _ => c O) _ 0 0); [apply derivable_pt_lim_const|apply (rsum_derive _ (fun i => poly_mean_dx D (Some c) u i * v i))]].
  - ring.
  - intros i Hi. unfold moved, poly_mean_dx. apply is_derive_Reals. auto_derive; [auto|]. cbn. ring.
Qed.

(** ** The posterior *)
Lemma rsum_delta f n i : (i < n)%nat -> rsum (fun k => f k * (if Nat.eqb i k then 1 else 0)) n = f i.
Proof.
  intros H. rewrite (rsum_single _ n i H), Nat.eqb_refl. rewrite (rsum_ext _ (fun _ => 0)), rsum_const; [ring|].
  intros k Hk. rewrite (Nat.eqb_sym i k). destruct (Nat.eqb k i); ring.
Qed.
Lemma inverse_sym n P K : inverse_of n P K -> (forall i j, K i j = K j i) -> forall i j, (i < n)%nat -> (j < n)%nat -> P i j = P j i.
Proof.
  intros I S0 i j Hi Hj.
  assert (E : rsum (fun k => P i k * rsum (fun l => K k l * P j l) n) n = P i j).
  { rewrite <- (rsum_delta (fun k => P i k) n j Hj). apply rsum_ext. intros k Hk. f_equal.
    rewrite <- (I j k Hj Hk). apply rsum_ext. intros l Hl. rewrite (S0 k l). ring. }
  rewrite <- E. rewrite (rsum_ext _ (fun k => rsum (fun l => P i k * (K k l * P j l)) n)) by (intros; rewrite rsum_scal; reflexivity).
  rewrite rsum_swap. rewrite <- (rsum_delta (fun l => P j l) n i Hi). apply rsum_ext. intros l Hl.
  rewrite <- (I i l Hi Hl), <- rsum_scal. apply rsum_ext. intros. ring.
Qed.
Definition raw_var (g : surrogate) (u : point) : R := s_hps g O - rsum (fun a => cross g u a * kv_solve g (cross g u) a) (s_n g).
Definition shown_prior (g : surrogate) (u : point) : R := match s_coef g with None => 0 | Some c => poly_mean (s_dim g) c u end.
Definition shown_mean (g : surrogate) (u : point) : R := shown_prior g u + rsum (fun a => cross g u a * kvinv_y g a) (s_n g).
Definition sdk (g : surrogate) (u : point) (i a : nat) : R := surrogate_dx (s_dim g) u (s_x g a) (s_hps g) i.
Definition shown_dmean (g : surrogate) (u : point) (i : nat) : R :=
  poly_mean_dx (s_dim g) (s_coef g) u i + rsum (fun a => sdk g u i a * kvinv_y g a) (s_n g).
Definition shown_dvar (g : surrogate) (u : point) (i : nat) : R := - 2 * rsum (fun a => sdk g u i a * kv_solve g (cross g u) a) (s_n g).
Lemma post_eq g u : post g u = if Rle_dec (raw_var g u) (var_floor g) then (shown_mean g u, var_floor g, shown_dmean g u, fun _ => 0)
  else (shown_mean g u, raw_var g u, shown_dmean g u, shown_dvar g u).
Proof. reflexivity. Qed.
Lemma cross_ext g u u' a : (forall i, u i = u' i) -> cross g u a = cross g u' a.
Proof. intros H. unfold cross. rewrite !kernel_M2e. rewrite (sqd_ext _ (s_x g a) u (s_x g a) u'); auto. Qed.
Lemma cross_grad g u a : (forall i, (i < s_dim g)%nat -> s_hps g (S i) <> 0) ->
  gradient_at (s_dim g) (fun u => cross g u a) u (fun i => sdk g u i a).
Proof. intros H. apply kernel_dx_l. exact H. Qed.
Lemma mean_grad_l g u : (forall i, (i < s_dim g)%nat -> s_hps g (S i) <> 0) ->
  gradient_at (s_dim g) (shown_mean g) u (shown_dmean g u).
Proof.
  intros H v. unfold shown_mean.
  eapply dpl_eq; [|apply (derivable_pt_lim_plus _ _ 0 (rsum (fun i => poly_mean_dx (s_dim g) (s_coef g) u i * v i) (s_dim g))
     (rsum (fun a => rsum (fun i => sdk g u i a * v i) (s_dim g) * kvinv_y g a) (s_n g)))].
  - unfold shown_dmean. rewrite (rsum_ext (fun i => (_ + _) * _) (fun i => poly_mean_dx (s_dim g) (s_coef g) u i * v i + rsum (fun a => sdk g u i a * kvinv_y g a * v i) (s_n g)))
      by (intros; rewrite rsum_scal_r; ring).
    rewrite rsum_plus, rsum_swap. f_equal. apply rsum_ext. intros a _. rewrite <- rsum_scal_r. apply rsum_ext. intros; ring.
  - unfold shown_prior. destruct (s_coef g) as [c|]; [apply poly_mean_grad_l|]. cbn.
    eapply dpl_eq; [|apply derivable_pt_lim_const]. rewrite (rsum_ext _ (fun _ => 0)) by (intros; ring). rewrite rsum_const. ring.
  - apply (rsum_derive (fun a t => cross g (moved u v t) a * kvinv_y g a)). intros a _.
    eapply dpl_eq; [|apply (derivable_pt_lim_mult (fun t => cross g (moved u v t) a) (fun _ => kvinv_y g a) 0); [apply (cross_grad g u a H v)|apply derivable_pt_lim_const]].
    cbn. ring.
Qed.
Lemma var_grad_l g u : (forall i, (i < s_dim g)%nat -> s_hps g (S i) <> 0) ->
  (forall a b, (a < s_n g)%nat -> (b < s_n g)%nat -> s_inv g a b = s_inv g b a) ->
  gradient_at (s_dim g) (raw_var g) u (shown_dvar g u).
Proof.
  intros H Y v. unfold raw_var, kv_solve. set (n := s_n g) in *. set (D := s_dim g) in *.
  set (k' := fun a => rsum (fun i => sdk g u i a * v i) D).
  assert (C : forall a, derivable_pt_lim (fun t => cross g (moved u v t) a) 0 (k' a)) by (intros a; apply (cross_grad g u a H v)).
  assert (C0 : forall a, cross g (moved u v 0) a = cross g u a) by (intros; apply cross_ext; apply moved_0).
  eapply dpl_eq; [|apply (derivable_pt_lim_minus (fun _ => s_hps g O) _ 0 0 (rsum (fun a => k' a * kv_solve g (cross g u) a + cross g u a * kv_solve g k' a) n));
    [apply derivable_pt_lim_const|apply (rsum_derive (fun a t => cross g (moved u v t) a * rsum (fun c => s_inv g a c * cross g (moved u v t) c) n))]].
  - rewrite rsum_plus. unfold shown_dvar.
    assert (E : rsum (fun a => cross g u a * kv_solve g k' a) n = rsum (fun a => k' a * kv_solve g (cross g u) a) n).
    { unfold kv_solve. fold n. rewrite (rsum_ext _ (fun a => rsum (fun c => cross g u a * (s_inv g a c * k' c)) n)) by (intros; rewrite rsum_scal; reflexivity).
      rewrite rsum_swap. apply rsum_ext. intros c Hc. rewrite <- rsum_scal. apply rsum_ext. intros a Ha. rewrite (Y a c Ha Hc). ring. }
    rewrite E. unfold k'.
    rewrite (rsum_ext (fun a => rsum (fun i => sdk g u i a * v i) D * kv_solve g (cross g u) a) (fun a => rsum (fun i => sdk g u i a * v i * kv_solve g (cross g u) a) D))
      by (intros; rewrite rsum_scal_r; reflexivity).
    rewrite rsum_swap. fold n. rewrite (rsum_ext (fun i => -2 * _ * v i) (fun i => -2 * rsum (fun a => sdk g u i a * v i * kv_solve g (cross g u) a) n)).
    + rewrite rsum_scal. ring.
    + intros i _. rewrite Rmult_assoc. f_equal. rewrite <- rsum_scal_r. apply rsum_ext. intros; ring.
  - intros a _. rewrite <- (C0 a).
    assert (S0 : kv_solve g (cross g u) a = rsum (fun c => s_inv g a c * cross g (moved u v 0) c) n) by (apply rsum_ext; intros; rewrite C0; reflexivity).
    rewrite S0.
    apply (derivable_pt_lim_mult (fun t => cross g (moved u v t) a) (fun t => rsum (fun c => s_inv g a c * cross g (moved u v t) c) n)); [apply C|].
    apply (rsum_derive (fun c t => s_inv g a c * cross g (moved u v t) c)). intros c _.
    apply (derivable_pt_lim_scal (fun t => cross g (moved u v t) c)). apply C.
Qed.

(** ** Expected improvement *)
Lemma dpl_loc f h x l : (exists d, 0 < d /\ forall t, Rabs (t - x) < d -> f t = h t) -> derivable_pt_lim f x l -> derivable_pt_lim h x l.
Proof.
  intros (d & Hd & E) D. apply is_derive_Reals. apply (is_derive_ext_loc f); [|apply is_derive_Reals, D].
  exists (mkposreal _ Hd). intros t Ht. apply E. exact Ht.
Qed.
Lemma near_lt f x l c : derivable_pt_lim f x l -> f x < c -> exists d, 0 < d /\ forall t, Rabs (t - x) < d -> f t < c.
Proof.
  intros D L. assert (C : continuity_pt f x) by (apply derivable_continuous_pt; exists l; exact D).
  destruct (C (c - f x)) as [d [Hd C']]; [lra|]. exists d. split; [exact Hd|]. intros t Ht.
  destruct (Req_dec t x) as [->|N]; [exact L|]. specialize (C' t). cbn in C'. unfold R_dist, D_x, no_cond in C'.
  assert (B : Rabs (f t - f x) < c - f x) by (apply C'; auto). apply Rabs_def2 in B. lra.
Qed.
Lemma near_gt f x l c : derivable_pt_lim f x l -> c < f x -> exists d, 0 < d /\ forall t, Rabs (t - x) < d -> c < f t.
Proof.
  intros D L. destruct (near_lt (fun t => - f t) x (- l) (- c)) as (d & Hd & E); [apply (derivable_pt_lim_opp f), D|lra|].
  exists d. split; [exact Hd|]. intros t Ht. specialize (E t Ht). lra.
Qed.
Definition shown_var (g : surrogate) (u : point) : R := if Rle_dec (raw_var g u) (var_floor g) then var_floor g else raw_var g u.
Definition shown_dvar' (g : surrogate) (u : point) (i : nat) : R := if Rle_dec (raw_var g u) (var_floor g) then 0 else shown_dvar g u i.
Lemma post_eq' g u : exists dv, post g u = (shown_mean g u, shown_var g u, shown_dmean g u, dv) /\ forall i, dv i = shown_dvar' g u i.
Proof. rewrite post_eq. unfold shown_var, shown_dvar'. destruct (Rle_dec (raw_var g u) (var_floor g)); eexists; split; reflexivity. Qed.
Lemma floor_pos g : 0 < var_floor g.
Proof.
  unfold var_floor, tiny. apply Rmult_lt_0_compat; [apply Rinv_0_lt_compat, pow_lt; lra|].
  eapply Rlt_le_trans; [|apply Rmax_r]. apply Rinv_0_lt_compat, pow_lt; lra.
Qed.
Lemma shown_var_ge g u : var_floor g <= shown_var g u.
Proof. unfold shown_var. destruct (Rle_dec _ _); lra. Qed.
Lemma raw_var_moved0 g u v : raw_var g (moved u v 0) = raw_var g u.
Proof.
  unfold raw_var. f_equal. apply rsum_ext. intros a _. rewrite (cross_ext g (moved u v 0) u) by apply moved_0. f_equal.
  apply rsum_ext. intros c _. rewrite (cross_ext g (moved u v 0) u) by apply moved_0. reflexivity.
Qed.
Lemma shown_var_grad g u : (forall i, (i < s_dim g)%nat -> s_hps g (S i) <> 0) ->
  (forall a b, (a < s_n g)%nat -> (b < s_n g)%nat -> s_inv g a b = s_inv g b a) -> raw_var g u <> var_floor g ->
  gradient_at (s_dim g) (shown_var g) u (shown_dvar' g u).
Proof.
  intros H Y N v. pose proof (var_grad_l g u H Y v) as G. cbn beta in G.
  unfold shown_dvar'. destruct (Rle_dec (raw_var g u) (var_floor g)).
  - destruct (near_lt _ _ _ (var_floor g) G) as (d & Hd & E); [rewrite raw_var_moved0; lra|].
    apply (dpl_loc (fun _ => var_floor g)).
    + exists d. split; [exact Hd|]. intros t Ht. specialize (E t Ht). unfold shown_var. destruct (Rle_dec _ _); lra.
    + eapply dpl_eq; [|apply derivable_pt_lim_const]. rewrite (rsum_ext _ (fun _ => 0)) by (intros; ring). rewrite rsum_const. ring.
  - destruct (near_gt _ _ _ (var_floor g) G) as (d & Hd & E); [rewrite raw_var_moved0; lra|].
    apply (dpl_loc (fun t => raw_var g (moved u v t))); [|exact G].
    exists d. split; [exact Hd|]. intros t Ht. specialize (E t Ht). unfold shown_var. destruct (Rle_dec _ _); lra.
Qed.
Section EI.
Variable Phi : R -> R.
Hypothesis HP : normal_cdf Phi.
Lemma ei_path (m s : R -> R) x dm ds y : derivable_pt_lim m x dm -> derivable_pt_lim s x ds -> 0 < s x ->
  derivable_pt_lim (fun t => ei Phi (m t - y) (s t)) x (Phi ((m x - y) / s x) * dm + normal_pdf ((m x - y) / s x) * ds).
Proof.
  intros Dm Ds P. unfold ei.
  assert (Di : derivable_pt_lim (fun t => m t - y) x dm).
  { eapply dpl_eq; [|apply (derivable_pt_lim_minus m (fun _ => y) x dm 0); [exact Dm|apply derivable_pt_lim_const]]. ring. }
  set (w' := (dm * s x - ds * (m x - y)) / (s x)²).
  assert (Dw : derivable_pt_lim (fun t => (m t - y) / s t) x w').
  { apply (derivable_pt_lim_div (fun t => m t - y) s); auto. lra. }
  set (z := (m x - y) / s x).
  eapply dpl_eq; [|apply (derivable_pt_lim_plus (fun t => (m t - y) * Phi ((m t - y) / s t)) (fun t => s t * pdf ((m t - y) / s t)) x
     (dm * Phi z + (m x - y) * (normal_pdf z * w')) (ds * normal_pdf z + s x * ((- z * normal_pdf z) * w')))].
  - assert (E : (m x - y) = s x * z) by (unfold z; field; lra). rewrite E. ring.
  - apply (derivable_pt_lim_mult (fun t => m t - y) (fun t => Phi ((m t - y) / s t))); [exact Di|].
    apply (derivable_pt_lim_comp (fun t => (m t - y) / s t) Phi); [exact Dw|]. apply HP.
  - apply (derivable_pt_lim_mult s (fun t => pdf ((m t - y) / s t))); [exact Ds|].
    apply (derivable_pt_lim_comp (fun t => (m t - y) / s t) normal_pdf); [exact Dw|]. apply is_derive_Reals, pdf_derive.
Qed.
(** the loss function z Phi(z) + phi(z) *)
Definition lf (z : R) : R := z * Phi z + normal_pdf z.
Lemma lf_derive z : is_derive lf z (Phi z).
Proof.
  apply is_derive_Reals. pose proof (ei_path (fun t => t) (fun _ => 1) z 1 0 0) as E. cbn beta in E.
  assert (E1 : forall t, (t - 0) / 1 = t) by (intros; unfold Rdiv; rewrite Rinv_1; ring). rewrite E1 in E. apply (dpl_ext (fun t => ei Phi (t - 0) 1)).
  { intros t. unfold ei, lf. rewrite E1. change (pdf t) with (normal_pdf t). ring. }
  eapply dpl_eq; [|apply E]; [ring|apply derivable_pt_lim_id|apply derivable_pt_lim_const|lra].
Qed.
Lemma lf_incr x y : x < y -> lf x < lf y.
Proof.
  intros L. destruct (MVT_gen lf x y Phi) as [c [_ E]]; [intros; apply lf_derive|intros; eapply der_cont; apply lf_derive|].
  pose proof (Phi_pos Phi HP c). assert (0 < Phi c * (y - x)) by (apply Rmult_lt_0_compat; lra). lra.
Qed.
Lemma lf_low z : z <= - 1 -> - (2 / - z) <= lf z.
Proof.
  intros H. unfold lf. pose proof (Phi_tail Phi HP z H). pose proof (pdf_bound z ltac:(lra)) as B. pose proof (pdf_pos z).
  rewrite Rabs_left in B by lra. nra.
Qed.
Lemma lf_pos z : 0 < lf z.
Proof.
  pose proof (lf_incr (z - 1) z ltac:(lra)) as I. set (d := lf z - lf (z - 1)) in *.
  assert (Hd : 0 < d) by (unfold d; lra).
  set (w := Rmin (z - 2) (Rmin (- 1) (- (4 / d)))).
  assert (W1 : w <= z - 2) by apply Rmin_l.
  assert (W2 : w <= - 1) by (eapply Rle_trans; [apply Rmin_r|apply Rmin_l]).
  assert (W3 : w <= - (4 / d)) by (eapply Rle_trans; [apply Rmin_r|apply Rmin_r]).
  pose proof (lf_incr w (z - 1) ltac:(lra)) as I2. pose proof (lf_low w W2) as L.
  assert (2 / - w <= d / 2).
  { apply (Rmult_le_reg_r (- w)); [lra|]. replace (2 / - w * - w) with 2 by (field; lra).
    assert (4 / d * d = 4) by (field; lra). nra. }
  unfold d in *. lra.
Qed.
Lemma ei_lf imp s : 0 < s -> ei Phi imp s = s * lf (imp / s).
Proof. intros H. unfold ei, lf. change (pdf (imp / s)) with (normal_pdf (imp / s)). field. lra. Qed.
Lemma ei_pos imp s : 0 < s -> 0 < ei Phi imp s.
Proof. intros H. rewrite ei_lf by exact H. apply Rmult_lt_0_compat; [exact H|apply lf_pos]. Qed.
Lemma ei_ge imp s : 0 < s -> imp < ei Phi imp s.
Proof.
  intros H. pose proof (ei_pos (- imp) s H) as P. unfold ei in *.
  assert (E : - imp / s = - (imp / s)) by (unfold Rdiv; ring). rewrite E in P. rewrite (Phi_sym Phi HP) in P.
  change (pdf (- (imp / s))) with (normal_pdf (- (imp / s))) in P. rewrite pdf_even in P. change (pdf (imp / s)) with (normal_pdf (imp / s)). lra.
Qed.
Lemma pdf_max z : normal_pdf z <= / sqrt (2 * PI).
Proof.
  unfold normal_pdf, Rdiv. pose proof s2pi. rewrite <- (Rmult_1_l (/ sqrt (2 * PI))) at 2.
  apply Rmult_le_compat_r; [left; apply Rinv_0_lt_compat; lra|]. rewrite <- exp_0.
  pose proof (pow2_ge_0 z). destruct (Req_dec (z ^ 2) 0) as [->|]; [right; f_equal; field|left; apply exp_increasing; lra].
Qed.
(** how much the value moves when the standard deviation does *)
Lemma ei_std imp s s' : 0 < s -> s <= s' -> ei Phi imp s <= ei Phi imp s' <= ei Phi imp s + / sqrt (2 * PI) * (s' - s).
Proof.
  intros P L. destruct (Req_dec s s') as [<-|N]; [lra|].
  destruct (MVT_gen (fun t => ei Phi imp t) s s' (fun t => normal_pdf (imp / t))) as [c [Hc E]].
  - rewrite Rmin_left, Rmax_right by lra. intros t Ht. apply is_derive_Reals.
    apply (dpl_ext (fun t => ei Phi (imp - 0) t)); [intros; rewrite Rminus_0_r; reflexivity|].
    eapply dpl_eq; [|apply (ei_path (fun _ => imp) (fun t => t) t 0 1 0); [apply derivable_pt_lim_const|apply derivable_pt_lim_id|lra]].
    cbn. rewrite Rminus_0_r. ring.
  - rewrite Rmin_left, Rmax_right by lra. intros t Ht. apply derivable_continuous_pt. exists (normal_pdf (imp / t)).
    apply (dpl_ext (fun t => ei Phi (imp - 0) t)); [intros; rewrite Rminus_0_r; reflexivity|].
    eapply dpl_eq; [|apply (ei_path (fun _ => imp) (fun t => t) t 0 1 0); [apply derivable_pt_lim_const|apply derivable_pt_lim_id|lra]].
    cbn. rewrite Rminus_0_r. ring.
  - rewrite Rmin_left, Rmax_right in Hc by lra. cbn in E. pose proof (pdf_pos (imp / c)). pose proof (pdf_max (imp / c)).
    pose proof s2pi. split; [nra|].
    assert (normal_pdf (imp / c) * (s' - s) <= / sqrt (2 * PI) * (s' - s)) by (apply Rmult_le_compat_r; lra). lra.
Qed.
(** it is the expected gain *)
Lemma ei_gain m s y : 0 < s -> expected_gain m s y (ei Phi (m - y) s).
Proof.
  intros P eps He.
  set (A := fun t => (m - y) * Phi ((t - m) / s) - s * normal_pdf ((t - m) / s)).
  assert (DA : forall t : R, is_derive A t ((t - y) * (normal_pdf ((t - m) / s) / s))).
  { intros t. apply is_derive_Reals. unfold A.
    assert (Dw : derivable_pt_lim (fun t => (t - m) / s) t (/ s)) by (apply is_derive_Reals; auto_derive; [auto|field; lra]).
    set (z := (t - m) / s).
    eapply dpl_eq; [|apply (derivable_pt_lim_minus (fun t => (m - y) * Phi ((t - m) / s)) (fun t => s * normal_pdf ((t - m) / s)) t
      ((m - y) * (normal_pdf z * / s)) (s * ((- z * normal_pdf z) * / s)))].
    - assert (E : t = m + s * z) by (unfold z; field; lra). assert (E' : t - y = m - y + s * z) by lra. rewrite E'. field. lra.
    - apply (derivable_pt_lim_scal (fun t => Phi ((t - m) / s))). apply (derivable_pt_lim_comp (fun t => (t - m) / s) Phi); [exact Dw|apply HP].
    - apply (derivable_pt_lim_scal (fun t => normal_pdf ((t - m) / s))). apply (derivable_pt_lim_comp (fun t => (t - m) / s) normal_pdf); [exact Dw|].
      apply is_derive_Reals, pdf_derive. }
  assert (CA : forall t : R, continuous (fun t => (t - y) * (normal_pdf ((t - m) / s) / s)) t).
  { intros t. apply continuity_pt_filterlim. apply (continuity_pt_mult (fun t => t - y) (fun t => normal_pdf ((t - m) / s) / s)); [reg|].
    apply (continuity_pt_mult (fun t => normal_pdf ((t - m) / s)) (fun _ => / s)); [|reg].
    apply (continuity_pt_comp (fun t => (t - m) / s) normal_pdf); [reg; lra|]. eapply der_cont. apply pdf_derive. }
  destruct HP as (_ & _ & T).
  destruct (T (eps / (2 * (1 + Rabs (m - y))))) as [B1 HB1].
  { apply Rdiv_lt_0_compat; [exact He|]. pose proof (Rabs_pos (m - y)). lra. }
  set (z0 := Rmax (Rmax B1 1) (4 * s / eps)).
  exists (m + s * z0). intros b Hb.
  assert (RI : RInt (fun t => (t - y) * (normal_pdf ((t - m) / s) / s)) y b = A b - A y).
  { apply is_RInt_unique. apply (is_RInt_derive A); intros; [apply DA|apply CA]. }
  rewrite RI. set (z := (b - m) / s).
  assert (Z : z0 < z). { unfold z. apply (Rmult_lt_reg_r s); [exact P|]. replace ((b - m) / s * s) with (b - m) by (field; lra). lra. }
  assert (Z1 : B1 < z) by (eapply Rle_lt_trans; [|exact Z]; eapply Rle_trans; [apply (Rmax_l B1 1)|apply Rmax_l]).
  assert (Z2 : 1 < z) by (eapply Rle_lt_trans; [|exact Z]; eapply Rle_trans; [apply (Rmax_r B1 1)|apply Rmax_l]).
  assert (Z3 : 4 * s / eps < z) by (eapply Rle_lt_trans; [apply Rmax_r|exact Z]).
  specialize (HB1 z Z1).
  assert (E : A b - A y - ei Phi (m - y) s = (m - y) * (Phi z - 1) - s * normal_pdf z).
  { unfold A, ei. fold z. assert (E1 : (y - m) / s = - ((m - y) / s)) by (unfold Rdiv; ring).
    rewrite E1, (Phi_sym Phi HP), pdf_even. change (pdf ((m - y) / s)) with (normal_pdf ((m - y) / s)). ring. }
  rewrite E. pose proof (pdf_pos z) as Pz. pose proof (pdf_bound z ltac:(lra)) as Bz. rewrite Rabs_right in Bz by lra.
  eapply Rle_lt_trans; [apply Rabs_triang|]. rewrite Rabs_Ropp, !Rabs_mult.
  rewrite (Rabs_right s), (Rabs_right (normal_pdf z)) by lra.
  assert (A1 : Rabs (m - y) * Rabs (Phi z - 1) <= eps / 2).
  { pose proof (Rabs_pos (m - y)). pose proof (Rabs_pos (Phi z - 1)).
    assert (eps / (2 * (1 + Rabs (m - y))) * (1 + Rabs (m - y)) = eps / 2) by (field; lra). nra. }
  assert (A2 : s * normal_pdf z < eps / 2).
  { assert (normal_pdf z <= z * normal_pdf z) by nra. assert (2 / z < 2 / (4 * s / eps)).
    { apply Rmult_lt_compat_l; [lra|]. apply Rinv_lt_contravar; [|exact Z3]. apply Rmult_lt_0_compat; [apply Rdiv_lt_0_compat; lra|lra]. }
    replace (2 / (4 * s / eps)) with (eps / (2 * s)) in * by (field; lra).
    assert (s * (eps / (2 * s)) = eps / 2) by (field; lra). nra. }
  lra.
Qed.
End EI.

(** ** Noisy expected improvement *)
Lemma gp_var_raw g u : gp_var g u = if Rlt_dec (raw_var g u) 0 then 0 else raw_var g u.
Proof.
  unfold gp_var. rewrite kernel_M2e. replace (sqd (s_dim g) u u (s_hps g)) with 0.
  - rewrite Rmult_0_r. unfold M2e. destruct (Rlt_dec 0 0); [lra|]. rewrite M2_0, Rmult_1_r. reflexivity.
  - unfold sqd. rewrite (rsum_ext _ (fun _ => 0)), rsum_const; [ring|]. intros. unfold Rdiv. ring.
Qed.
Lemma shown_var_max g u : shown_var g u = Rmax (gp_var g u) (var_floor g).
Proof.
  rewrite gp_var_raw. pose proof (floor_pos g). unfold shown_var, Rmax.
  destruct (Rle_dec (raw_var g u) (var_floor g)), (Rlt_dec (raw_var g u) 0);
    destruct (Rle_dec _ _); lra.
Qed.
Lemma raw_ne_floor g u : gp_var g u <> var_floor g -> raw_var g u <> var_floor g.
Proof. intros N E. apply N. rewrite gp_var_raw, E. pose proof (floor_pos g). destruct (Rlt_dec _ _); lra. Qed.
Lemma rmean_path {A} (F : A -> R -> R) (F' : A -> R) x l : (forall a, derivable_pt_lim (F a) x (F' a)) ->
  derivable_pt_lim (fun t => rmean (map (fun a => F a t) l)) x (rmean (map F' l)).
Proof.
  intros H. unfold rmean. rewrite map_length.
  apply (dpl_ext (fun t => fold_right Rplus 0 (map (fun a => F a t) l) * / INR (length l))). { intros t. rewrite map_length. reflexivity. }
  eapply dpl_eq; [|apply (derivable_pt_lim_mult (fun t => fold_right Rplus 0 (map (fun a => F a t) l)) (fun _ => / INR (length l)) x
     (fold_right Rplus 0 (map F' l))); [|apply derivable_pt_lim_const]].
  { unfold Rdiv. ring. }
  induction l as [|a l IH]; cbn; [apply derivable_pt_lim_const|].
  apply (derivable_pt_lim_plus (F a) (fun t => fold_right Rplus 0 (map (fun a => F a t) l))); auto.
Qed.
Lemma rmean_pos {A} (F : A -> R) l : l <> [] -> (forall a, 0 < F a) -> 0 < rmean (map F l).
Proof.
  intros N H. unfold rmean. rewrite map_length. apply Rdiv_lt_0_compat.
  - destruct l as [|a l]; [congruence|]. cbn. assert (0 <= fold_right Rplus 0 (map F l)).
    { clear N. induction l as [|b l IH]; cbn; [lra|]. pose proof (H b). lra. }
    pose proof (H a). lra.
  - apply lt_0_INR. destruct l; [congruence|cbn; lia].
Qed.
Lemma rmean_le {A} (F F' : A -> R) l : (forall a, F a <= F' a) -> rmean (map F l) <= rmean (map F' l).
Proof.
  intros H. unfold rmean. rewrite !map_length. destruct l as [|b l0]; [cbn; lra|]. set (l := b :: l0).
  unfold Rdiv. apply Rmult_le_compat_r; [left; apply Rinv_0_lt_compat, lt_0_INR; cbn; lia|].
  clearbody l. induction l as [|a l IH]; cbn; [lra|]. pose proof (H a). lra.
Qed.
Lemma rmean_shift {A} (F : A -> R) c l : l <> [] -> rmean (map (fun a => F a + c) l) = rmean (map F l) + c.
Proof.
  intros N. unfold rmean. rewrite !map_length.
  assert (E : fold_right Rplus 0 (map (fun a => F a + c) l) = fold_right Rplus 0 (map F l) + INR (length l) * c).
  { clear N. induction l as [|a l IH]; [cbn; ring|]. cbn [map fold_right length]. rewrite IH, S_INR. ring. }
  rewrite E. field. apply not_0_INR. destruct l; [congruence|cbn; lia].
Qed.
Lemma rmean_lin {A} (F F' : A -> R) a b l : rmean (map (fun x => F x * a + F' x * b) l) = rmean (map F l) * a + rmean (map F' l) * b.
Proof.
  unfold rmean. rewrite !map_length.
  assert (E : fold_right Rplus 0 (map (fun x => F x * a + F' x * b) l) = fold_right Rplus 0 (map F l) * a + fold_right Rplus 0 (map F' l) * b).
  { induction l as [|x l IH]; [cbn; ring|]. cbn [map fold_right]. rewrite IH. ring. }
  rewrite E. unfold Rdiv. ring.
Qed.
Section NEI.
Variable Phi : R -> R.
Hypothesis HP : normal_cdf Phi.
Variables (g : surrogate) (samples : list R).
Hypothesis HS : samples <> [].
Definition nval (u : point) : R := rmean (map (fun y => ei Phi (shown_mean g u - y) (sqrt (shown_var g u))) samples).
Lemma std_pos u : 0 < sqrt (shown_var g u).
Proof. apply sqrt_lt_R0. pose proof (floor_pos g). pose proof (shown_var_ge g u). lra. Qed.
Lemma nval_pos u : 0 < nval u.
Proof. apply rmean_pos; [exact HS|]. intros y. apply ei_pos; [exact HP|apply std_pos]. Qed.
Lemma nei_grad_eq u : fst (nei_grad Phi g samples u) = nval u /\
  forall i, snd (nei_grad Phi g samples u) i =
    rmean (map (fun y => Phi ((shown_mean g u - y) / sqrt (shown_var g u))) samples) * shown_dmean g u i +
    rmean (map (fun y => normal_pdf ((shown_mean g u - y) / sqrt (shown_var g u))) samples) * (shown_dvar' g u i / (2 * sqrt (shown_var g u))).
Proof.
  unfold nei_grad. destruct (post_eq' g u) as (dv & -> & E). fold (nval u). pose proof (nval_pos u).
  destruct (Rle_dec (nval u) 0); [lra|]. cbn. split; [reflexivity|]. intros i. rewrite E. reflexivity.
Qed.
Lemma shown_mean_moved0 u v : shown_mean g (moved u v 0) = shown_mean g u.
Proof.
  unfold shown_mean, shown_prior. f_equal.
  - destruct (s_coef g); [|reflexivity]. rewrite !poly_mean_eq. f_equal. apply rsum_ext. intros. rewrite moved_0. reflexivity.
  - apply rsum_ext. intros. rewrite (cross_ext g (moved u v 0) u) by apply moved_0. reflexivity.
Qed.
Lemma shown_var_moved0 u v : shown_var g (moved u v 0) = shown_var g u.
Proof. unfold shown_var. rewrite raw_var_moved0. reflexivity. Qed.
Lemma nei_gradient_l u : (forall i, (i < s_dim g)%nat -> s_hps g (S i) <> 0) ->
  (forall a b, (a < s_n g)%nat -> (b < s_n g)%nat -> s_inv g a b = s_inv g b a) -> raw_var g u <> var_floor g ->
  gradient_at (s_dim g) (fun u => fst (nei_grad Phi g samples u)) u (snd (nei_grad Phi g samples u)).
Proof.
  intros H Y N v. apply (dpl_ext (fun t => nval (moved u v t))). { intros t. symmetry. apply nei_grad_eq. }
  set (dm := rsum (fun i => shown_dmean g u i * v i) (s_dim g)).
  set (dv := rsum (fun i => shown_dvar' g u i * v i) (s_dim g)).
  pose proof (mean_grad_l g u H v) as Gm. pose proof (shown_var_grad g u H Y N v) as Gv. cbn beta in Gm, Gv. fold dm in Gm. fold dv in Gv.
  assert (Gs : derivable_pt_lim (fun t => sqrt (shown_var g (moved u v t))) 0 (/ (2 * sqrt (shown_var g u)) * dv)).
  { apply (derivable_pt_lim_comp (fun t => shown_var g (moved u v t)) sqrt); [exact Gv|]. rewrite shown_var_moved0.
    apply derivable_pt_lim_sqrt. pose proof (floor_pos g). pose proof (shown_var_ge g u). lra. }
  unfold nval.
  eapply dpl_eq; [|apply (rmean_path (fun y t => ei Phi (shown_mean g (moved u v t) - y) (sqrt (shown_var g (moved u v t))))
    (fun y => Phi ((shown_mean g u - y) / sqrt (shown_var g u)) * dm + normal_pdf ((shown_mean g u - y) / sqrt (shown_var g u)) * (/ (2 * sqrt (shown_var g u)) * dv)))].
  - rewrite rmean_lin. destruct (nei_grad_eq u) as [_ E].
    rewrite (rsum_ext (fun i => snd (nei_grad Phi g samples u) i * v i)
      (fun i => rmean (map (fun y => Phi ((shown_mean g u - y) / sqrt (shown_var g u))) samples) * (shown_dmean g u i * v i) +
        (rmean (map (fun y => normal_pdf ((shown_mean g u - y) / sqrt (shown_var g u))) samples) / (2 * sqrt (shown_var g u))) * (shown_dvar' g u i * v i))).
    + rewrite rsum_plus, !rsum_scal. unfold dm, dv, Rdiv. ring.
    + intros i _. rewrite E. unfold Rdiv. ring.
  - intros y. pose proof (ei_path Phi HP (fun t => shown_mean g (moved u v t)) (fun t => sqrt (shown_var g (moved u v t))) 0 dm (/ (2 * sqrt (shown_var g u)) * dv) y Gm Gs) as E.
    cbn beta in E. rewrite shown_mean_moved0, shown_var_moved0 in E. apply E, std_pos.
Qed.
End NEI.
Lemma fit_lengths lstsq noise g : is_fit lstsq noise g -> forall i, (i < s_dim g)%nat -> s_hps g (S i) <> 0.
Proof. intros F i Hi. assert (0 < s_hps g (S i)) by (apply (fit_hps _ _ _ F); lia). lra. Qed.
Lemma fit_sym lstsq noise g : is_fit lstsq noise g -> forall a b, (a < s_n g)%nat -> (b < s_n g)%nat -> s_inv g a b = s_inv g b a.
Proof.
  intros F. apply (inverse_sym _ _ _ (fit_inv _ _ _ F)). intros i j. rewrite kernel_sym. f_equal.
  rewrite (Nat.eqb_sym j i). destruct (Nat.eqb_spec i j) as [->|]; reflexivity.
Qed.

(** ** The value used to screen and the value used to search *)
Lemma screen_search Phi g samples u : normal_cdf Phi -> samples <> [] -> s_coef g <> None ->
  Rabs (nei Phi g samples u - fst (nei_grad Phi g samples u)) <= / sqrt (2 * PI) * sqrt (Rmax (/ 10 ^ 12) (var_floor g)) /\
  (/ 10 ^ 12 <= gp_var g u -> var_floor g <= gp_var g u -> nei Phi g samples u = fst (nei_grad Phi g samples u)).
Proof.
  intros HP HS HC. destruct (nei_grad_eq Phi HP g samples HS u) as [E _]. rewrite E. clear E. unfold nval, nei.
  assert (M : gp_mean g u = shown_mean g u). { unfold gp_mean, shown_mean, prior_mean, shown_prior. destruct (s_coef g); [reflexivity|congruence]. }
  rewrite M, shown_var_max. set (a := gp_var g u). set (e := / 10 ^ 12). assert (He : 0 < e) by (apply Rinv_0_lt_compat, pow_lt; lra).
  pose proof (floor_pos g) as Hf. set (f := var_floor g) in *.
  assert (P1 : 0 < sqrt (Rmax a e)). { apply sqrt_lt_R0. pose proof (Rmax_r a e). lra. }
  assert (P2 : 0 < sqrt (Rmax a f)). { apply sqrt_lt_R0. pose proof (Rmax_r a f). lra. }
  rewrite (Rmax_left (rmean (map (fun y => ei Phi (shown_mean g u - y) (sqrt (Rmax a e))) samples)) 0).
  2:{ left. apply rmean_pos; [exact HS|]. intros. apply ei_pos; auto. }
  split.
  2:{ intros H1 H2. rewrite !Rmax_left by lra. reflexivity. }
  pose proof s2pi as SP. assert (SI : 0 < / sqrt (2 * PI)) by (apply Rinv_0_lt_compat; exact SP).
  assert (G : forall s s', 0 < s -> s <= s' ->
     rmean (map (fun y => ei Phi (shown_mean g u - y) s) samples) <= rmean (map (fun y => ei Phi (shown_mean g u - y) s') samples) <=
     rmean (map (fun y => ei Phi (shown_mean g u - y) s) samples) + / sqrt (2 * PI) * (s' - s)).
  { intros s s' H1 H2. split.
    - apply rmean_le. intros y. apply (ei_std Phi HP (shown_mean g u - y) s s' H1 H2).
    - rewrite <- rmean_shift by exact HS. apply rmean_le. intros y. apply (ei_std Phi HP (shown_mean g u - y) s s' H1 H2). }
  assert (B : forall p q, 0 < p -> p <= q -> sqrt (Rmax a p) <= sqrt (Rmax a q) <= sqrt (Rmax a p) + sqrt q).
  { intros p q Hp Hq. pose proof (Rmax_r a p). split.
    - apply sqrt_le_1; [lra| |apply Rle_max_compat_l; exact Hq]. pose proof (Rmax_r a q). lra.
    - pose proof (sqrt_pos (Rmax a p)). pose proof (sqrt_pos q). unfold Rmax at 1. destruct (Rle_dec a q); [lra|].
      rewrite Rmax_left by lra. lra. }
  destruct (Rle_dec e f) as [L|L].
  - rewrite (Rmax_right e f) by lra. destruct (B e f He L). destruct (G _ _ P1 H). rewrite Rabs_minus_sym, Rabs_right by lra.
    assert (/ sqrt (2 * PI) * (sqrt (Rmax a f) - sqrt (Rmax a e)) <= / sqrt (2 * PI) * sqrt f) by (apply Rmult_le_compat_l; lra). lra.
  - rewrite (Rmax_left e f) by lra. destruct (B f e Hf ltac:(lra)). destruct (G _ _ P2 H). rewrite Rabs_right by lra.
    assert (/ sqrt (2 * PI) * (sqrt (Rmax a e) - sqrt (Rmax a f)) <= / sqrt (2 * PI) * sqrt e) by (apply Rmult_le_compat_l; lra). lra.
Qed.

(** ** The maximizer *)
Lemma fold_max l a : a <= fold_left Rmax l a /\ (forall x, In x l -> x <= fold_left Rmax l a) /\ (fold_left Rmax l a = a \/ In (fold_left Rmax l a) l).
Proof.
  revert a. induction l as [|b l IH]; cbn; intros a; [repeat split; auto with real; tauto|].
  destruct (IH (Rmax a b)) as (H1 & H2 & H3). pose proof (Rmax_l a b). pose proof (Rmax_r a b). repeat split.
  - lra.
  - intros x [<-|Hx]; [lra|auto].
  - destruct H3 as [->|H3]; [|auto]. unfold Rmax. destruct (Rle_dec a b); auto.
Qed.
Lemma rmaximum_ge l x : In x l -> x <= rmaximum l.
Proof. destruct l as [|a l]; cbn; [tauto|]. destruct (fold_max l a) as (H1 & H2 & _). intros [<-|H]; auto. Qed.
Lemma rmaximum_in l : l <> [] -> In (rmaximum l) l.
Proof. destruct l as [|a l]; [congruence|]. cbn. destruct (fold_max l a) as (_ & _ & [->|H]); auto. Qed.
Lemma clip_cube x : 0 <= clip x <= 1.
Proof. unfold clip. split; [apply Rmin_glb; [apply Rmax_r|lra]|apply Rmin_r]. Qed.
Lemma clip_id x : 0 <= x <= 1 -> clip x = x.
Proof. intros H. unfold clip. rewrite Rmax_left, Rmin_left by lra. reflexivity. Qed.
Section Max.
Variables (argsort : list R -> list nat) (minimize : (point -> R * (nat -> R)) -> point -> opt_result).
Variables (acq : point -> R) (acq_grad : point -> R * (nat -> R)) (D : nat).
Hypothesis HA : argsort_contract argsort.
Hypothesis HM : box_minimizer D o_x o_fun o_success minimize.
Hypothesis HG : first_coordinates D (fun u => fst (acq_grad u)).
Lemma climb_inv (raw : list point) (b : point * R) (starts : list point) : (forall s : point, In s starts -> in_cube D s) -> in_cube D (fst b) ->
  ((In (fst b) raw /\ snd b = acq (fst b)) \/ snd b = fst (acq_grad (fst b))) ->
  let r := fold_left (climb minimize acq_grad) starts b in
  in_cube D (fst r) /\ snd b <= snd r /\ ((In (fst r) raw /\ snd r = acq (fst r)) \/ snd r = fst (acq_grad (fst r))) /\
  forall s : point, In s starts -> let o := minimize (objective_of acq_grad) s in o_success o = true -> fst (acq_grad (o_x o)) <= snd r.
Proof.
  revert b. induction starts as [|s starts IH]; intros b HS HB HV; cbn.
  - split; [exact HB|]. split; [apply Rle_refl|]. split; [exact HV|]. intros s [].
  - set (b' := climb minimize acq_grad b s).
    assert (Ob : forall z, fst (objective_of acq_grad z) = - fst (acq_grad z)) by (intros z; unfold objective_of; destruct (acq_grad z); reflexivity).
    assert (K : in_cube D (fst b') /\ snd b <= snd b' /\ ((In (fst b') raw /\ snd b' = acq (fst b')) \/ snd b' = fst (acq_grad (fst b'))) /\
       (let o := minimize (objective_of acq_grad) s in o_success o = true -> fst (acq_grad (o_x o)) <= snd b')).
    { unfold b', climb. set (o := minimize (objective_of acq_grad) s). cbn zeta.
      destruct (o_success o) eqn:E; cbn [andb]; [|split; [exact HB|]; split; [apply Rle_refl|]; split; [exact HV|]; congruence].
      destruct (HM (objective_of acq_grad) s) as [C1 C2]; [apply HS; left; reflexivity|exact E|]. fold o in C1, C2. rewrite Ob in C2.
      unfold rltb. destruct (Rlt_dec (snd b) (- o_fun o)) as [L|L]; cbn [fst snd].
      - assert (X : fst (acq_grad (fun i => clip (o_x o i))) = fst (acq_grad (o_x o))) by (apply (HG (fun i => clip (o_x o i)) (o_x o)); intros i Hi; apply clip_id, C1, Hi).
        repeat split; [apply clip_cube|apply clip_cube|lra|right; rewrite X, C2; ring|intros _; rewrite C2; lra].
      - split; [exact HB|]. split; [apply Rle_refl|]. split; [exact HV|]. intros _. rewrite C2 in L. lra. }
    destruct K as (K1 & K2 & K3 & K4).
    destruct (IH b') as (I1 & I2 & I3 & I4); [intros; apply HS; right; assumption|exact K1|exact K3|].
    split; [exact I1|]. split; [lra|]. split; [exact I3|]. intros s' [<-|Hs']; [|exact (I4 s' Hs')].
    intros Q. specialize (K4 Q). cbn in K4. lra.
Qed.
Lemma maximize_l (raw : list point) n : raw <> [] -> (0 < n)%nat -> (forall r : point, In r raw -> in_cube D r) ->
  exists u v, maximize_acquisition argsort minimize acq acq_grad raw n = Ok (u, v) /\ in_cube D u /\
    (forall r : point, In r raw -> acq r <= v) /\ ((In u raw /\ v = acq u) \/ v = fst (acq_grad u)).
Proof.
  intros HR Hn HC. unfold maximize_acquisition.
  destruct (HA (map Ropp (map acq raw))) as [P S0]. rewrite !map_length in P.
  assert (B : forall i, In i (argsort (map Ropp (map acq raw))) -> (i < length raw)%nat).
  { intros i Hi. apply (Permutation_in _ P), in_seq in Hi. lia. }
  set (as_ := argsort (map Ropp (map acq raw))) in *.
  destruct as_ as [|i0 rest] eqn:EA.
  { apply Permutation_length in P. rewrite seq_length in P. destruct raw; [congruence|discriminate]. }
  destruct n as [|n]; [lia|]. cbn [firstn map].
  assert (N0 : forall i, (i < length raw)%nat -> In (nthp raw i) raw) by (intros; apply nth_In; assumption).
  assert (V : forall i, (i < length raw)%nat -> nth i (map Ropp (map acq raw)) 0 = - acq (nthp raw i)).
  { intros i Hi. rewrite map_map. rewrite (nth_indep _ 0 (- acq (fun _ => 0))) by (rewrite map_length; exact Hi).
    apply (map_nth (fun x => - acq x)). }
  assert (M0 : forall r, In r raw -> acq r <= acq (nthp raw i0)).
  { intros r Hr. apply (In_nth _ _ (fun _ => 0)) in Hr. destruct Hr as (j & Hj & Ej). change (nthp raw j = r) in Ej. subst r.
    change (j < length raw)%nat in Hj.
    assert (J : In j (i0 :: rest)) by (apply (Permutation_in _ (Permutation_sym P)), in_seq; lia).
    destruct J as [->|J]; [lra|]. inversion S0 as [|? ? _ F]; subst. rewrite Forall_forall in F.
    specialize (F (nth j (map Ropp (map acq raw)) 0)). rewrite !V in F by (auto; apply B; left; reflexivity).
    assert (- acq (nthp raw i0) <= - acq (nthp raw j)); [|lra]. apply F. rewrite <- V by exact Hj.
    apply (in_map (fun i => nth i (map Ropp (map acq raw)) 0)). exact J. }
  assert (I0 : (i0 < length raw)%nat) by (apply B; left; reflexivity).
  assert (MX : rmaximum (map acq raw) = acq (nthp raw i0)).
  { apply Rle_antisym.
    - assert (Q : In (rmaximum (map acq raw)) (map acq raw)) by (apply rmaximum_in; destruct raw; [congruence|discriminate]).
      apply in_map_iff in Q. destruct Q as (r & <- & Hr). apply M0, Hr.
    - apply rmaximum_ge. apply (in_map acq). apply N0, I0. }
  rewrite MX.
  destruct (climb_inv raw (nthp raw i0, acq (nthp raw i0)) (nthp raw i0 :: map (nthp raw) (firstn n rest))) as (K1 & K2 & K3 & K4).
  - intros s [<-|Hs]; [apply HC, N0, I0|]. apply in_map_iff in Hs. destruct Hs as (i & <- & Hi). apply HC, N0, B. right.
    rewrite <- (firstn_skipn n rest). apply in_or_app. left. exact Hi.
  - apply HC, N0, I0.
  - left. split; [apply N0, I0|reflexivity].
  - destruct (fold_left _ _ _) as [u v] eqn:E. cbn [fst snd] in *. exists u, v.
    split; [reflexivity|]. split; [exact K1|]. split; [|exact K3]. intros r Hr. specialize (M0 r Hr). lra.
Qed.
End Max.

(** ** The least-squares mean and the training box *)
Lemma var_le f n c : (0 < n)%nat -> var_of f n <= rsum (fun a => (f a - c) ^ 2) n / INR n.
Proof.
  intros Hn. assert (0 < INR n) by (apply lt_0_INR, Hn). unfold var_of, Rdiv. apply Rmult_le_compat_r; [left; apply Rinv_0_lt_compat; lra|].
  set (m := mean_of f n). assert (E : rsum f n = INR n * m) by (unfold m, mean_of; field; lra).
  assert (Q : forall c, rsum (fun a => (f a - c) ^ 2) n = rsum (fun a => f a ^ 2) n - 2 * c * rsum f n + INR n * c ^ 2).
  { intros d. rewrite (rsum_ext _ (fun a => f a ^ 2 + ((- 2 * d) * f a + d ^ 2))) by (intros; ring).
    rewrite rsum_plus, rsum_plus, rsum_scal, rsum_const. ring. }
  rewrite !Q, E. pose proof (pow2_ge_0 (m - c)). nra.
Qed.
Lemma var_nonneg f n : (0 < n)%nat -> 0 <= var_of f n.
Proof.
  intros Hn. unfold var_of. apply Rmult_le_pos; [|left; apply Rinv_0_lt_compat, lt_0_INR, Hn].
  apply rsum_nonneg. intros. apply pow2_ge_0.
Qed.
Lemma poly_const D c x : poly_mean D (fun j => match j with O => c | _ => 0 end) x = c.
Proof. rewrite poly_mean_eq. rewrite (rsum_ext _ (fun _ => 0)), rsum_const; [ring|]. intros. cbn. ring. Qed.
Lemma scale_l lstsq D n us ys vs : least_squares lstsq -> (0 < n)%nat ->
  let sc := f_scale (fit_settings lstsq D n us ys vs) in
  0 < sc /\ (var_of ys n <> 0 -> sc <= var_of ys n) /\ (var_of ys n = 0 -> sc = 1).
Proof.
  intros LS Hn. assert (E : f_scale (fit_settings lstsq D n us ys vs) =
    let residual a := match polynomial_mean lstsq D n us ys with Some c => ys a - poly_mean D c (us a) | None => ys a - mean_of ys n end in
    if Rle_dec (var_of residual n) 0 then (if Req_EM_T (var_of ys n) 0 then 1 else var_of ys n) else var_of residual n) by (destruct vs; reflexivity).
  rewrite E. clear E. cbn zeta. set (res := fun a => match polynomial_mean lstsq D n us ys with Some c => _ | None => _ end).
  assert (I : 0 < INR n) by (apply lt_0_INR, Hn).
  assert (B : var_of res n <= var_of ys n).
  { eapply Rle_trans; [apply (var_le res n 0 Hn)|]. unfold var_of at 1, Rdiv. apply Rmult_le_compat_r; [left; apply Rinv_0_lt_compat; lra|].
    unfold res, polynomial_mean. destruct (Nat.ltb _ _).
    - right. apply rsum_ext. intros. ring.
    - pose proof (LS n (n_coef D) (fun a => design_row D (us a)) ys (fun j => match j with O => mean_of ys n | _ => 0 end)) as L.
      unfold sum_squares in L.
      eapply Rle_trans; [|eapply Rle_trans; [exact L|]]; right; apply rsum_ext; intros a _.
      + rewrite Rminus_0_r. reflexivity.
      + f_equal. f_equal. apply poly_const. }
  pose proof (var_nonneg ys n Hn). destruct (Rle_dec (var_of res n) 0); [destruct (Req_EM_T (var_of ys n) 0)|]; repeat split; intros; lra.
Qed.
Lemma settings_eq lstsq D n us ys vs : let st := fit_settings lstsq D n us ys vs in
  let nugget := Rmax (/ 10 ^ 7 * f_scale st) (/ 10 ^ 12) in
  f_coef st = polynomial_mean lstsq D n us ys /\
  f_init st = (fun k => match k with O => f_scale st | S i => if (i <? D)%nat then 3 / 10 else Rmax (/ 10 ^ 4 * f_scale st) nugget end) /\
  f_lo st = (fun k => match k with O => / 10 ^ 4 * f_scale st + / 10 ^ 12 | S i => if (i <? D)%nat then / 10 ^ 2 else nugget end) /\
  f_hi st = (fun k => match k with O => 10 ^ 2 * f_scale st + / 10 ^ 9 | S i => if (i <? D)%nat then 2 else Rmax (f_scale st) (10 * nugget) end) /\
  f_noise st = match vs with None => None | Some v => Some (fun a => Rmax (v a) nugget) end /\
  f_count st = match vs with None => 2 + D | Some _ => 1 + D end%nat.
Proof. destruct vs; repeat split. Qed.

Lemma cross_first g a : first_coordinates (s_dim g) (fun u => cross g u a).
Proof.
  intros x y H. unfold cross. rewrite !kernel_M2e. f_equal. f_equal. f_equal. apply rsum_ext. intros i Hi. rewrite (H i Hi). reflexivity.
Qed.
Lemma nei_first Phi g samples : normal_cdf Phi -> samples <> [] -> first_coordinates (s_dim g) (fun u => fst (nei_grad Phi g samples u)).
Proof.
  intros HP HS x y H. destruct (nei_grad_eq Phi HP g samples HS x) as [-> _]. destruct (nei_grad_eq Phi HP g samples HS y) as [-> _].
  assert (C : forall a, cross g x a = cross g y a) by (intros; apply cross_first, H).
  assert (V : shown_var g x = shown_var g y).
  { unfold shown_var. replace (raw_var g x) with (raw_var g y); [reflexivity|]. unfold raw_var. f_equal. apply rsum_ext. intros a _.
    rewrite C. f_equal. apply rsum_ext. intros b _. rewrite C. reflexivity. }
  assert (M : shown_mean g x = shown_mean g y).
  { unfold shown_mean, shown_prior. f_equal.
    - destruct (s_coef g); [|reflexivity]. rewrite !poly_mean_eq. f_equal. apply rsum_ext. intros i Hi. rewrite (H i Hi). reflexivity.
    - apply rsum_ext. intros a _. rewrite C. reflexivity. }
  unfold nval. rewrite V, M. reflexivity.
Qed.

(** ** A least-squares solver: one column at a time *)
Definition dotn (n : nat) (x y : nat -> R) : R := rsum (fun i => x i * y i) n.
Fixpoint ls (cols rows : nat) (A : nat -> nat -> R) (b : nat -> R) : nat -> R :=
  match cols with
  | O => fun _ => 0
  | S m =>
      let c1 := ls m rows A (fun a => A a m) in
      let c2 := ls m rows A b in
      let a' i := A i m - rsum (fun j => A i j * c1 j) m in
      let r i := b i - rsum (fun j => A i j * c2 j) m in
      let t := if Req_EM_T (dotn rows a' a') 0 then 0 else dotn rows r a' / dotn rows a' a' in
      fun j => if Nat.eqb j m then t else c2 j - t * c1 j
  end.
Lemma dotn_zero n x : dotn n x x = 0 -> forall i, (i < n)%nat -> x i = 0.
Proof.
  unfold dotn. induction n as [|n IH]; cbn; [lia|]. intros E i Hi.
  assert (0 <= rsum (fun i => x i * x i) n) by (apply rsum_nonneg; intros; nra).
  assert (0 <= x n * x n) by nra. assert (x n * x n = 0) by lra.
  destruct (Nat.eq_dec i n) as [->|]; [nra|]. apply IH; [lra|lia].
Qed.
Lemma dotn_plus n x y z : dotn n (fun i => x i + y i) z = dotn n x z + dotn n y z.
Proof. unfold dotn. rewrite <- rsum_plus. apply rsum_ext. intros. ring. Qed.
Lemma dotn_scal n c x z : dotn n (fun i => c * x i) z = c * dotn n x z.
Proof. unfold dotn. rewrite <- rsum_scal. apply rsum_ext. intros. ring. Qed.
Lemma dotn_ext n x x' z : (forall i, (i < n)%nat -> x i = x' i) -> dotn n x z = dotn n x' z.
Proof. intros H. apply rsum_ext. intros i Hi. rewrite (H i Hi). reflexivity. Qed.
Lemma dotn_comm n x z : dotn n x z = dotn n z x.
Proof. apply rsum_ext. intros. ring. Qed.
Lemma ls_orth cols rows A b : forall k, (k < cols)%nat ->
  dotn rows (fun i => b i - rsum (fun j => A i j * ls cols rows A b j) cols) (fun i => A i k) = 0.
Proof.
  revert b. induction cols as [|m IH]; intros b k Hk; [lia|].
  cbn [ls]. set (c1 := ls m rows A (fun a => A a m)). set (c2 := ls m rows A b).
  set (a' := fun i => A i m - rsum (fun j => A i j * c1 j) m). set (r := fun i => b i - rsum (fun j => A i j * c2 j) m).
  set (t := if Req_EM_T (dotn rows a' a') 0 then 0 else dotn rows r a' / dotn rows a' a').
  assert (E : forall i, b i - rsum (fun j => A i j * (if Nat.eqb j m then t else c2 j - t * c1 j)) (S m) = r i + - t * a' i).
  { intros i. cbn [rsum]. rewrite Nat.eqb_refl.
    rewrite (rsum_ext _ (fun j => A i j * c2 j + (- t) * (A i j * c1 j))).
    - rewrite rsum_plus, rsum_scal. unfold r, a'. ring.
    - intros j Hj. destruct (Nat.eqb_spec j m); [lia|]. ring. }
  rewrite (dotn_ext _ _ (fun i => r i + - t * a' i)) by (intros; apply E). rewrite dotn_plus, dotn_scal.
  assert (O1 : forall k, (k < m)%nat -> dotn rows a' (fun i => A i k) = 0) by (intros; apply (IH (fun a => A a m)); assumption).
  assert (O2 : forall k, (k < m)%nat -> dotn rows r (fun i => A i k) = 0) by (intros; apply (IH b); assumption).
  destruct (Nat.eq_dec k m) as [->|Hn].
  - assert (Sp : forall x, (forall k, (k < m)%nat -> dotn rows x (fun i => A i k) = 0) -> dotn rows x (fun i => A i m) = dotn rows x a').
    { intros x Hx. assert (Z : dotn rows x (fun i => rsum (fun j => A i j * c1 j) m) = 0).
      { unfold dotn. rewrite (rsum_ext _ (fun i => rsum (fun j => x i * A i j * c1 j) m)) by (intros; rewrite <- rsum_scal; apply rsum_ext; intros; ring).
        rewrite rsum_swap. rewrite (rsum_ext _ (fun _ => 0)), rsum_const; [ring|]. intros j Hj. rewrite rsum_scal_r.
        pose proof (Hx j Hj) as Q. unfold dotn in Q. rewrite Q. ring. }
      rewrite dotn_comm, (dotn_comm _ x a'). rewrite (dotn_comm _ x) in Z.
      rewrite (dotn_ext _ (fun i => A i m) (fun i => a' i + rsum (fun j => A i j * c1 j) m)) by (intros; unfold a'; ring).
      rewrite dotn_plus, Z. ring. }
    rewrite (Sp r O2), (Sp a' O1). unfold t. destruct (Req_EM_T (dotn rows a' a') 0) as [Z|Z]; [|field; exact Z].
    rewrite (dotn_comm _ r a'), (dotn_ext _ a' (fun _ => 0 * 0)); [|intros i Hi; rewrite (dotn_zero _ _ Z i Hi); ring].
    rewrite dotn_scal. ring.
  - rewrite O1, O2 by lia. ring.
Qed.
Lemma ls_least : least_squares (fun rows cols => ls cols rows).
Proof.
  intros rows cols A b c. unfold sum_squares. set (x := ls cols rows A b).
  set (r := fun i => b i - rsum (fun j => A i j * x j) cols). set (d := fun i => rsum (fun j => A i j * (x j - c j)) cols).
  rewrite (rsum_ext (fun a => (b a - rsum (fun j => A a j * c j) cols) ^ 2) (fun a => r a ^ 2 + (2 * (r a * d a) + d a ^ 2))).
  - rewrite rsum_plus, rsum_plus, rsum_scal. fold (dotn rows r d).
    assert (Z : dotn rows r d = 0).
    { unfold dotn, d. rewrite (rsum_ext _ (fun i => rsum (fun j => r i * A i j * (x j - c j)) cols)) by (intros; rewrite <- rsum_scal; apply rsum_ext; intros; ring).
      rewrite rsum_swap. rewrite (rsum_ext _ (fun _ => 0)), rsum_const; [ring|]. intros j Hj. rewrite rsum_scal_r.
      pose proof (ls_orth cols rows A b j Hj) as Q. unfold dotn in Q. fold x in Q. fold r in Q. unfold r in *. rewrite Q. ring. }
    rewrite Z. assert (0 <= rsum (fun i => d i ^ 2) rows) by (apply rsum_nonneg; intros; apply pow2_ge_0). unfold r in *. lra.
  - intros a _. unfold r, d. rewrite (rsum_ext (fun j => A a j * (x j - c j)) (fun j => A a j * x j + - 1 * (A a j * c j))) by (intros; ring).
    rewrite rsum_plus, rsum_scal. ring.
Qed.
