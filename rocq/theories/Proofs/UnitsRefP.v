(** Where the unit of the inputs does matter. *)
From Coq Require Import Reals Lra Lia.
From Verif Require Import Model.Prelude Model.Ext Model.Kernels Model.MCMC Model.AdaptRun Model.Adapt Model.Training Model.TrainPlan Model.DefaultTraining Model.FiniteDiff Model.PointGrad.
From Verif Require Import Spec.Sums Spec.UnitsSpec Proofs.MCMCP Proofs.UnitsP.
Local Open Scope R_scope.

(** ** the kernel is strictly decreasing *)
Lemma bump_decr a b : 0 <= a < b -> (1 + b) * exp (- b) < (1 + a) * exp (- a).
Proof.
  intros H. assert (E : 1 + (b - a) < exp (b - a)) by (apply exp_ineq1; lra).
  replace (- a) with (- b + (b - a)) by ring. rewrite exp_plus. pose proof (exp_pos (- b)) as Pb.
  replace ((1 + a) * (exp (- b) * exp (b - a))) with (exp (- b) * ((1 + a) * exp (b - a))) by ring. rewrite (Rmult_comm (1 + b)).
  apply Rmult_lt_compat_l; [exact Pb|]. nra.
Qed.
Lemma matern_decr a b : 0 <= a < b -> matern1 b 1 < matern1 a 1.
Proof.
  intros H. unfold matern1. assert (S3 : 0 < sqrt 3) by (apply sqrt_lt_R0; lra). unfold Rdiv. rewrite !Rinv_1, !Rmult_1_r.
  apply bump_decr. nra.
Qed.
Lemma matern_0 : matern1 0 1 = 1.
Proof. unfold matern1. rewrite Rmult_0_r, Ropp_0. unfold Rdiv. rewrite !Rmult_0_l, exp_0. lra. Qed.
Lemma matern_pos a : 0 <= a -> 0 < matern1 a 1.
Proof.
  intros H. unfold matern1. assert (S3 : 0 < sqrt 3) by (apply sqrt_lt_R0; lra). apply Rmult_lt_0_compat; [|apply exp_pos].
  assert (0 <= sqrt 3 * a) by nra. unfold Rdiv. rewrite Rinv_1. lra.
Qed.
Lemma sqrt_sq z : sqrt (0 + Rabs z ^ 2) = Rabs z.
Proof. rewrite Rplus_0_l. apply sqrt_pow2, Rabs_pos. Qed.
Lemma kernel_1d h x y : default_kernel 1 x y h = h O * matern1 (Rabs ((x O - y O) / h 1%nat)) 1.
Proof. unfold default_kernel. cbn [rsum]. rewrite sqrt_sq. reflexivity. Qed.

(** ** one update *)
Lemma one_update (draw : option (nat -> nat -> R) -> (nat -> R) -> list ext -> list ext) D y xs lik init current us w b x0 x1 r0 r1 :
  default_bounds true (length current) y (columns D xs) = Ok b ->
  start_point init current (ebox b) us = Ok x0 ->
  scatter x0 (seq 0 (length b)) (draw (n_Sigma (p_args (default_proposal b))) w (gather x0 (seq 0 (length b)))) = Some x1 ->
  training_prior (ebox b) x0 = Fin 0 -> training_prior (ebox b) x1 = Fin 0 -> lik x0 = Fin r0 -> lik x1 = Fin r1 ->
  exists inf, train_mcmc _ draw D y xs lik init current us 2 (fun _ _ => (w, 0)) = Ok (inf, mcmc_result (length x0) [x1]) /\ i_window inf = [x1].
Proof.
  intros B S X P0 P1 L0 L1. unfold train_mcmc. rewrite B, S.
  assert (A : accepts (esub (esub (eadd (Fin 0) (Fin r1)) (Fin 0)) (Fin r0)) 0 false = true).
  { unfold accepts. rewrite Bool.orb_false_r. cbn [esub eadd eopp]. rewrite ratio_nonneg_fin. unfold eltb.
    destruct (Rlt_dec 0 _) as [|N]; [reflexivity|]. exfalso. apply N. destruct (Rlt_dec _ 50); [apply exp_pos|lra]. }
  assert (J : jump nargs (nat -> R) lik (training_prior (ebox b)) (normal_proposal _ draw) x0 (default_proposal b) (Fin 0) (Fin r0) w 0 = Ok (x1, Fin 0, Fin r1, 1)).
  { unfold jump, normal_proposal. change (p_indices (default_proposal b)) with (seq 0 (length b)). rewrite X, P1, L1.
    change (p_auto (default_proposal b)) with false. cbn [isninf negb isnan]. rewrite A. reflexivity. }
  unfold run_mcmc. cbn [Nat.max Nat.sub loop sweep fst snd]. rewrite P0, L0, J. cbn [t_x t_f app].
  eexists. split; reflexivity.
Qed.

(** ** two observations 0 and 1 at the points 0 and 1 *)
Definition two_x : list point := [(fun _ => 0); (fun _ => 1)].
Definition two_y : list R := [0; 1].
Definition in_u (c : R) : list point := map (in_unit (fun _ => c) (fun _ => 0)) two_x.
Lemma two_bounds c k : 0 < c -> k = 2%nat -> default_bounds true k two_y (columns 1 (in_u c)) = Ok [(/ 400, 5 / 2); (c / 100, c * 10)].
Proof.
  intros C ->. unfold default_bounds, columns, in_u, two_x, two_y, in_unit. cbn [negb length map seq Nat.add Nat.eqb].
  assert (V : np_var [0; 1] = / 4) by (unfold np_var, np_mean, rsuml; cbn [map fold_right length]; cbn [INR]; lra).
  assert (Q : col_range [c * 0 + 0; c * 1 + 0] = c).
  { cbn. rewrite Rmax_right, Rmin_left by lra. ring. }
  rewrite V, Q. replace (/ 4 / 100) with (/ 400) by lra. replace (/ 4 * 10) with (5 / 2) by lra. reflexivity.
Qed.
Lemma prior_in a l b1 b2 b3 b4 : b1 <= a <= b2 -> b3 <= l <= b4 -> in_bounds [Fin a; Fin l] (ebox [(b1, b2); (b3, b4)]) = Some true.
Proof.
  intros [] []. unfold in_bounds. cbn. repeat match goal with |- context [Rlt_dec ?u ?v] => destruct (Rlt_dec u v); [exfalso; lra|] end. reflexivity.
Qed.
Lemma start_in a l b1 b2 b3 b4 us cur : b1 <= a <= b2 -> b3 <= l <= b4 -> start_point (Some [Fin a; Fin l]) cur (ebox [(b1, b2); (b3, b4)]) us = Ok [Fin a; Fin l].
Proof.
  intros A L. unfold start_point. assert (E : choose_init (Some [Fin a; Fin l]) cur (ebox [(b1, b2); (b3, b4)]) us = Ok [Fin a; Fin l]).
  { destruct A, L. unfold choose_init. cbn. repeat match goal with |- context [Rlt_dec ?u ?v] => destruct (Rlt_dec u v); [exfalso; lra|] end. reflexivity. }
  rewrite E, prior_in by assumption. reflexivity.
Qed.
Lemma start_none init cur b us : start_point None cur b us = start_point (Some cur) init b us.
Proof. reflexivity. Qed.
Definition finite_likelihood (lik : vec -> ext) := forall h, finite h <> None -> exists r, lik h = Fin r.
Lemma fin2 lik a l : finite_likelihood lik -> exists r, lik [Fin a; Fin l] = Fin r.
Proof. intros F. apply F. discriminate. Qed.
Lemma result1 a l : mcmc_result 2 [[Fin a; Fin l]] = [Fin a; Fin l].
Proof. reflexivity. Qed.
Definition std (lo hi : R) := (hi - lo) * (2 / 10) / sqrt 12.
Lemma s12 : 3 < sqrt 12 < 4.
Proof. split; [rewrite <- (sqrt_square 3) by lra|rewrite <- (sqrt_square 4) by lra]; apply sqrt_lt_1; lra. Qed.
Lemma std_pos lo hi : lo < hi -> 0 < std lo hi.
Proof. intros H. unfold std. apply Rdiv_lt_0_compat; [lra|]. pose proof s12. lra. Qed.
Lemma std_lt lo hi lo' hi' : hi - lo < hi' - lo' -> std lo hi < std lo' hi'.
Proof. intros H. unfold std, Rdiv. apply Rmult_lt_compat_r; [apply Rinv_0_lt_compat; pose proof s12; lra|]. lra. Qed.
Lemma std_le lo hi : lo < hi -> std lo hi <= (hi - lo) / 10.
Proof.
  intros H. unfold std. pose proof s12. apply Rle_trans with ((hi - lo) * (2 / 10) / 3); [|lra]. unfold Rdiv at 1 3. apply Rmult_le_compat_l; [lra|]. apply Rinv_le_contravar; lra.
Qed.
Definition sg (b1 b2 b3 b4 : R) := n_Sigma (p_args (default_proposal [(b1, b2); (b3, b4)])).
Lemma svd2 M w a l : svd_draw (Some M) w [Fin a; Fin l] = [Fin (a + sqrt (M 0%nat 0%nat) * w (rank M 2 0)); Fin (l + sqrt (M 1%nat 1%nat) * w (rank M 2 1))].
Proof. reflexivity. Qed.
Lemma draw_zero b1 b2 b3 b4 a l : svd_draw (sg b1 b2 b3 b4) (fun _ => 0) [Fin a; Fin l] = [Fin a; Fin l].
Proof. unfold svd_draw, sg. cbn [default_proposal p_args n_Sigma length seq combine map fst snd eadd]. rewrite !Rmult_0_r, !Rplus_0_r. reflexivity. Qed.
Lemma draw_first b1 b2 b3 b4 a l : b1 < b2 -> b3 < b4 -> 
  svd_draw (sg b1 b2 b3 b4) (fun i => match i with O => 1 | _ => 0 end) [Fin a; Fin l] =
  if Rlt_dec (b2 - b1) (b4 - b3) then [Fin a; Fin (l + std b3 b4)] else [Fin (a + std b1 b2); Fin l].
Proof.
  intros H1 H2. pose proof (std_pos _ _ H1). pose proof (std_pos _ _ H2).
  unfold sg. cbn [default_proposal p_args n_Sigma]. set (M := fun k l : nat => if Nat.eqb k l then _ else 0). rewrite svd2.
  assert (M0 : M 0%nat 0%nat = std b1 b2 ^ 2) by reflexivity. assert (M1 : M 1%nat 1%nat = std b3 b4 ^ 2) by reflexivity.
  rewrite M0, M1, !sqrt_pow2 by lra. unfold rank. cbn [seq filter]. rewrite M0, M1.
  destruct (Rlt_dec (b2 - b1) (b4 - b3)) as [L|L].
  - pose proof (std_lt _ _ _ _ L) as Q. assert (Q2 : std b1 b2 ^ 2 < std b3 b4 ^ 2) by nra.
    repeat match goal with |- context [Rlt_dec ?u ?v] => destruct (Rlt_dec u v); try (exfalso; lra) end.
    repeat match goal with |- context [Req_EM_T ?u ?v] => destruct (Req_EM_T u v); try (exfalso; lra) end.
    cbn [Nat.ltb Nat.leb length]. rewrite Rmult_0_r, Rmult_1_r, Rplus_0_r. reflexivity.
  - assert (Q2 : std b3 b4 ^ 2 <= std b1 b2 ^ 2).
    { assert (std b3 b4 <= std b1 b2); [|nra]. unfold std, Rdiv. apply Rmult_le_compat_r; [left; apply Rinv_0_lt_compat; pose proof s12; lra|]. lra. }
    repeat match goal with |- context [Rlt_dec ?u ?v] => destruct (Rlt_dec u v); try (exfalso; lra) end;
    repeat match goal with |- context [Req_EM_T ?u ?v] => destruct (Req_EM_T u v); try (exfalso; lra) end;
    cbn [Nat.ltb Nat.leb length]; rewrite Rmult_0_r, Rmult_1_r, Rplus_0_r; reflexivity.
Qed.
Lemma step2 c lik init cur us w a l a1 l1 : 0 < c -> finite_likelihood lik -> length cur = 2%nat ->
  start_point init cur (ebox [(/ 400, 5 / 2); (c / 100, c * 10)]) us = Ok [Fin a; Fin l] -> / 400 <= a <= 5 / 2 -> c / 100 <= l <= c * 10 ->
  svd_draw (sg (/ 400) (5 / 2) (c / 100) (c * 10)) w [Fin a; Fin l] = [Fin a1; Fin l1] -> / 400 <= a1 <= 5 / 2 -> c / 100 <= l1 <= c * 10 ->
  exists inf, train_mcmc _ svd_draw 1 two_y (in_u c) lik init cur us 2 (fun _ _ => (w, 0)) = Ok (inf, [Fin a1; Fin l1]).
Proof.
  intros C F Lc S Ha Hl Dr Ha1 Hl1. destruct (fin2 lik a l F) as [r0 L0]. destruct (fin2 lik a1 l1 F) as [r1 L1].
  destruct (one_update svd_draw 1 two_y (in_u c) lik init cur us w _ [Fin a; Fin l] [Fin a1; Fin l1] r0 r1 (two_bounds c _ C Lc) S) as (inf & E & _).
  - cbn [length seq gather map nth]. fold (sg (/ 400) (5 / 2) (c / 100) (c * 10)). rewrite Dr. reflexivity.
  - unfold training_prior. rewrite prior_in by assumption. reflexivity.
  - unfold training_prior. rewrite prior_in by assumption. reflexivity.
  - exact L0.
  - exact L1.
  - exists inf. exact E.
Qed.
Lemma start_differs lik lik' us : finite_likelihood lik -> finite_likelihood lik' -> (forall i, 0 <= us i <= 1) ->
  let still := fun _ _ : nat => (fun _ : nat => 0, 0) in
  (exists inf, train_mcmc _ svd_draw 1 two_y (in_u 1) lik None (ones 1) us 2 still = Ok (inf, [Fin 1; Fin 1])) /\
  (exists inf, train_mcmc _ svd_draw 1 two_y (in_u 1000) lik' None (ones 1) us 2 still =
     Ok (inf, [Fin (/ 400 + us 0%nat * (5 / 2 - / 400)); Fin (10 + us 1%nat * 9990)])).
Proof.
  intros F F' H still. split.
  - apply (step2 1 lik None (ones 1) us (fun _ => 0) 1 1 1 1); try lra; auto; [|apply draw_zero].
    rewrite (start_none []). apply start_in; lra.
  - pose proof (H O) as U0. pose proof (H 1%nat) as U1.
    assert (A : / 400 <= / 400 + us O * (5 / 2 - / 400) <= 5 / 2) by nra. assert (B : 1000 / 100 <= 10 + us 1%nat * 9990 <= 1000 * 10) by nra.
    apply (step2 1000 lik' None (ones 1) us (fun _ => 0) (/ 400 + us O * (5 / 2 - / 400)) (10 + us 1%nat * 9990)); try lra; auto; [|apply draw_zero].
    unfold start_point. assert (E : choose_init None (ones 1) (ebox [(/ 400, 5 / 2); (1000 / 100, 1000 * 10)]) us = Ok [Fin (/ 400 + us O * (5 / 2 - / 400)); Fin (10 + us 1%nat * 9990)]).
    { unfold choose_init, ones. cbn. repeat match goal with |- context [Rlt_dec ?u ?v] => destruct (Rlt_dec u v); try (exfalso; lra) end. cbn. do 4 f_equal. lra. }
    rewrite E, prior_in by assumption. reflexivity.
Qed.
Definition first_only (i : nat) : R := match i with O => 1 | _ => 0 end.
Lemma draw_differs lik lik' us : finite_likelihood lik -> finite_likelihood lik' ->
  let c := fun _ : nat => / 10 in let one_number := fun _ _ : nat => (first_only, 0) in
  (exists inf, train_mcmc _ svd_draw 1 two_y (in_u 1) lik (Some (ones 1)) (ones 1) us 2 one_number = Ok (inf, [Fin 1; Fin (1 + std (1 / 100) 10)])) /\
  (exists inf, train_mcmc _ svd_draw 1 two_y (in_u (/ 10)) lik' (Some (hps_in_unit c (ones 1))) (ones 1) us 2 one_number = Ok (inf, [Fin (1 + std (/ 400) (5 / 2)); Fin (/ 10)])).
Proof.
  intros F F' c one_number. split.
  - assert (B : 0 < std (1 / 100) 10 <= 1) by (split; [apply std_pos; lra|eapply Rle_trans; [apply std_le; lra|lra]]).
    apply (step2 1 lik (Some (ones 1)) (ones 1) us first_only 1 1); try lra; auto.
    + apply start_in; lra.
    + unfold first_only. rewrite draw_first by lra. destruct (Rlt_dec _ _) as [|N]; [|exfalso; lra]. rewrite Rmult_1_l. reflexivity.
  - assert (B : 0 < std (/ 400) (5 / 2) <= 1) by (split; [apply std_pos; lra|eapply Rle_trans; [apply std_le; lra|lra]]).
    apply (step2 (/ 10) lik' (Some (hps_in_unit c (ones 1))) (ones 1) us first_only 1 (/ 10)); try lra; auto.
    + replace (hps_in_unit c (ones 1)) with [Fin 1; Fin (/ 10)] by (cbn; rewrite !Rmult_1_r; reflexivity). apply start_in; lra.
    + unfold first_only. rewrite draw_first by lra. destruct (Rlt_dec _ _) as [N|]; [exfalso; lra|]. reflexivity.
Qed.
Lemma step_differs l : 0 < l -> exists c, 0 < c < 1 /\
  let g l := mean_grad (fun x y => default_kernel 1 x y (fun k => match k with O => 1 | _ => l end)) (fun _ => 0) 1 (fun _ _ => 0) DFloat (fun _ => 1) (fun _ => 0) 0 in
  exists v v', g l = Some v /\ g (c * l) = Some v' /\ v' <> v / c.
Proof.
  intros Hl. set (e := / 10 ^ 8). assert (He : 0 < e) by (apply Rinv_0_lt_compat, pow_lt; lra).
  assert (K : 0 < matern1 (e / l) 1 < 1).
  { assert (0 < e / l) by (apply Rdiv_lt_0_compat; lra). split; [apply matern_pos; lra|]. pose proof (matern_decr 0 (e / l)) as M. rewrite matern_0 in M. apply M. lra. }
  set (k0 := matern1 (e / l) 1) in *. exists ((1 - k0) / 2). split; [lra|]. set (c := (1 - k0) / 2). assert (C : 0 < c) by (unfold c; lra).
  assert (G : forall l, 0 < l -> mean_grad (fun x y => default_kernel 1 x y (fun k => match k with O => 1 | _ => l end)) (fun _ => 0) 1 (fun _ _ => 0) DFloat (fun _ => 1) (fun _ => 0) 0 = Some ((matern1 (e / l) 1 - 1) / e)).
  { intros l' Hl'. unfold mean_grad, d_kernel_dx. f_equal. cbn [rsum]. rewrite !kernel_1d. unfold set_item, store. cbn [Nat.eqb]. fold e.
    replace ((0 + e - 0) / l') with (e / l') by (field; lra). replace ((0 - 0) / l') with 0 by (field; lra). rewrite Rabs_R0, matern_0.
    rewrite Rabs_pos_eq by (left; apply Rdiv_lt_0_compat; lra). unfold Rdiv. ring. }
  intros g. exists ((k0 - 1) / e), ((matern1 (e / (c * l)) 1 - 1) / e). split; [exact (G l Hl)|]. split; [exact (G (c * l) (Rmult_lt_0_compat _ _ C Hl))|].
  intros E. assert (M : 0 < matern1 (e / (c * l)) 1) by (apply matern_pos; left; apply Rdiv_lt_0_compat; [lra|nra]).
  assert (E2 : c * (matern1 (e / (c * l)) 1 - 1) = k0 - 1).
  { transitivity (c * e * ((matern1 (e / (c * l)) 1 - 1) / e)); [field; lra|]. rewrite E. field. lra. }
  assert (0 < c * matern1 (e / (c * l)) 1) by (apply Rmult_lt_0_compat; lra). assert (c = (1 - k0) / 2) by reflexivity. lra.
Qed.
