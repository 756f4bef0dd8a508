(** Properties C155, C156: adaptation of the normal proposal and the default break condition. *)
From Coq Require Import Reals Lra.
From Verif Require Import Model.Prelude Model.Ext Model.MCMC Model.Adapt Model.AdaptRun Spec.AdaptRunSpec Proofs.AdaptRunP Props.MCMCProps.
Local Open Scope R_scope.

(** C155 is false: whatever target acceptance rate, gain, scale sigma_m and acceptances recorded in earlier runs, the
    run is the same to the last sample. *)
Theorem step_size_follows_rate_refuted : forall Omega lik prior draw x0 n rnd brk os os',
  Forall2 same_but_rate os os' ->
  run_mcmc nargs Omega lik prior (normal_proposal Omega draw) adapt_args x0 n rnd brk os =
  run_mcmc nargs Omega lik prior (normal_proposal Omega draw) adapt_args x0 n rnd brk os'.
Proof. exact run_sim. Qed.
Print Assumptions step_size_follows_rate_refuted.

(** C155, what is true: without adapt_cov nothing adapts; with it, a window in which the chain did not move multiplies
    the covariance of the proposals by 1 - gamma2, a number of [0, 1). *)
Theorem step_size_follows_rate_partial :
  (forall Omega lik prior draw x0 n rnd brk os,
    Forall (fun o => n_adapt_cov (p_args o) = false) os ->
    run_mcmc nargs Omega lik prior (normal_proposal Omega draw) adapt_args x0 n rnd brk os =
    run_mcmc nargs Omega lik prior (normal_proposal Omega draw) no_adapt x0 n rnd brk os) /\
  (forall i t (o : prop nargs) M x,
    (3 <= n_K (p_args o))%nat -> (i mod n_K (p_args o) = 0)%nat -> (n_K (p_args o) <= i <= length (t_x t))%nat ->
    n_adapt_cov (p_args o) = true -> n_Sigma (p_args o) = Some M -> 0 <= n_c1 (p_args o) ->
    all_finite (gather x (p_indices o)) ->
    (forall y, In y (window i (n_K (p_args o)) (t_x t)) -> gather y (p_indices o) = gather x (p_indices o)) ->
    exists M' c, n_Sigma (adapt_args i t o) = Some M' /\ 0 <= c < 1 /\ forall k l, M' k l = c * M k l).
Proof.
  split; [exact run_off|]. intros i t o M x HK Hm Hi Ha HM Hc Hx Hw.
  destruct (standstill (p_args o) i (p_indices o) (t_x t) M x HK Hi Ha HM Hx Hw) as (M' & E & EM).
  exists M', (1 - gamma2 (n_c1 (p_args o)) i (n_K (p_args o))). unfold adapt_args. rewrite Hm, Nat.eqb_refl. cbn [n_Sigma].
  repeat match goal with |- _ /\ _ => split end; auto.
  - unfold gamma2. assert (Hb : 3 <= INR i / INR (n_K (p_args o)) + 3).
    { assert (0 <= INR i / INR (n_K (p_args o))); [|lra]. apply Rmult_le_pos; [apply pos_INR|]. left. apply Rinv_0_lt_compat, lt_0_INR. lia. }
    assert (Hr : 1 <= Rpower (INR i / INR (n_K (p_args o)) + 3) (n_c1 (p_args o))).
    { rewrite <- (Rpower_O (INR i / INR (n_K (p_args o)) + 3)) by lra. apply Rle_Rpower; lra. }
    assert (/ Rpower (INR i / INR (n_K (p_args o)) + 3) (n_c1 (p_args o)) <= 1); [|lra]. rewrite <- Rinv_1. apply Rinv_le_contravar; lra.
  - assert (0 < gamma2 (n_c1 (p_args o)) i (n_K (p_args o))); [|lra]. unfold gamma2. apply Rinv_0_lt_compat. apply exp_pos.
Qed.
Print Assumptions step_size_follows_rate_partial.

(** C155: the scale sigma_m itself does follow the rate, every K iterations: it grows exactly if more proposals of the last K - 1 iterations were accepted
    than r_opt asks for, and shrinks exactly if fewer.  With K = 2 the sample covariance is that of one point, and the covariance of the proposals is not a number
    from then on. *)
Theorem scale_follows_rate : forall i t (o : prop nargs) s,
  (2 <= n_K (p_args o) <= i)%nat -> (i mod n_K (p_args o) = 0)%nat -> (i <= length (p_jumps o))%nat -> 0 < n_c0 (p_args o) ->
  n_sigma (p_args o) = Some s -> 0 < s ->
  (let K := n_K (p_args o) in let r := average (K - 1) (fun j => nth (i - K + 1 + j) (p_jumps o) 0) in
   exists s', n_sigma (adapt_args i t o) = Some s' /\ 0 < s' /\ (s < s' <-> n_ropt (p_args o) < r) /\ (s' < s <-> r < n_ropt (p_args o))) /\
  (n_K (p_args o) = 2%nat -> n_adapt_cov (p_args o) = true -> (i <= length (t_x t))%nat -> n_Sigma (adapt_args i t o) = None).
Proof.
  intros i t o s HK Hm Hj Hc Hs Hp. split.
  - intros K r. unfold adapt_args. rewrite Hm, Nat.eqb_refl. cbn [n_sigma]. unfold new_sigma. rewrite Hs. fold K.
    assert (W : window i K (p_jumps o) = map (fun j => nth (i - K + 1 + j) (p_jumps o) 0) (seq 0 (K - 1))).
    { rewrite (list_seq 0 (window i K (p_jumps o))), window_length by (unfold K; lia). apply map_ext_in. intros j Hj'. apply in_seq in Hj'.
      unfold window. rewrite <- nth_skipn'. rewrite <- (firstn_skipn (K - 1) (skipn (i - K + 1) (p_jumps o))) at 2. rewrite app_nth1; [reflexivity|].
      rewrite firstn_length, skipn_length. unfold K in *. lia. }
    assert (M : mean (fun r => r) (window i K (p_jumps o)) = r).
    { unfold mean. rewrite (window_length i K) by (unfold K; lia). unfold r, average. f_equal. rewrite W. unfold lsum. exact (fold_map_sum (fun v => v) _ _). }
    destruct (window i K (p_jumps o)) as [|j js] eqn:E. { apply (f_equal (@length R)) in W. rewrite map_length, seq_length in W. cbn in W. unfold K in W. lia. }
    destruct (Rlt_dec 0 s); [|contradiction]. eexists. split; [reflexivity|]. rewrite M. split; [apply exp_pos|].
    set (g := n_c0 (p_args o) * gamma2 (n_c1 (p_args o)) i K). assert (0 < g). { unfold g. apply Rmult_lt_0_compat; [exact Hc|]. unfold gamma2. apply Rinv_0_lt_compat, exp_pos. }
    assert (ES := exp_ln s Hp). set (e := ln s) in *. clearbody e. rewrite <- ES. split; split; intros H1.
    + apply exp_lt_inv in H1. assert (0 < g * (r - n_ropt (p_args o))) as H2 by lra. apply (Rmult_lt_reg_l g); lra.
    + apply exp_increasing. assert (0 < g * (r - n_ropt (p_args o))) by (apply Rmult_lt_0_compat; lra). lra.
    + apply exp_lt_inv in H1. assert (g * (r - n_ropt (p_args o)) < 0) as H2 by lra. apply (Rmult_lt_reg_l g); lra.
    + apply exp_increasing. assert (0 < g * (n_ropt (p_args o) - r)) by (apply Rmult_lt_0_compat; lra). lra.
  - intros K2 Ha Hx. unfold adapt_args. rewrite Hm, Nat.eqb_refl. cbn [n_Sigma]. unfold new_Sigma. rewrite Ha.
    destruct (n_Sigma (p_args o)); [|reflexivity]. pose proof (window_length i (n_K (p_args o)) (t_x t) Hx ltac:(lia) ltac:(lia)) as L. rewrite K2 in *.
    destruct (window i 2 (t_x t)) as [|x [|y w]]; cbn in L; try lia. unfold sample_cov. cbn. destruct (coords (p_indices o) x); reflexivity.
Qed.
Print Assumptions scale_follows_rate.
(** two of three accepted, one half asked for: the scale grows *)
Example scale_follows_rate_ex : exists s', n_sigma (adapt_args 4 (Trace [] []) (Prop_ [] true [0; 1; 1; 0] (NArgs (1 / 2) 1 0 4 false (Some 1) None))) = Some s' /\ 1 < s'.
Proof.
  destruct (scale_follows_rate 4 (Trace [] []) (Prop_ [] true [0; 1; 1; 0] (NArgs (1 / 2) 1 0 4 false (Some 1) None)) 1) as [(s' & E & _ & G & _) _]; cbn; try lia; try lra; try reflexivity.
  exists s'. split; [exact E|]. apply G. unfold average. cbn. lra.
Qed.

(** a run of four iterations, adaptation after the third; flat likelihood, so every proposal is accepted.  The step of
    the fourth iteration is the new covariance 1/2, whatever the target rate, gain and scale are *)
Definition exa_draw (M : option (nat -> nat -> R)) (w : R) (x : list ext) : list ext :=
  match M, x with Some A, [Fin r] => [Fin (r + w * A O O)] | _, _ => [] end.
Definition ex_os (r_opt c0 sigma : R) : list (prop nargs) :=
  [Prop_ [0%nat] false [] (NArgs r_opt c0 0 3 true (Some sigma) (Some (fun _ _ => 1)))].
Lemma ex_accept u : u = / 2 -> accepts (esub (esub (eadd (Fin 0) (Fin 0)) (Fin 0)) (Fin 0)) u false = true.
Proof.
  intros ->. unfold accepts, metr_ratio. cbn. destruct (Rlt_dec _ _) as [H|H]; [|exfalso; apply H; lra]. cbn.
  replace (0 + 0 + - 0 + - 0) with 0 by ring. rewrite exp_0. destruct (Rlt_dec (/ 2) 1) as [H1|H1]; [reflexivity|lra].
Qed.
Example step_size_follows_rate_ex : forall r_opt c0 sigma, exists t inf,
  run_mcmc nargs R (fun _ => Fin 0) (fun _ => Fin 0) (normal_proposal R exa_draw) adapt_args [Fin 0] 5 (fun _ _ => (1, / 2)) (fun _ => false)
    (ex_os r_opt c0 sigma) = Ok (t, inf) /\
  exists a b c d, t_x t = [[Fin 0]; [Fin a]; [Fin b]; [Fin c]; [Fin d]] /\ a = 1 /\ b = 2 /\ c = 3 /\ d = 3 + / 2.
Proof.
  intros r_opt c0 sigma.
  rewrite (step_size_follows_rate_refuted _ _ _ _ _ _ _ _ (ex_os r_opt c0 sigma) (ex_os 0 0 1)) by (repeat constructor).
  assert (J : forall x y o, scatter x (p_indices o) (exa_draw (n_Sigma (p_args o)) 1 (gather x (p_indices o))) = Some y -> p_auto o = false ->
    jump nargs R (fun _ => Fin 0) (fun _ => Fin 0) (normal_proposal R exa_draw) x o (Fin 0) (Fin 0) 1 (/ 2) = Ok (y, Fin 0, Fin 0, 1)).
  { intros x y o E Ea. unfold jump, normal_proposal. rewrite E, Ea. cbn [negb isninf isnan]. rewrite ex_accept by reflexivity. reflexivity. }
  unfold run_mcmc, ex_os. cbn [Nat.max Nat.sub loop sweep fst snd].
  erewrite J; [|reflexivity|reflexivity]. cbv zeta. cbn [loop sweep fst snd Nat.add].
  erewrite J; [|reflexivity|reflexivity]. cbv zeta. cbn [loop sweep fst snd Nat.add].
  erewrite J; [|reflexivity|reflexivity]. cbv zeta. cbn [loop sweep fst snd Nat.add].
  erewrite J; [|reflexivity|reflexivity]. cbv zeta. cbn [loop sweep fst snd Nat.add].
  do 2 eexists. split; [reflexivity|]. cbn [t_x app]. do 4 eexists. split; [reflexivity|].
  assert (G : gamma2 0 3 3 = 1). { unfold gamma2. rewrite Rpower_O; [lra|]. cbn. lra. }
  split; [lra|]. split; [lra|]. split; [lra|]. match goal with |- context [gamma2 ?a ?b ?c] => change (gamma2 a b c) with (gamma2 0 3 3) end. rewrite G. cbn [n_c1 cov]. unfold cov, mean, lsum. cbn. field.
Qed.

(** C156 is false: a run under the default break condition ends although the position moves by 100 between the two
    windows of 100 iterations: a flat log likelihood and proposals one unit further. *)
Definition drift_run (n : nat) :=
  run_mcmc unit R (fun _ => Fin 0) (fun _ => Fin 0) (fun w x _ _ => map (fun v => eadd v (Fin w)) x) (fun _ _ _ => tt)
    [Fin 0] n (fun _ _ => (1, 0)) default_break [Prop_ [0%nat] true [] tt].
Definition drift (k : nat) : trace := Trace (map (fun i => [Fin (INR i)]) (seq 0 (S k))) (repeat (Fin 0) k).
Lemma drift_finite k : all_finite (t_f (drift k)).
Proof. intros v H. apply repeat_spec in H. eauto. Qed.
Lemma drift_break k : (Z.of_nat k < 1000)%Z -> default_break (drift k) = false.
Proof. intros H. unfold default_break, drift. cbn [t_f]. rewrite repeat_length. now destruct (Z.ltb_spec (Z.of_nat k) 1000); [|lia]. Qed.
Lemma drift_settled k : value_settled (drift k).
Proof.
  assert (V : forall i, value (drift k) i = 0).
  { intros i. unfold value, drift. cbn [t_f]. destruct (Nat.lt_ge_cases i k) as [H|H].
    - rewrite (nth_indep _ NaN (Fin 0)) by (rewrite repeat_length; exact H). now rewrite nth_repeat.
    - rewrite nth_overflow by (rewrite repeat_length; exact H). reflexivity. }
  unfold value_settled. cbv zeta. rewrite !(average_ext 100 (fun i => value (drift k) (_ + i)) (fun _ => 0)) by (intros; apply V).
  rewrite Rminus_diag_eq by reflexivity. rewrite Rabs_R0. lra.
Qed.
Lemma drift_jump k o : p_indices o = [0%nat] -> p_auto o = true ->
  jump unit R (fun _ => Fin 0) (fun _ => Fin 0) (fun w x _ _ => map (fun v => eadd v (Fin w)) x) [Fin (INR k)] o (Fin 0) (Fin 0) 1 0
  = Ok ([Fin (INR (S k))], Fin 0, Fin 0, 1).
Proof.
  intros E1 E2. unfold jump. rewrite E1, E2, S_INR. cbn [gather map scatter setn nth eadd negb isninf isnan]. unfold accepts. now rewrite orb_true_r.
Qed.
Lemma drift_loop left : forall k inf js, (left + k <= Z.to_nat 1500)%nat -> (k < Z.to_nat 1000)%nat -> (Z.to_nat 1000 <= left + k)%nat ->
  exists inf', loop unit R (fun _ => Fin 0) (fun _ => Fin 0) (fun w x _ _ => map (fun v => eadd v (Fin w)) x) (fun _ _ _ => tt) left (S k)
    (fun _ _ => (1, 0)) default_break (drift k) inf [Fin (INR k)] (Fin 0) (Fin 0) [Prop_ [0%nat] true js tt] = Ok (drift (Z.to_nat 1000), inf').
Proof.
  induction left as [|left IH]; intros k inf js H1 H2 H3; [lia|]. cbn [loop sweep fst snd]. rewrite drift_jump by reflexivity. cbv zeta.
  cbn [p_indices p_auto p_jumps p_args].
  replace (Trace (t_x (drift k) ++ [[Fin (INR (S k))]]) (t_f (drift k) ++ [Fin 0])) with (drift (S k)).
  2:{ unfold drift. cbn [t_x t_f]. f_equal.
      - rewrite (seq_S (S k)), map_app. reflexivity.
      - change [Fin 0] with (repeat (Fin 0) 1). rewrite <- repeat_app. f_equal. lia. }
  destruct (Nat.eq_dec (S k) (Z.to_nat 1000)) as [E|N].
  - rewrite (proj2 (default_break_spec (drift (S k)) (drift_finite _))).
    + rewrite E. eauto.
    + split; [|apply drift_settled]. unfold drift. cbn [t_f]. rewrite repeat_length. lia.
  - rewrite drift_break by lia. replace (S k + 1)%nat with (S (S k)) by lia. apply IH; lia.
Qed.
Theorem default_break_refuted : exists t inf, drift_run (Z.to_nat 1200) = Ok (t, inf) /\
  Z.of_nat (length (t_f t)) = 1000%Z /\ default_break t = true /\ ~ position_settled t.
Proof.
  unfold drift_run, run_mcmc.
  destruct (drift_loop (Nat.max (Z.to_nat 1200) 2 - 1) 0 None []) as [inf' E]; [lia|lia|lia|].
  change (drift 0) with (Trace [[Fin (INR 0)]] []) in E. cbn [INR] in E. rewrite E. do 2 eexists. split; [reflexivity|].
  assert (L : length (t_f (drift (Z.to_nat 1000))) = Z.to_nat 1000) by (unfold drift; cbn [t_f]; now rewrite repeat_length).
  assert (LX : length (t_x (drift (Z.to_nat 1000))) = S (Z.to_nat 1000)) by (unfold drift; cbn [t_x]; now rewrite map_length, seq_length).
  split; [rewrite L; lia|]. split; [apply default_break_spec; [apply drift_finite|]; split; [rewrite L; lia|apply drift_settled]|].
  unfold position_settled. cbv zeta. rewrite LX.
  assert (F : forall i, (i < S (Z.to_nat 1000))%nat -> first_coord (drift (Z.to_nat 1000)) i = INR i).
  { intros i Hi. unfold first_coord, drift. cbn [t_x].
    rewrite (nth_indep _ [] ((fun i => [Fin (INR i)]) O)) by (rewrite map_length, seq_length; exact Hi).
    rewrite (map_nth (fun i => [Fin (INR i)])), seq_nth by exact Hi. reflexivity. }
  set (N := Z.to_nat 1000) in *. assert (HN : (N = 900 + 100)%nat) by (unfold N; lia). clearbody N.
  rewrite (average_ext 100 _ (fun i => INR (S N - 200 + i) + 100)).
  2:{ intros i Hi. rewrite F by lia. replace (S N - 100 + i)%nat with (S N - 200 + i + 100)%nat by lia. rewrite plus_INR. f_equal. cbn. lra. }
  rewrite (average_ext 100 (fun i => first_coord _ _) (fun i => INR (S N - 200 + i))) by (intros i Hi; rewrite F by lia; reflexivity).
  assert (A : forall n f c, (0 < n)%nat -> average n (fun i => f i + c) = average n f + c).
  { intros n f c Hn. unfold average.
    assert (G : forall l, fold_right (fun i s => f i + c + s) 0 l = fold_right (fun i s => f i + s) 0 l + INR (length l) * c).
    { induction l as [|a l IH]; [cbn; lra|]. cbn [fold_right length]. rewrite IH, S_INR. lra. }
    rewrite G, seq_length. apply lt_0_INR in Hn. field. lra. }
  rewrite A by lia. replace (average 100 _ + 100 - average 100 _) with 100 by ring. rewrite Rabs_right by lra. lra.
Qed.
Print Assumptions default_break_refuted.

(** C156, what is true: a run under the default break condition ends before its last iteration only after at least 1000
    iterations and with the mean log likelihood of the last 100 iterations within 1/1000 of that of the 100 before; and
    it ends at the first iteration at which this holds. *)
Theorem default_break_partial : forall P Omega lik prior propose adapt x0 n rnd os t inf,
  run_mcmc P Omega lik prior propose adapt x0 n rnd default_break os = Ok (t, inf) -> all_finite (t_f t) ->
  let long k := (1000 <= Z.of_nat k)%Z in
  ((length (t_f t) < Nat.max n 2 - 1)%nat -> long (length (t_f t)) /\ value_settled t) /\
  (forall k, (k < length (t_f t))%nat -> long k -> ~ value_settled (after k t)) /\
  (forall k, (k < length (t_f t))%nat -> long k -> exists i j, (k - 200 <= i < k)%nat /\ (k - 200 <= j < k)%nat /\ nth i (t_f t) NaN <> nth j (t_f t) NaN).
Proof.
  intros P Omega lik prior propose adapt x0 n rnd os t inf H Hf long.
  destruct (mcmc_trace _ _ _ _ _ _ _ _ _ _ _ _ _ H) as (_ & Lx & Ln & Hb & _).
  assert (NS : forall k, (k < length (t_f t))%nat -> long k -> ~ value_settled (after k t)).
  { intros k Hk Lk HS. unfold run_mcmc in H.
    destruct (loop P Omega lik prior propose adapt (Nat.max n 2 - 1) 1 rnd default_break (Trace [x0] []) None x0 (prior x0) (lik x0) os) as [[t1 inf1]|e] eqn:E; [|discriminate].
    injection H as -> _. apply loop_brk in E; [|reflexivity]. destruct E as [_ E]. cbn [t_f length] in E.
    assert (B : default_break (after k t) = true); [|rewrite E in B; [discriminate|unfold long in Lk; lia]].
    apply default_break_spec.
    - unfold after. cbn [t_f]. intros v Hv. apply Hf. now apply in_firstn in Hv.
    - split; [|exact HS]. unfold after. cbn [t_f]. rewrite firstn_length. unfold long in Lk. lia. }
  split; [|split; [exact NS|]].
  - intros L. apply default_break_spec; [exact Hf|]. now apply Hb.
  - intros k Hk Lk. apply Decidable.not_not.
    { destruct (Classical_Prop.classic (exists i j, (k - 200 <= i < k)%nat /\ (k - 200 <= j < k)%nat /\ nth i (t_f t) NaN <> nth j (t_f t) NaN)); [left|right]; auto. }
    intros N. apply (NS k Hk Lk).
    assert (Eq : forall i, (k - 200 <= i < k)%nat -> value (after k t) i = value t (k - 1)).
    { intros i Hi. unfold value, after. cbn [t_f].
      assert (Nf : nth i (firstn k (t_f t)) NaN = nth i (t_f t) NaN).
      { rewrite <- (firstn_skipn k (t_f t)) at 2. rewrite app_nth1; [reflexivity|]. rewrite firstn_length. lia. }
      rewrite Nf. replace (nth i (t_f t) NaN) with (nth (k - 1) (t_f t) NaN); [reflexivity|].
      apply Decidable.not_not; [|intros M; apply N; exists i, (k - 1)%nat; unfold long in Lk; repeat match goal with |- _ /\ _ => split end; try lia; congruence].
      destruct (Classical_Prop.classic (nth (k - 1) (t_f t) NaN = nth i (t_f t) NaN)); [left|right]; auto. }
    unfold value_settled. cbv zeta.
    assert (La : length (t_f (after k t)) = k) by (unfold after; cbn [t_f]; rewrite firstn_length; lia). rewrite La.
    unfold long in Lk.
    rewrite (average_ext 100 (fun i => value _ (k - 100 + i)) (fun _ => value t (k - 1))) by (intros i Hi; apply Eq; lia).
    rewrite (average_ext 100 (fun i => value _ (k - 200 + i)) (fun _ => value t (k - 1))) by (intros i Hi; apply Eq; lia).
    rewrite Rminus_diag_eq by reflexivity. rewrite Rabs_R0. lra.
Qed.
Print Assumptions default_break_partial.

(** the premises hold of the run above: 1000 finite values, stopped before iteration 1200 *)
Example default_break_ex : exists t inf, drift_run (Z.to_nat 1200) = Ok (t, inf) /\ all_finite (t_f t) /\
  (length (t_f t) < Nat.max (Z.to_nat 1200) 2 - 1)%nat /\ value_settled t.
Proof.
  unfold drift_run, run_mcmc.
  destruct (drift_loop (Nat.max (Z.to_nat 1200) 2 - 1) 0 None []) as [inf' E]; [lia|lia|lia|].
  change (drift 0) with (Trace [[Fin (INR 0)]] []) in E. cbn [INR] in E. rewrite E. do 2 eexists. split; [reflexivity|].
  split; [apply drift_finite|]. split; [|apply drift_settled]. unfold drift. cbn [t_f]. rewrite repeat_length. lia.
Qed.

(** C156: a value that is not finite among the last 200 keeps the run going, whatever the others are *)
Theorem default_break_finite : forall t, default_break t = true ->
  (1000 <= Z.of_nat (length (t_f t)))%Z /\ let l := skipn (length (t_f t) - 200) (t_f t) in all_finite l /\ value_settled (Trace (t_x t) l).
Proof. exact break_finite. Qed.
Print Assumptions default_break_finite.
Example default_break_finite_ex : forall t r, t_f t = repeat (Fin r) (Z.to_nat 1000) -> default_break t = true /\ default_break (Trace (t_x t) (t_f t ++ [NInf])) = false.
Proof.
  intros t r E. split.
  - apply default_break_spec.
    + intros v Hv. rewrite E in Hv. apply repeat_spec in Hv. eauto.
    + rewrite E, repeat_length. split; [lia|]. unfold value_settled. cbv zeta.
      assert (V : forall i, (i < Z.to_nat 1000)%nat -> value t i = r).
      { intros i Hi. unfold value. rewrite E. rewrite (nth_indep _ NaN (Fin r)) by (rewrite repeat_length; exact Hi). now rewrite nth_repeat. }
      rewrite E, repeat_length. rewrite !(average_ext 100 (fun i => value t (_ + i)) (fun _ => r)) by (intros; apply V; lia).
      rewrite Rminus_diag_eq by reflexivity. rewrite Rabs_R0. lra.
  - destruct (default_break _) eqn:B; [|reflexivity]. apply default_break_finite in B as (_ & F & _). cbn [t_f] in F.
    destruct (F NInf) as [q C]; [|discriminate]. rewrite skipn_app. apply in_or_app. right. rewrite app_length, E, repeat_length. cbn [length].
    replace (_ - _)%nat with O by lia. now left.
Qed.
