(** Properties C22, C23, C63-C65: the Metropolis sampler. *)
From Coq Require Import Lra Relations.
From Verif Require Import Model.Prelude Model.Ext Model.MCMC Proofs.MCMCP.
Local Open Scope R_scope.

(** one accepted proposal: [y] differs from [x] only in the coordinates of one proposal distribution, lies in
    the support of the prior, and its likelihood is a number *)
Definition accepted_move (lik prior : list ext -> ext) (inds : list (list nat)) (x y : list ext) : Prop :=
  prior y <> NInf /\ lik y <> NaN /\ length y = length x /\
  exists ind, In ind inds /\ forall j d, ~ In j ind -> nth j y d = nth j x d.

(** C22 *)
Theorem mcmc_trace : forall S Omega lik prior propose adapt x0 n rnd brk os t inf,
  run_mcmc S Omega lik prior propose adapt x0 n rnd brk os = Ok (t, inf) ->
  nth_error (t_x t) 0 = Some x0 /\
  length (t_x t) = (1 + length (t_f t))%nat /\
  (1 <= length (t_f t) <= Nat.max n 2 - 1)%nat /\
  ((length (t_f t) < Nat.max n 2 - 1)%nat -> brk t = true) /\
  (forall i f, nth_error (t_f t) i = Some f -> exists x, nth_error (t_x t) (1 + i) = Some x /\ f = lik x) /\
  (forall i x y, nth_error (t_x t) i = Some x -> nth_error (t_x t) (1 + i) = Some y ->
     clos_refl_trans _ (accepted_move lik prior (map p_indices os)) x y) /\
  (prior x0 <> NInf -> Forall (fun x => prior x <> NInf) (t_x t)).
Proof.
  intros S Omega lik prior propose adapt x0 n rnd brk os t inf. unfold run_mcmc.
  destruct (loop _ _ _ _ _ _ _ _ _ _ _ _ _ _ _ _) as [[t' inf']|e] eqn:E; [|discriminate]. intros [= -> <-].
  apply (loop_spec S Omega lik prior propose adapt x0 rnd brk (map p_indices os)) in E; auto.
  - destruct E as ((G0 & G1 & G2 & G3) & H1 & H2 & _ & _ & H3). cbn [t_f length] in H1, H2, H3.
    repeat (split; [first [assumption | lia | exact G2 | (intros; apply H2; lia)]|]).
    intros Hp. apply Forall_forall. intros x Hx. apply In_nth_error in Hx as [i Hi]. revert x Hi.
    induction i as [|i IH]; intros x Hi; [rewrite G0 in Hi; injection Hi as <-; exact Hp|].
    destruct (nth_error (t_x t) i) as [z|] eqn:Ez.
    + specialize (IH z eq_refl). pose proof (G2 i z x Ez Hi) as HM. clear - IH HM. induction HM; auto. apply H.
    + apply nth_error_None in Ez. assert (i < length (t_x t))%nat; [|lia]. assert (1 + i < length (t_x t))%nat by (apply nth_error_Some; change (1 + i)%nat with (Datatypes.S i); congruence). lia.
  - split; [reflexivity|]. split; [reflexivity|]. split.
    + intros i x y Hx Hy. destruct i; discriminate Hy.
    + intros [|i] f Hf; discriminate Hf.
  - split; reflexivity.
  - split; [reflexivity|]. intros H. now elim H.
Qed.
Print Assumptions mcmc_trace.

(** the default prior: every sample of a run that starts in the box stays in the box *)
Theorem mcmc_in_box : forall S Omega lik bounds propose adapt x0 n rnd brk os t inf,
  length x0 = length bounds ->
  run_mcmc S Omega lik (box_prior bounds) propose adapt x0 n rnd brk os = Ok (t, inf) ->
  let inside x := forall i lo hi, nth_error bounds i = Some (lo, hi) -> exists v, nth_error x i = Some v /\ eleb lo v = true /\ eleb v hi = true in
  inside x0 -> Forall inside (t_x t).
Proof.
  intros S Omega lik bounds propose adapt x0 n rnd brk os t inf L0 E inside H0.
  assert (K : forall bs x, length x = length bs -> (box_prior bs x <> NInf <->
    forall i lo hi, nth_error bs i = Some (lo, hi) -> exists v, nth_error x i = Some v /\ eleb lo v = true /\ eleb v hi = true)).
  { induction bs as [|[l h] bs IH]; intros [|v x] L; try discriminate L.
    - split; [intros _ [|i] ? ? ?; discriminate|intros _; discriminate].
    - injection L as L. specialize (IH x L). unfold box_prior in *. cbn [combine forallb fst snd].
      destruct (eleb l v && eleb v h) eqn:E1; cbn [andb].
      + rewrite IH. apply andb_true_iff in E1. split.
        * intros H [|i] lo hi Hi; [injection Hi as <- <-; exists v; auto|]. exact (H i lo hi Hi).
        * intros H i lo hi Hi. exact (H (Datatypes.S i) lo hi Hi).
      + split; [congruence|]. intros H. destruct (H 0%nat l h eq_refl) as (v' & [= <-] & A & B). rewrite A, B in E1. discriminate. }
  pose proof (mcmc_trace _ _ _ _ _ _ _ _ _ _ _ _ _ E) as (G0 & G1 & _ & _ & _ & G2 & G3).
  assert (Ln : forall i x, nth_error (t_x t) i = Some x -> length x = length bounds).
  { induction i as [|i IH]; intros x Hi; [rewrite G0 in Hi; injection Hi as <-; exact L0|].
    destruct (nth_error (t_x t) i) as [z|] eqn:Ez.
    - specialize (IH z eq_refl). pose proof (G2 i z x Ez Hi) as HM. clear - IH HM. induction HM; auto. destruct H as (_ & _ & H & _). congruence.
    - apply nth_error_None in Ez. assert (1 + i < length (t_x t))%nat by (apply nth_error_Some; change (1 + i)%nat with (Datatypes.S i); congruence). lia. }
  assert (Hp : box_prior bounds x0 <> NInf) by (apply K; auto).
  specialize (G3 Hp). rewrite Forall_forall in *. intros x Hx. pose proof (G3 x Hx) as Hb. apply In_nth_error in Hx as [i Hi].
  exact (proj1 (K bounds x (Ln i x Hi)) Hb).
Qed.
Print Assumptions mcmc_in_box.

(** a one-dimensional chain in [0, 10]: proposals add the drawn number; the likelihood is the position *)
Definition ex_lik (x : list ext) : ext := nth 0 x NaN.
Definition ex_prop (w : R) (x : list ext) (_ : list ext) (_ : prop unit) : list ext := map (fun v => eadd v (Fin w)) x.
Definition ex_run (ws : nat -> R) (n : nat) (brk : trace -> bool) :=
  run_mcmc unit R ex_lik (box_prior [(Fin 0, Fin 10)]) ex_prop (fun _ _ _ => tt) [Fin 5] n (fun i _ => (ws i, / 2)) brk [Prop_ [0%nat] false [] tt].

Ltac rdec := repeat match goal with
  | |- context[Rlt_dec ?a ?b] => destruct (Rlt_dec a b); [try (exfalso; lra)|try (exfalso; lra)]
  | |- context[Rle_dec ?a ?b] => destruct (Rle_dec a b); [try (exfalso; lra)|try (exfalso; lra)]
  end.

Ltac rexp := try match goal with |- context[exp ?e] => pose proof (exp_ineq1 e ltac:(lra)) end.
Ltac rstep := unfold jump, box_prior, accepts, metr_ratio, ex_prop, ex_lik; cbn; rexp; rdec; cbn.
(** iteration 1 proposes 5 + 60, outside the box; iteration 2 proposes 5 + 2, accepted *)
Example mcmc_trace_ex : exists a, ex_run (fun i => match i with 1%nat => 60 | _ => 2 end) 3 (fun _ => false)
  = Ok (Trace [[Fin 5]; [Fin 5]; [Fin (5 + 2)]] [Fin 5; Fin (5 + 2)], a).
Proof.
  eexists. unfold ex_run, run_mcmc. cbn [Nat.max Nat.sub loop sweep]. do 4 rstep. reflexivity.
Qed.
Example mcmc_in_box_ex : Forall (fun x => exists v, nth_error x 0 = Some v /\ eleb (Fin 0) v = true /\ eleb v (Fin 10) = true)
  [[Fin 5]; [Fin 5]; [Fin (5 + 2)]].
Proof. repeat constructor; eexists; (split; [reflexivity|]); cbn; rdec; auto. Qed.

(** C63: for a current point and a proposal with finite densities, the set of uniform numbers that lead to
    acceptance is an interval [0, a) with a = min(1, density ratio); the acceptance probabilities satisfy
    detailed balance with respect to exp(prior + likelihood). *)
Theorem metropolis_rule : forall S Omega lik prior propose x (o : prop S) (w : Omega) y px lx py ly,
  prior x = Fin px -> lik x = Fin lx -> prior y = Fin py -> lik y = Fin ly -> p_auto o = false ->
  scatter x (p_indices o) (propose w (gather x (p_indices o)) x o) = Some y ->
  let a := Rmin 1 (exp (py + ly - (px + lx))) in
  (forall u, 0 <= u < 1 ->
    (u < a -> jump S Omega lik prior propose x o (prior x) (lik x) w u = Ok (y, prior y, lik y, 1)) /\
    (a <= u -> jump S Omega lik prior propose x o (prior x) (lik x) w u = Ok (x, prior x, lik x, 0))) /\
  exp (px + lx) * a = exp (py + ly) * Rmin 1 (exp (px + lx - (py + ly))).
Proof.
  intros S Omega lik prior propose x o w y px lx py ly Hpx Hlx Hpy Hly Ha Hs a. split; [|apply detailed_balance].
  intros u Hu. unfold jump. rewrite Hs, Hpx, Hlx, Hpy, Hly, Ha. cbn [isninf negb isnan esub eadd eopp].
  replace (py + ly + - px + - lx) with (py + ly - (px + lx)) by lra.
  pose proof (accepts_fin (py + ly - (px + lx)) u Hu) as K. fold a in K.
  split; intros H.
  - apply K in H. now rewrite H.
  - destruct (accepts _ _ _); [|reflexivity]. assert (u < a) by now apply K. lra.
Qed.
Print Assumptions metropolis_rule.
Example metropolis_rule_ex : (* from log density 0 to - ln 4: accepted exactly below 1/4 *)
  Rmin 1 (exp (- ln 4 - 0)) = / 4 /\ accepts (Fin (- ln 4)) (/ 5) false = true /\ accepts (Fin (- ln 4)) (/ 3) false = false.
Proof.
  assert (E : exp (- ln 4) = / 4) by (rewrite exp_Ropp, exp_ln by lra; reflexivity).
  split; [replace (- ln 4 - 0) with (- ln 4) by lra; rewrite E; apply Rmin_right; lra|].
  assert (A : forall u, 0 <= u < 1 -> accepts (Fin (- ln 4)) u false = true <-> u < / 4).
  { intros u Hu. rewrite accepts_fin, E by exact Hu. rewrite Rmin_right by lra. reflexivity. }
  split; [apply A; lra|]. destruct (accepts _ _ _) eqn:B; [|reflexivity]. apply A in B; lra.
Qed.

(** C63, zero likelihoods: from a point of zero likelihood every proposal in the support of the prior is accepted, whatever the
    uniform number, also one of zero likelihood; the way back from a point of finite density is never taken. *)
Theorem metropolis_zero_likelihood : forall S Omega lik prior propose x (o : prop S) (w : Omega) y px py u, 0 <= u < 1 ->
  prior x = Fin px -> prior y = Fin py -> scatter x (p_indices o) (propose w (gather x (p_indices o)) x o) = Some y ->
  (lik x = NInf -> lik y <> NaN -> jump S Omega lik prior propose x o (prior x) (lik x) w u = Ok (y, prior y, lik y, 1)) /\
  (forall lx, lik x = Fin lx -> lik y = NInf -> p_auto o = false ->
     jump S Omega lik prior propose x o (prior x) (lik x) w u = Ok (x, prior x, lik x, 0)) /\
  (forall lx, lik x = Fin lx -> lik y = PInf -> jump S Omega lik prior propose x o (prior x) (lik x) w u = Ok (y, prior y, lik y, 1)).
Proof.
  intros S Omega lik prior propose x o w y px py u Hu Hpx Hpy Hs. unfold jump. rewrite Hs, Hpx, Hpy. cbn [isninf negb].
  split; [|split].
  - intros -> N. destruct (lik y) as [| | |ly]; [congruence| | |]; cbn [isnan esub eadd eopp]; unfold accepts, metr_ratio; cbn; (destruct (Rlt_dec u (11 / 10)); [reflexivity|lra]).
  - intros lx -> -> ->. cbn [isnan esub eadd eopp]. unfold accepts, metr_ratio; cbn. destruct (Rlt_dec u 0); [lra|reflexivity].
  - intros lx -> ->. cbn [isnan esub eadd eopp]. unfold accepts, metr_ratio; cbn. destruct (Rlt_dec u (11 / 10)); [reflexivity|lra].
Qed.
Print Assumptions metropolis_zero_likelihood.
Example metropolis_zero_likelihood_ex : (* from one point of zero likelihood to another *)
  jump unit R (fun _ => NInf) (fun _ => Fin 0) ex_prop [Fin 5] (Prop_ [0%nat] false [] tt) (Fin 0) NInf 2 (99 / 100) = Ok ([Fin (5 + 2)], Fin 0, NInf, 1).
Proof. unfold jump, accepts, metr_ratio, ex_prop. cbn. rdec. reflexivity. Qed.

(** C64: a proposal whose prior density is NaN is accepted, although the code sets the ratio to 0 on NaN: the
    comparison with 50 fails first *)
Theorem mcmc_nan_rejected_refuted : exists prior u,
  prior [Fin 5] = Fin 0 /\ prior [Fin (5 + 2)] = NaN /\
  jump unit R (fun _ => Fin 0) prior ex_prop [Fin 5] (Prop_ [0%nat] false [] tt) (Fin 0) (Fin 0) 2 u = Ok ([Fin (5 + 2)], NaN, Fin 0, 1).
Proof.
  exists (fun x => match x with [Fin r] => if Rlt_dec r 6 then Fin 0 else NaN | _ => NaN end), (/ 2).
  unfold jump, accepts, metr_ratio, ex_prop. cbn. rdec. cbn. rdec. cbn. rdec. auto.
Qed.
Print Assumptions mcmc_nan_rejected_refuted.
(** what holds: an accepted point has a likelihood that is not NaN and lies in the support of the prior, and from
    a point of finite density a point of finite prior and zero likelihood is never accepted *)
Theorem mcmc_nan_rejected_partial : forall S Omega lik prior propose x (o : prop S) (w : Omega) u y pr lk jt,
  0 <= u -> jump S Omega lik prior propose x o (prior x) (lik x) w u = Ok (y, pr, lk, jt) ->
  jt = 1 -> lik y <> NaN /\ prior y <> NInf /\
  (forall p l q, p_auto o = false -> prior x = Fin p -> lik x = Fin l -> prior y = Fin q -> lik y <> NInf).
Proof.
  intros S Omega lik prior propose x o w u y pr lk jt Hu. unfold jump. destruct (scatter _ _ _) as [xs|]; [|discriminate]. cbn zeta.
  destruct (negb (isninf (prior xs))) eqn:E1; [|intros [= <- <- <- <-]; lra].
  destruct (isnan (lik xs)) eqn:E2; [discriminate|].
  destruct (accepts _ _ _) eqn:E3; intros [= <- <- <- <-]; [|lra]. intros _.
  split; [now intros E; rewrite E in E2|]. split; [now intros E; rewrite E in E1|].
  intros p l q Ha Hp Hl Hq Hn. rewrite Ha, Hp, Hl, Hn, Hq in E3. unfold accepts in E3. rewrite orb_false_r in E3.
  revert E3. unfold metr_ratio. cbn. rdec. discriminate.
Qed.
Print Assumptions mcmc_nan_rejected_partial.
Example mcmc_nan_rejected_ex : (* zero likelihood proposed from likelihood 0: rejected *)
  jump unit R (fun x => match x with [Fin r] => if Rlt_dec r 6 then Fin 0 else NInf | _ => NaN end) (fun _ => Fin 0) ex_prop
    [Fin 5] (Prop_ [0%nat] false [] tt) (Fin 0) (Fin 0) 2 (/ 2) = Ok ([Fin 5], Fin 0, Fin 0, 0).
Proof. unfold jump, accepts, metr_ratio, ex_prop. cbn. rdec. cbn. rdec. reflexivity. Qed.

(** C23: iteration 1 moves to 7, iteration 2 stays: the maximum is 7, the reported maximizer is the start 5, and
    "MAP" is the value, not a position *)
Theorem mcmc_best_refuted : exists t f, ex_run (fun i => match i with 1%nat => 2 | _ => 60 end) 3 (fun _ => false) = Ok (t, Some f) /\
  i_maxf f = Fin (5 + 2) /\ i_maxx f = [Fin 5] /\ ex_lik (i_maxx f) = Fin 5 /\ i_map f = i_maxf f.
Proof.
  do 2 eexists. split.
  - unfold ex_run, run_mcmc. cbn [Nat.max Nat.sub loop sweep]. do 4 rstep. reflexivity.
  - cbn. unfold collect, argmax. cbn. unfold better. cbn. rdec. cbn. auto.
Qed.
Print Assumptions mcmc_best_refuted.
(** what holds for a run that was not broken off: "max f(x)" is a largest recorded value (NaN counts as largest)
    and belongs to the trace position one after the reported one *)
Theorem mcmc_best_partial : forall S Omega lik prior propose adapt x0 n rnd brk os t inf,
  run_mcmc S Omega lik prior propose adapt x0 n rnd brk os = Ok (t, inf) -> brk t = false ->
  exists f am, inf = Some f /\ i_f f = t_f t /\ i_x f = t_x t /\
    nth_error (t_f t) am = Some (i_maxf f) /\ nth_error (t_x t) am = Some (i_maxx f) /\ i_map f = i_maxf f /\
    (forall v, In v (t_f t) -> isnan (i_maxf f) = false -> isnan v = false /\ eleb v (i_maxf f) = true) /\
    exists x, nth_error (t_x t) (1 + am) = Some x /\ lik x = i_maxf f.
Proof.
  intros S Omega lik prior propose adapt x0 n rnd brk os t inf E B.
  pose proof (mcmc_trace _ _ _ _ _ _ _ _ _ _ _ _ _ E) as (G0 & G1 & G2 & _ & G3 & _ & _).
  revert E. unfold run_mcmc. destruct (loop _ _ _ _ _ _ _ _ _ _ _ _ _ _ _ _) as [[t' inf']|e] eqn:E; [|discriminate]. intros [= -> <-].
  apply (loop_spec S Omega lik prior propose adapt x0 rnd brk (map p_indices os)) in E; auto.
  - destruct E as (_ & _ & _ & HI & _ & _). destruct (HI (or_introl B)) as [_ HI2].
    assert (Hne : t_f t <> []) by (intros H; rewrite H in G2; cbn in G2; lia). rewrite (HI2 Hne). cbn [option_map].
    destruct (argmax_spec (t_f t) Hne) as [A1 A2].
    eexists. exists (argmax (t_f t)). split; [reflexivity|]. cbn [i_f i_x i_maxf i_maxx i_map collect].
    split; [reflexivity|]. split; [reflexivity|].
    assert (N : nth_error (t_f t) (argmax (t_f t)) = Some (nth (argmax (t_f t)) (t_f t) NaN)) by now apply nth_error_nth'.
    split; [exact N|]. split; [apply nth_error_nth'; lia|]. split; [reflexivity|]. split.
    + intros v Hv Hnan. apply In_nth with (d := NaN) in Hv as (j & Hj & <-). specialize (A2 j Hj). revert A2 Hnan.
      generalize (nth j (t_f t) NaN) (nth (argmax (t_f t)) (t_f t) NaN). intros a b. unfold better.
      destruct a, b; cbn; try discriminate; auto. rdec; auto; discriminate.
    + destruct (G3 _ _ N) as (x & Hx & Ex). exists x. auto.
  - split; [reflexivity|]. split; [reflexivity|]. split.
    + intros i x y Hx Hy. destruct i; discriminate Hy.
    + intros [|i] f Hf; discriminate Hf.
  - split; reflexivity.
  - split; [reflexivity|]. intros H. now elim H.
Qed.
Print Assumptions mcmc_best_partial.

(** C65: after a break the returned dictionary lacks the last sample, although its list of values has it *)
Theorem mcmc_info_complete_refuted : exists t f, ex_run (fun _ => 60) 5 (fun t => Nat.leb 2 (length (t_f t))) = Ok (t, Some f) /\
  length (t_x t) = 3%nat /\ length (i_x f) = 2%nat /\ length (i_f f) = 2%nat.
Proof.
  do 2 eexists. split.
  - unfold ex_run, run_mcmc. cbn [Nat.max Nat.sub loop sweep]. do 4 rstep. reflexivity.
  - cbn. auto.
Qed.
Print Assumptions mcmc_info_complete_refuted.
(** ... and after a break in the first iteration it is empty; otherwise it describes the whole trace, or the whole
    trace but its last entry, and the window of the statistics is its last hundredth (rounded up), never empty *)
Theorem mcmc_info_complete_partial : forall S Omega lik prior propose adapt x0 n rnd brk os t inf,
  run_mcmc S Omega lik prior propose adapt x0 n rnd brk os = Ok (t, inf) ->
  (inf = None -> brk t = true /\ length (t_f t) = 1%nat) /\
  (forall f, inf = Some f -> i_f f = t_f t /\
     (brk t = false -> i_x f = t_x t) /\
     (brk t = true -> exists x, t_x t = i_x f ++ [x]) /\
     exists pre, i_x f = pre ++ i_window f /\ length (i_window f) = Z.to_nat ((Z.of_nat (length (i_x f)) + 99) / 100) /\ i_window f <> []).
Proof.
  intros S Omega lik prior propose adapt x0 n rnd brk os t inf E.
  pose proof (mcmc_trace _ _ _ _ _ _ _ _ _ _ _ _ _ E) as (G0 & G1 & G2 & _ & G3 & _ & _).
  assert (W : forall t0, (0 < length (t_x t0))%nat -> exists pre, t_x t0 = pre ++ i_window (collect t0) /\
     length (i_window (collect t0)) = Z.to_nat ((Z.of_nat (length (t_x t0)) + 99) / 100) /\ i_window (collect t0) <> []).
  { intros t0 H0. cbn [i_window collect]. exists (firstn (dist_index (length (t_x t0))) (t_x t0)). rewrite firstn_skipn. split; [reflexivity|].
    assert (Lw : length (skipn (dist_index (length (t_x t0))) (t_x t0)) = (length (t_x t0) - dist_index (length (t_x t0)))%nat) by apply skipn_length.
    split; [rewrite Lw; apply dist_index_width|]. intros Hn. rewrite Hn in Lw. cbn in Lw. pose proof (dist_index_lt _ H0). lia. }
  revert E. unfold run_mcmc. destruct (loop _ _ _ _ _ _ _ _ _ _ _ _ _ _ _ _) as [[t' inf']|e] eqn:E; [|discriminate]. intros [= -> <-].
  apply (loop_spec S Omega lik prior propose adapt x0 rnd brk (map p_indices os)) in E; auto.
  - destruct E as (_ & _ & _ & HI & HB & _).
    assert (Hne : t_f t <> []) by (intros H; rewrite H in G2; cbn in G2; lia).
    destruct (brk t) eqn:B.
    + destruct (HB eq_refl ltac:(lia)) as (tp & y & v & -> & H1 & H2).
      cbn [t_f t_x] in *. rewrite !app_length in *. cbn [length] in *. split.
        -- destruct inf'; [discriminate|]. intros _. split; [reflexivity|]. destruct (t_f tp) eqn:Ef; [reflexivity|]. discriminate (H2 ltac:(discriminate)).
        -- intros f Hf. destruct inf' as [g|]; [|discriminate]. injection Hf as <-. cbn [i_f i_x i_window].
           destruct (t_f tp) eqn:Ef; [discriminate (H1 eq_refl)|]. assert (g = collect tp) by (specialize (H2 ltac:(discriminate)); congruence). subst g.
           split; [reflexivity|]. split; [discriminate|]. split; [intros _; exists y; reflexivity|]. apply W. cbn in G1. lia.
    + destruct (HI (or_introl eq_refl)) as [_ H2]. rewrite (H2 Hne). split; [discriminate|]. intros f [= <-]. cbn [i_f i_x i_window].
      split; [reflexivity|]. split; [reflexivity|]. split; [discriminate|]. apply W. lia.
  - split; [reflexivity|]. split; [reflexivity|]. split.
    + intros i x y Hx Hy. destruct i; discriminate Hy.
    + intros [|i] f Hf; discriminate Hf.
  - split; reflexivity.
  - split; [reflexivity|]. intros H. now elim H.
Qed.
Print Assumptions mcmc_info_complete_partial.
