(** Properties C31-C35: Bayesian optimization. *)
From Coq Require Import Reals Lra.
From Verif Require Import Model.Prelude Model.Ext Model.BO Spec.BOSpec Proofs.BOP.
Local Open Scope R_scope.

Definition make_tf (bounds : list (R * R)) (ls : nat -> option bool) : list dimt :=
  map (fun p => make_dim (fst (snd p)) (snd (snd p)) (ls (fst p))) (combine (seq 0 (length bounds)) bounds).

(** C35: vectors inside the box survive the trip to the unit cube and back, cube points the trip to the box and
    back, for linear and logarithmic dimensions *)
Theorem transform_round_trip : forall lo hi ls, (0 < lo -> / 10 ^ 300 <= lo) ->
  let d := make_dim lo hi ls in
  (forall x, lo <= x <= hi -> 0 <= to_unit1 d x <= 1 /\ from_unit1 d (to_unit1 d x) = x) /\
  (lo < hi -> forall u, 0 <= u <= 1 -> lo <= from_unit1 d u <= hi /\ to_unit1 d (from_unit1 d u) = u) /\
  (lo < hi -> forall u v, 0 <= u -> u < v -> v <= 1 -> from_unit1 d u < from_unit1 d v) /\
  (log_mask d = true <-> (0 < lo /\ 0 < hi /\ ls <> Some false)).
Proof.
  intros lo hi ls Ht d. split; [|split; [|split]].
  - intros x Hx. split; [apply clip_range|now apply round_trip1].
  - intros H u Hu. split; [now apply from_unit1_in|now apply round_trip2].
  - intros H u v H0 Huv H1. assert (E : from_unit1 d u <> from_unit1 d v).
    { intros E. assert (to_unit1 d (from_unit1 d u) = to_unit1 d (from_unit1 d v)) by congruence. unfold d in H2. rewrite !round_trip2 in H2 by (auto; lra). lra. }
    assert (from_unit1 d u <= from_unit1 d v); [|lra]. unfold from_unit1. rewrite !clip_id by lra.
    assert (0 < t_span d). { unfold d, make_dim. cbn. destruct (rltb _ _) eqn:E1; [apply rltb_spec in E1; lra|lra]. }
    assert (u * t_span d <= v * t_span d) by (apply Rmult_le_compat_r; lra). destruct (log_mask d); [apply exp_le_mono|]; lra.
  - unfold d, make_dim. cbn. destruct ls as [[|]|]; cbn; rewrite ?andb_true_iff, ?rltb_spec; intuition congruence.
Qed.
Print Assumptions transform_round_trip.
Example transform_ex : from_unit1 (make_dim 1 100 None) (/ 2) = 10 /\ from_unit1 (make_dim (-1) 3 None) (/ 2) = 1.
Proof.
  unfold from_unit1, make_dim. split.
  - cbn. replace (rltb 0 1) with true by (symmetry; apply rltb_spec; lra). replace (rltb 0 100) with true by (symmetry; apply rltb_spec; lra). cbn.
    replace (rltb (ln 1) (ln 100)) with true by (symmetry; apply rltb_spec, ln_increasing; lra). rewrite clip_id by lra. rewrite ln_1.
    replace (0 + / 2 * (ln 100 - 0)) with (/ 2 * ln 100) by ring. replace 100 with (10 * 10) by lra. rewrite ln_mult by lra.
    replace (/ 2 * (ln 10 + ln 10)) with (ln 10) by field. apply exp_ln. lra.
  - cbn. replace (rltb 0 (-1)) with false by (symmetry; apply rltb_false; lra). cbn.
    replace (rltb (-1) 3) with true by (symmetry; apply rltb_spec; lra). rewrite clip_id by lra. field.
Qed.

(** every component of [x] lies between its bounds *)
Definition in_box (bounds : list (R * R)) (x : list R) : Prop :=
  forall j v, nth_error x j = Some v -> exists lo hi, nth_error bounds j = Some (lo, hi) /\ lo <= v <= hi.

Lemma make_tf_nth bounds ls j : nth_error (make_tf bounds ls) j = option_map (fun p => make_dim (fst p) (snd p) (ls j)) (nth_error bounds j).
Proof.
  unfold make_tf. rewrite nth_error_map. assert (K : forall l k, nth_error (combine (seq k (length l)) l) j = option_map (fun p : R * R => ((k + j)%nat, p)) (nth_error l j)).
  { clear. revert j. intros j l. revert j. induction l as [|a l IH]; intros [|j] k; cbn; auto. - now rewrite Nat.add_0_r. - rewrite IH. now rewrite <- Nat.add_succ_comm. }
  rewrite K. now destruct (nth_error bounds j).
Qed.
Lemma from_unit_nth tf u j v : nth_error (from_unit tf u) j = Some v -> exists d w, nth_error tf j = Some d /\ nth_error u j = Some w /\ v = from_unit1 d w.
Proof.
  unfold from_unit. rewrite nth_error_map. revert tf u. induction j as [|j IH]; intros [|d tf] [|w u]; cbn; try discriminate; auto.
  intros [= <-]. eauto.
Qed.
Lemma from_unit_in bounds ls u : (forall j lo hi, nth_error bounds j = Some (lo, hi) -> lo < hi) -> in_box bounds (from_unit (make_tf bounds ls) u).
Proof.
  intros H j v Hv. apply from_unit_nth in Hv as (d & w & Hd & _ & ->). rewrite make_tf_nth in Hd. destruct (nth_error bounds j) as [[lo hi]|] eqn:E; [|discriminate].
  injection Hd as <-. exists lo, hi. split; [reflexivity|]. apply from_unit1_in. exact (H _ _ _ E).
Qed.

Section R.
Variables (c : bo_cfg) (tf : list dimt) (objective : nat -> list R -> option ext)
  (noise_function : option (nat -> list R -> option ext)) (fixed_noise : option R) (early_stop : nat -> bool)
  (G : Type) (fit : list ev -> option G) (acquire : G -> list ev -> option (list R * ext)) (post_mean : G -> list (list R) -> option (list R)).
Hypothesis mean_len : forall g us m, post_mean g us = Some m -> length m = length us.

Definition run := bayesian_optimize c tf objective noise_function fixed_noise early_stop G fit acquire post_mean.

Lemma recommend_spec gp evs b nv : evs <> [] -> recommend G post_mean gp evs = (b, nv) ->
  (b < length evs)%nat /\
  (Forall (fun e => ev_v e = None) evs -> b = argmin (map ev_y evs) /\ nv = 0) /\
  (forall e, In e evs -> nth b (map ev_y evs) 0 <= ev_y e + 3 * sqrt nv) /\
  ((exists e, In e evs /\ ev_v e <> None) -> nv = rmean (known (map ev_v evs))).
Proof.
  intros Hne. destruct (argmin_spec (map ev_y evs)) as [A B]; [destruct evs; [congruence|discriminate]|]. rewrite map_length in A.
  assert (B' : forall e, In e evs -> nth (argmin (map ev_y evs)) (map ev_y evs) 0 <= ev_y e) by (intros; apply B; now apply in_map).
  assert (K : known (map ev_v evs) = [] <-> Forall (fun e => ev_v e = None) evs).
  { clear. induction evs as [|e evs IH]; cbn; [split; auto|]. destruct (ev_v e) eqn:E; split; try discriminate.
    - intros H. inversion H. congruence. - intros H. constructor; [exact E|now apply IH]. - intros H. inversion H. now apply IH. }
  unfold recommend. destruct (known (map ev_v evs)) as [|k ks] eqn:Ek.
  - intros [= <- <-]. rewrite sqrt_0. split; [exact A|]. split; [auto|]. split; [intros e He; specialize (B' e He); lra|].
    intros (e & He & Hv). pose proof (proj1 K eq_refl) as F. rewrite Forall_forall in F. specialize (F e He). contradiction.
  - set (nv0 := rmean (k :: ks)). intros [= <- <-].
    assert (HF : Forall (fun e => ev_v e = None) evs -> False) by (intros F; apply K in F; discriminate F).
    pose proof (sqrt_pos nv0).
    assert (Q : forall q, (q < length evs)%nat -> nth q (map ev_y evs) 0 <= nth (argmin (map ev_y evs)) (map ev_y evs) 0 + 3 * sqrt nv0 ->
       (q < length evs)%nat /\ (Forall (fun e => ev_v e = None) evs -> q = argmin (map ev_y evs) /\ nv0 = 0) /\
       (forall e, In e evs -> nth q (map ev_y evs) 0 <= ev_y e + 3 * sqrt nv0) /\ ((exists e, In e evs /\ ev_v e <> None) -> nv0 = nv0)).
    { intros q Hq Hle. split; [exact Hq|]. split; [intros F; destruct (HF F)|]. split; [|auto]. intros e He. specialize (B' e He). lra. }
    destruct gp as [g|]; [|apply Q; [exact A|lra]]. destruct (rltb 0 nv0); [|apply Q; [exact A|lra]].
    destruct (post_mean g (map ev_u evs)) as [m|] eqn:Em; [|apply Q; [exact A|lra]].
    destruct (rleb _ _) eqn:El; [|apply Q; [exact A|lra]]. apply rleb_spec in El. apply Q; [|exact El].
    apply mean_len in Em. rewrite map_length in Em. rewrite <- Em. apply argmaxr_spec. destruct m; [|discriminate]. destruct evs; [congruence|discriminate Em].
Qed.

Lemma design_us_len sobol init : length (to_unit tf init :: map sobol (seq 1 (Z.to_nat (design_size (n_init_arg c) (Z.of_nat (length tf)) (max_iter c)) - 1))) =
  Z.to_nat (design_size (n_init_arg c) (Z.of_nat (length tf)) (max_iter c)).
Proof. cbn [length]. rewrite map_length, seq_length. unfold design_size. lia. Qed.

(** everything about a finished run *)
Lemma run_spec sobol init info cbs : run sobol init = Ok (info, cbs) ->
  honest tf objective noise_function fixed_noise (i_evs info) cbs /\
  i_n info = length (i_evs info) /\ (1 <= i_n info <= Z.to_nat (Z.max 2 (max_iter c)))%nat /\
  (forall k, (k < i_n info)%nat -> early_stop k = false) /\
  (i_stopped info = true -> early_stop (i_n info) = true) /\
  (i_stopped info = true -> i_reason info = Stopped \/ i_reason info = Budget) /\ (i_reason info = Stopped -> i_stopped info = true) /\
  nth_error (map ev_u (i_evs info)) 0 = Some (to_unit tf init) /\
  exists gp b, recommend G post_mean gp (i_evs info) = (b, i_noise info) /\
    i_x info = nth b (map ev_theta (i_evs info)) [] /\ i_f info = nth b (map ev_y (i_evs info)) 0.
Proof.
  unfold run, bayesian_optimize. set (n0 := design_size _ _ _). pose proof (design_us_len sobol init) as LU. fold n0 in LU.
  set (us := to_unit tf init :: _) in *.
  destruct (design _ _ _ _ _ us [] [] 0) as [[[[evs cbs0] polls] st]|] eqn:ED; [|discriminate].
  assert (Hh0 : honest tf objective noise_function fixed_noise [] []).
  { split; [reflexivity|]. split; intros [|i] ? H; discriminate H. }
  destruct (design_spec _ _ _ _ _ _ _ _ _ _ _ _ _ Hh0 eq_refl ED) as (J1 & J2 & J3 & (pre & J4 & J5) & J6 & J7). cbn [length map app] in *.
  assert (N0 : (2 <= n0 <= Z.max 2 (max_iter c))%Z) by (unfold n0, design_size; lia).
  assert (F0 : evs <> [] -> nth_error (map ev_u evs) 0 = Some (to_unit tf init)).
  { intros Hne. rewrite J5. destruct pre as [|p pre]; [destruct evs; [congruence|discriminate J5]|]. unfold us in J4. cbn in J4. injection J4 as <-. reflexivity. }
  destruct st.
  - destruct (J6 eq_refl) as [K1 K2]. destruct (Nat.eqb_spec (length evs) 0) as [|Hl]; [discriminate|].
    assert (Hne : evs <> []) by (intros ->; now apply Hl).
    destruct (recommend _ _ None evs) as [b nv] eqn:ER. intros [= <- <-]. cbn.
    split; [exact J1|]. split; [reflexivity|]. split; [lia|]. split; [intros k Hk; apply J3; lia|]. split; [auto|]. split; [auto|]. split; [discriminate|].
    split; [now apply F0|]. exists None, b. auto.
  - destruct (J7 eq_refl) as [K1 K2]. assert (Hne : evs <> []) by (intros ->; cbn in *; lia).
    destruct (search _ _ _ _ _ _ _ _ _ _ _ _ _ _ _ _ _) as [[[[[[evs' cbs'] polls'] stopped] why] gp]|] eqn:ES; [|discriminate].
    destruct (search_spec _ _ _ _ _ _ _ _ _ _ _ _ _ _ _ _ _ _ _ _ _ _ _ J1 K2 ES) as (L1 & L2 & (tl & L3) & L4 & L5 & L6 & _).
    destruct (recommend _ _ gp evs') as [b nv] eqn:ER. intros [= <- <-]. cbn.
    split; [exact L1|]. split; [reflexivity|]. split; [lia|]. split.
    + intros k Hk. destruct (Nat.lt_ge_cases k (length evs)); [apply J3; lia|apply L4; lia].
    + split; [exact L6|]. split; [intros H; left; now apply L5|]. split; [apply L5|]. split; [|exists gp, b; auto].
      rewrite L3, map_app. specialize (F0 Hne). destruct (map ev_u evs); [discriminate|exact F0].
Qed.

(** the run does not fail by itself *)
Lemma run_total sobol init : (forall i x, objective i x <> None) -> (forall g evs, acquire g evs <> None) -> early_stop 0 = false -> exists r, run sobol init = Ok r.
Proof.
  intros Ho Ha He.
  assert (HE : forall u i evs cbs, exists r, evaluate tf objective noise_function fixed_noise u i evs cbs = Some r).
  { intros u i evs cbs. unfold evaluate. destruct (objective _ _) eqn:E; [eauto|]. destruct (Ho _ _ E). }
  assert (HD : forall us evs cbs polls, exists r, design tf objective noise_function fixed_noise early_stop us evs cbs polls = Some r).
  { induction us as [|u us IH]; intros; cbn [design]; [eauto|]. destruct (early_stop polls); [eauto|]. destruct (HE u (length evs) evs cbs) as [[evs' cbs'] ->]. apply IH. }
  assert (HS : forall left gp stall pb pu evs cbs polls, exists r, search c tf objective noise_function fixed_noise early_stop G fit acquire left gp stall pb pu evs cbs polls = Ok r).
  { induction left as [|left IH]; intros; cbn [search]; [eauto|]. destruct (early_stop polls); [eauto|]. destruct (match gp with Some g => _ | None => _ end) as [g|]; [|eauto].
    destruct (acquire g evs) as [[u ei]|] eqn:E; [|destruct (Ha _ _ E)]. destruct (rltb 0 (ei_tol c) && _); [eauto|].
    destruct (HE u (length evs) evs cbs) as [[evs' cbs'] ->]. destruct (Z.ltb 0 (patience c) && _); [eauto|]. apply IH. }
  unfold run, bayesian_optimize. match goal with |- context[design _ _ _ _ _ ?us] => set (us0 := us) end.
  destruct (design tf objective noise_function fixed_noise early_stop us0 [] [] 0) as [[[[evs cbs] polls] st]|] eqn:ED; [|destruct (HD us0 [] [] 0%nat) as [r Hr]; congruence].
  destruct st.
  - destruct (Nat.eqb_spec (length evs) 0) as [Z0|]; [|destruct (recommend _ _ _ _); eauto].
    assert (Hh0 : honest tf objective noise_function fixed_noise [] []) by (split; [reflexivity|]; split; intros [|i] ? H; discriminate H).
    destruct (design_spec _ _ _ _ _ _ _ _ _ _ _ _ _ Hh0 eq_refl ED) as (_ & _ & _ & _ & J6 & _). destruct (J6 eq_refl) as [K _]. rewrite Z0 in K. congruence.
  - match goal with |- context[search ?a1 ?a2 ?a3 ?a4 ?a5 ?a6 ?a7 ?a8 ?a9 ?b1 ?b2 ?b3 ?b4 ?b5 ?b6 ?b7 ?b8] => destruct (HS b1 b2 b3 b4 b5 b6 b7 b8) as [[[[[[? ?] ?] ?] ?] ?] ->] end.
    destruct (recommend _ _ _ _). eauto.
Qed.
End R.

(** C32 fails: with a budget of one the optimizer still evaluates twice *)
Definition ex_cfg m := BoCfg m None 10 (/ 1000) (/ 1000) 0 1.
Definition ex_run (m : Z) (stop : nat -> bool) :=
  run (ex_cfg m) (make_tf [(0, 1)] (fun _ => None)) (fun _ x => Some (Fin (nth 0 x 0))) None None stop unit (fun _ => Some tt) (fun _ _ => Some ([/ 4], PInf)) (fun _ us => Some (map (fun _ => 0) us))
    (fun i => [/ INR (i + 1)]) [/ 3].
Theorem bo_budget_refuted : exists info cbs, ex_run 1 (fun _ => false) = Ok (info, cbs) /\ i_n info = 2%nat.
Proof. do 2 eexists. split; [reflexivity|reflexivity]. Qed.
Print Assumptions bo_budget_refuted.
(** ... with a budget of two or more it is kept; the reported number, trace and callbacks are what happened *)
Theorem bo_budget_partial : forall c tf objective noise_function fixed_noise early_stop G fit acquire post_mean sobol init info cbs,
  run c tf objective noise_function fixed_noise early_stop G fit acquire post_mean sobol init = Ok (info, cbs) ->
  ((2 <= max_iter c)%Z -> (Z.of_nat (i_n info) <= max_iter c)%Z) /\ (i_n info <= Nat.max 2 (Z.to_nat (max_iter c)))%nat /\
  i_n info = length (i_evs info) /\ length cbs = i_n info /\
  nth_error (map ev_u (i_evs info)) 0 = Some (to_unit tf init) /\
  (forall i e, nth_error (i_evs info) i = Some e ->
     ev_theta e = from_unit tf (ev_u e) /\ exists v, objective i (ev_theta e) = Some v /\ ev_y e = match v with Fin r => r | _ => big end) /\
  (forall i b, nth_error cbs i = Some b -> cb_iter b = i /\ cb_n b = (i + 1)%nat /\
     (exists e, In e (firstn (i + 1) (i_evs info)) /\ cb_x b = ev_theta e /\ cb_f b = ev_y e) /\
     forall e, In e (firstn (i + 1) (i_evs info)) -> cb_f b <= ev_y e).
Proof.
  intros c tf objective nf fn es G fit acquire pm sobol init info cbs E.
  destruct (run_spec c tf objective nf fn es G fit acquire pm sobol init info cbs E) as ((H1 & H2 & H3) & H4 & H5 & _ & _ & _ & _ & H6 & _).
  split; [lia|]. split; [lia|]. split; [exact H4|]. split; [lia|]. split; [exact H6|]. split; [|exact H3].
  intros i e Hi. destruct (H2 i e Hi) as (A & B & _). auto.
Qed.
Print Assumptions bo_budget_partial.
Example bo_budget_ex : exists info cbs, ex_run 6 (fun _ => false) = Ok (info, cbs) /\ i_n info = 6%nat /\ length cbs = 6%nat.
Proof.
  unfold ex_run, run, bayesian_optimize. change (Z.to_nat (design_size _ _ _)) with 5%nat. cbn [seq map Nat.sub].
  match goal with |- context[design ?a ?b ?c ?d ?e ?us [] [] 0] => destruct (design a b c d e us [] [] 0) as [[[[evs cbs] polls] st]|] eqn:ED; [|discriminate ED] end.
  assert (L : length evs = 5%nat /\ length cbs = 5%nat /\ st = false) by (injection ED as <- <- _ <-; auto). destruct L as (L & L2 & ->). clear ED. cbv iota. rewrite L. change (Z.to_nat (max_iter (ex_cfg 6) - Z.of_nat 5)) with 1%nat.
  cbn [search ex_cfg ei_tol patience refit_every]. unfold evaluate. rewrite andb_false_r. cbv beta zeta iota. cbv iota.
  match goal with |- context[Z.ltb 0 10 && ?x] => replace (Z.ltb 0 10 && x) with false by (destruct (no_gain _ _ _ _); reflexivity) end.
  destruct (recommend _ _ _ _) as [b nv]. do 2 eexists. split; [reflexivity|]. cbn [i_n]. rewrite !app_length, L, L2. auto.
Qed.

(** C33 fails: a stop at the first poll raises, and a stop during the initial design is reported as "budget" *)
Theorem bo_stop_refuted :
  ex_run 7 (fun _ => true) = Err EEmpty /\
  exists info cbs, ex_run 7 (fun k => Nat.leb 2 k) = Ok (info, cbs) /\ i_n info = 2%nat /\ i_stopped info = true /\ i_reason info = Budget.
Proof. split; [reflexivity|]. do 2 eexists. repeat split. Qed.
Print Assumptions bo_stop_refuted.
(** ... true when at least one evaluation happened: a stop at poll k >= 1 ends the run normally after at most k
    evaluations, with the flag "stopped early" set exactly if a stop ended it; the reason "stopped" is never wrong *)
Theorem bo_stop_partial : forall c tf objective noise_function fixed_noise early_stop G fit acquire post_mean sobol init,
  (forall g us m, post_mean g us = Some m -> length m = length us) ->
  (forall i x, objective i x <> None) -> (forall g evs, acquire g evs <> None) -> early_stop 0%nat = false ->
  exists info cbs, run c tf objective noise_function fixed_noise early_stop G fit acquire post_mean sobol init = Ok (info, cbs) /\
  (exists e, In e (i_evs info) /\ i_x info = ev_theta e /\ i_f info = ev_y e) /\
  (forall k, early_stop k = true -> (i_n info <= k)%nat) /\
  (i_stopped info = true -> early_stop (i_n info) = true) /\
  (i_reason info = Stopped -> i_stopped info = true).
Proof.
  intros c tf objective nf fn es G fit acquire pm sobol init Hm Ho Ha He.
  destruct (run_total c tf objective nf fn es G fit acquire pm sobol init Ho Ha He) as [[info cbs] E]. exists info, cbs. split; [exact E|].
  destruct (run_spec c tf objective nf fn es G fit acquire pm sobol init info cbs E) as (_ & H4 & H5 & H6 & H7 & _ & H8 & _ & gp & b & H9 & H10 & H11).
  assert (Hne : i_evs info <> []) by (intros Z0; rewrite Z0 in H4; cbn in H4; lia).
  destruct (recommend_spec G pm Hm gp (i_evs info) b _ Hne H9) as (Hb & _).
  split.
  - destruct (nth_error (i_evs info) b) as [e|] eqn:Ee; [|apply nth_error_None in Ee; lia]. exists e. split; [exact (nth_error_In _ _ Ee)|].
    rewrite H10, H11. split; apply nth_error_nth; now apply map_nth_error.
  - split; [|auto]. intros k Hk. destruct (Nat.le_gt_cases (i_n info) k); [assumption|]. rewrite H6 in Hk by assumption. discriminate.
Qed.
Print Assumptions bo_stop_partial.

(** C72 *)
Theorem bo_converged : forall c tf objective noise_function fixed_noise early_stop G fit acquire post_mean sobol init info cbs,
  run c tf objective noise_function fixed_noise early_stop G fit acquire post_mean sobol init = Ok (info, cbs) ->
  i_reason info = Converged ->
  (0 < patience c)%Z /\ (2 + patience c <= Z.of_nat (i_n info))%Z /\
  forall k, (Z.of_nat (i_n info) - patience c <= Z.of_nat k < Z.of_nat (i_n info))%Z ->
    no_progress (f_rtol c) (x_tol c) (i_evs info) k.
Proof.
  intros c tf objective nf fn es G fit acquire pm sobol init info cbs. unfold run, bayesian_optimize.
  set (n0 := design_size _ _ _). pose proof (design_us_len c tf sobol init) as LU. fold n0 in LU.
  set (us := to_unit tf init :: _) in *.
  destruct (design _ _ _ _ _ us [] [] 0) as [[[[evs cbs0] polls] st]|] eqn:ED; [|discriminate].
  assert (Hh0 : honest tf objective nf fn [] []).
  { split; [reflexivity|]. split; intros [|i] ? H; discriminate H. }
  destruct (design_spec _ _ _ _ _ _ _ _ _ _ _ _ _ Hh0 eq_refl ED) as (J1 & J2 & J3 & _ & J6 & J7). cbn [length map app] in *.
  assert (N0 : (2 <= n0)%Z) by (unfold n0, design_size; lia).
  destruct st.
  - destruct (Nat.eqb (length evs) 0); [discriminate|]. destruct (recommend _ _ None evs) as [b nv]. intros [= <- <-]. discriminate.
  - destruct (J7 eq_refl) as [K1 K2].
    destruct (search _ _ _ _ _ _ _ _ _ _ _ _ _ _ _ _ _) as [[[[[[evs' cbs'] polls'] stopped] why] gp]|] eqn:ES; [|discriminate].
    destruct (recommend _ _ gp evs') as [b nv]. intros [= <- <-]. cbn [i_n i_evs i_reason]. intros ->.
    edestruct search_converged as (L1 & L2 & L3); [exact J1|apply Z.le_refl| |exact ES|]; [intros k A B; lia|].
    split; [exact L1|]. split; [lia|]. intros k Hk. apply no_gain_progress. apply L3; lia.
Qed.
Print Assumptions bo_converged.
(** a constant objective and a maximizer that repeats one point: converged after two more evaluations *)
Example bo_converged_ex : exists info cbs,
  run (BoCfg 20 (Some 2%Z) 2 0 1 0 1) (make_tf [(0, 1)] (fun _ => None)) (fun _ _ => Some (Fin 1)) None None (fun _ => false) unit (fun _ => Some tt)
    (fun _ _ => Some ([/ 4], PInf)) (fun _ us => Some (map (fun _ => 0) us)) (fun i => [/ INR (i + 1)]) [/ 3] = Ok (info, cbs) /\
  i_reason info = Converged /\ i_n info = 4%nat.
Proof.
  assert (A : rltb 1 1 = false) by (apply rltb_false; lra). assert (A0 : rltb 0 0 = false) by (apply rltb_false; lra).
  assert (N : forall e1 e2 l, ev_y e1 = 1 -> ev_y e2 = 1 -> (forall e, In e l -> ev_y e = 1) ->
    no_gain (BoCfg 20 (Some 2%Z) 2 0 1 0 1) (best_y (e1 :: e2 :: l)) (best_u (e1 :: e2 :: l)) (e1 :: e2 :: l ++ [Ev [/ 4] (from_unit (make_tf [(0, 1)] (fun _ => None)) [/ 4]) 1 None]) = true).
  { intros e1 e2 l H1 H2 H3.
    assert (P : forall (q : list ev), (forall e, In e q -> ev_y e = 1) -> argmin (map ev_y (e1 :: q)) = 0%nat /\ argmaxr (map ev_y (e1 :: q)) = 0%nat).
    { intros q Hq. unfold argmin, argmaxr. cbn [map]. rewrite H1. generalize 1%nat. induction q as [|e q IH]; intros n; [split; reflexivity|]. cbn [map argbest].
      rewrite (Hq e (or_introl eq_refl)), A. apply IH. intros e0 H0. apply Hq. now right. }
    unfold no_gain, worst_y, best_y, best_u.
    destruct (P (e2 :: l)) as [P1 P2]; [intros e [<-|He]; auto|]. rewrite P1.
    destruct (P (e2 :: l ++ [Ev [/ 4] (from_unit (make_tf [(0, 1)] (fun _ => None)) [/ 4]) 1 None])) as [P3 P4].
    { intros e [<-|He]; [auto|]. apply in_app_or in He as [He|[<-|[]]]; auto. }
    rewrite P3, P4. cbn [map nth]. rewrite H1. replace (1 - 1) with 0 by lra. rewrite A0. apply andb_true_iff. split; apply rleb_spec; cbn.
    - unfold Rdiv. lra.
    - unfold dist. replace (rnorm _) with 0; [lra|]. unfold rnorm. symmetry. replace (fold_right _ _ _) with 0; [apply sqrt_0|].
      symmetry. generalize (ev_u e1). intros u. induction u as [|x u IH]; cbn; [reflexivity|]. rewrite IH. ring. }
  unfold run, bayesian_optimize. change (Z.to_nat (design_size _ _ _)) with 2%nat. cbn [seq map Nat.sub design]. unfold evaluate at 1. cbn [finite_value app length noise_for].
  unfold evaluate at 1. cbn [finite_value app length]. cbv zeta. cbn [length]. change (Z.to_nat (max_iter _ - Z.of_nat 2)) with (Datatypes.S (Datatypes.S 16)).
  cbn [search refit_every]. unfold evaluate at 1. cbn [finite_value app length]. cbv zeta. replace (rltb 0 (ei_tol _)) with false by (symmetry; exact A0). cbn [andb].
  match goal with |- context[no_gain _ (best_y [?a; ?b]) _ _] => pose proof (N a b [] eq_refl eq_refl (fun e (H : In e []) => match H with end)) as Q1 end.
  cbn [app] in Q1. unfold noise_for in Q1 |- *. rewrite Q1. change (Z.ltb 0 _ && Z.leb _ (0 + 1)) with false. cbn [search refit_every]. unfold evaluate at 1. cbn [finite_value app length]. cbv zeta.
  change (Nat.eqb (3 mod _) 0) with true. cbv iota.
  cbn [andb].
  match goal with |- context[no_gain _ (best_y [?a; ?b; ?d]) _ _] => pose proof (N a b [d] eq_refl eq_refl) as Q2 end.
  match goal with |- context[no_gain ?a ?b ?c ?d] => replace (no_gain a b c d) with true by (symmetry; apply Q2; intros e [<-|[]]; reflexivity) end.
  change (Z.ltb 0 _ && Z.leb _ (0 + 1 + 1)) with true. cbv iota.
  destruct (recommend _ _ _ _) as [b nv]. do 2 eexists. split; [reflexivity|]. split; reflexivity.
Qed.

(** C34 *)
Theorem bo_recommendation : forall c tf objective noise_function fixed_noise early_stop G fit acquire post_mean sobol init info cbs,
  (forall g us m, post_mean g us = Some m -> length m = length us) ->
  run c tf objective noise_function fixed_noise early_stop G fit acquire post_mean sobol init = Ok (info, cbs) ->
  (exists e, In e (i_evs info) /\ i_x info = ev_theta e /\ i_f info = ev_y e) /\
  (Forall (fun e => ev_v e = None) (i_evs info) -> forall e, In e (i_evs info) -> i_f info <= ev_y e) /\
  (forall e, In e (i_evs info) -> i_f info <= ev_y e + 3 * sqrt (i_noise info)) /\
  ((exists e, In e (i_evs info) /\ ev_v e <> None) -> i_noise info = rmean (known (map ev_v (i_evs info)))) /\
  (forall i e, nth_error (i_evs info) i = Some e -> forall v, ev_v e = Some v <->
     match noise_function, fixed_noise with
     | Some f, _ => f i (ev_theta e) = Some (Fin v) /\ 0 < v
     | None, Some w => v = Rmax w (/ 10 ^ 12)
     | None, None => False
     end).
Proof.
  intros c tf objective nf fn es G fit acquire pm sobol init info cbs Hm E.
  destruct (run_spec c tf objective nf fn es G fit acquire pm sobol init info cbs E) as (H1 & H4 & H5 & _ & _ & _ & _ & _ & gp & b & H9 & H10 & H11).
  assert (Hne : i_evs info <> []) by (intros Z0; rewrite Z0 in H4; cbn in H4; lia).
  destruct (recommend_spec G pm Hm gp (i_evs info) b _ Hne H9) as (Hb & HA & HB & HC). split; [|split; [|split; [|split]]].
  - destruct (nth_error (i_evs info) b) as [e|] eqn:Ee; [|apply nth_error_None in Ee; lia]. exists e. split; [exact (nth_error_In _ _ Ee)|].
    rewrite H10, H11. split; apply nth_error_nth; now apply map_nth_error.
  - intros F e He. destruct (HA F) as [_ HZ]. rewrite H11. specialize (HB e He). rewrite HZ, sqrt_0 in HB. lra.
  - intros e He. rewrite H11. now apply HB.
  - exact HC.
  - intros i e He v. destruct H1 as (_ & H1 & _). destruct (H1 i e He) as (_ & _ & ->). unfold noise_for. destruct nf as [f|].
    + destruct (f i (ev_theta e)) as [[| | |w]|]; try (split; [discriminate|intros [Q _]; discriminate]).
      destruct (rltb 0 w) eqn:Q; [apply rltb_spec in Q|apply rltb_false in Q]; split; try discriminate.
      * intros [= <-]. auto.
      * intros [[= <-] _]. reflexivity.
      * intros [[= <-] P]. lra.
    + destruct fn as [w|]; [|split; [discriminate|tauto]]. split; [intros [= <-]|intros ->]; reflexivity.
Qed.
Print Assumptions bo_recommendation.

(** C31 fails for a degenerate interval: the cube still has width one there *)
Theorem bo_in_box_refuted : exists info cbs e,
  run (ex_cfg 2) (make_tf [(3, 3)] (fun _ => Some false)) (fun _ x => Some (Fin (nth 0 x 0))) None None (fun _ => false) unit (fun _ => None) (fun _ _ => None) (fun _ us => None)
    (fun i => [/ 2]) [3] = Ok (info, cbs) /\ In e (i_evs info) /\ ev_theta e = [3 + / 2] /\ ~ in_box [(3, 3)] (ev_theta e).
Proof.
  do 3 eexists. split; [reflexivity|]. split; [right; left; reflexivity|].
  assert (E : from_unit (make_tf [(3, 3)] (fun _ => Some false)) [/ 2] = [3 + / 2]).
  { cbn. unfold from_unit1, make_dim. cbn. replace (rltb 3 3) with false by (symmetry; apply rltb_false; lra). rewrite clip_id by lra. f_equal. lra. }
  split; [exact E|]. change (ev_theta _) with (from_unit (make_tf [(3, 3)] (fun _ => Some false)) [/ 2]). rewrite E.
  intros H. destruct (H 0%nat _ eq_refl) as (lo & hi & [= <- <-] & A). lra.
Qed.
Print Assumptions bo_in_box_refuted.
(** ... true when every interval has positive length: whatever the maximizer proposes, every evaluated vector, the
    one passed to the callback and the returned one lie in the box *)
Theorem bo_in_box_partial : forall bounds ls c objective noise_function fixed_noise early_stop G fit acquire post_mean sobol init info cbs,
  (forall g us m, post_mean g us = Some m -> length m = length us) ->
  (forall j lo hi, nth_error bounds j = Some (lo, hi) -> lo < hi) ->
  run c (make_tf bounds ls) objective noise_function fixed_noise early_stop G fit acquire post_mean sobol init = Ok (info, cbs) ->
  (forall e, In e (i_evs info) -> in_box bounds (ev_theta e)) /\ in_box bounds (i_x info) /\ Forall (fun b => in_box bounds (cb_x b)) cbs.
Proof.
  intros bounds ls c objective nf fn es G fit acquire pm sobol init info cbs Hm Hb E.
  destruct (run_spec c _ objective nf fn es G fit acquire pm sobol init info cbs E) as ((H1 & H2 & H3) & _).
  assert (K : forall e, In e (i_evs info) -> in_box bounds (ev_theta e)).
  { intros e He. apply In_nth_error in He as [i Hi]. destruct (H2 i e Hi) as (-> & _). now apply from_unit_in. }
  split; [exact K|]. split.
  - destruct (bo_recommendation _ _ _ _ _ _ _ _ _ _ _ _ _ _ Hm E) as ((e & He & -> & _) & _). now apply K.
  - apply Forall_forall. intros b Hb2. apply In_nth_error in Hb2 as [i Hi]. destruct (H3 i b Hi) as (_ & _ & (e & He & -> & _) & _). apply K.
    rewrite <- (firstn_skipn (i + 1)). apply in_or_app. auto.
Qed.
Print Assumptions bo_in_box_partial.
(** with reported noise 1 the surrogate's favourite (observed 2) is preferred to the smallest observation 1, without
    reported noise it is not *)
Example recommend_ex : let e y v := Ev [y] [y] y v in
  recommend unit (fun _ _ => Some [0; 5]) (Some tt) [e 1 (Some 1); e 2 (Some 1)] = (1%nat, (1 + (1 + 0)) / 2) /\
  recommend unit (fun _ _ => Some [0; 5]) (Some tt) [e 1 None; e 2 None] = (0%nat, 0).
Proof.
  assert (A : argmin [1; 2] = 0%nat) by (cbn; now replace (rltb 2 1) with false by (symmetry; apply rltb_false; lra)).
  assert (B : argmaxr [0; 5] = 1%nat) by (cbn; now replace (rltb 0 5) with true by (symmetry; apply rltb_spec; lra)).
  unfold recommend. cbn [map ev_y ev_v ev_u known]. rewrite A. split; [|reflexivity].
  assert (M : rmean [1; 1] = 1) by (unfold rmean; cbn; field).
  rewrite M, B. replace (rltb 0 1) with true by (symmetry; apply rltb_spec; lra). cbn [nth].
  replace (rleb 2 (1 + 3 * sqrt 1)) with true by (symmetry; apply rleb_spec; rewrite sqrt_1; lra). f_equal. lra.
Qed.
