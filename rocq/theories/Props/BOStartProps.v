(** Property C210: when a BO run says that it ended where it began. *)
From Coq Require Import Reals Lra Lia.
From Verif Require Import Model.Prelude Model.Ext Model.BO Model.BOStart Proofs.BOP Props.BOProps Props.BODesignProps.
Local Open Scope R_scope.

Lemma warned_is c tf objective nf fn es G fit acquire pm sobol init info cbs :
  bayesian_optimize c tf objective nf fn es G fit acquire pm sobol init = Ok (info, cbs) ->
  exists gp b, recommend G pm gp (i_evs info) = (b, i_noise info) /\ i_x info = nth b (map ev_theta (i_evs info)) [] /\ i_f info = nth b (map ev_y (i_evs info)) 0 /\
    bo_warned c tf objective nf fn es G fit acquire pm sobol init = Nat.ltb 1 (i_n info) && Nat.eqb b 0.
Proof.
  unfold bayesian_optimize, bo_warned, start_warning. destruct (design _ _ _ _ _ _ _ _ _) as [[[[evs cbs0] polls] [|]]|]; [| |discriminate].
  - destruct (Nat.eqb _ _); [discriminate|]. destruct (recommend _ _ _ _) as [b nv] eqn:E. intros H. injection H as <- _. exists None, b. cbn. auto.
  - destruct (search _ _ _ _ _ _ _ _ _ _ _ _ _ _ _ _ _) as [[[[[[evs' cbs'] polls'] st] why] g]|]; [|discriminate].
    destruct (recommend _ _ _ _) as [b nv] eqn:E. intros H. injection H as <- _. exists g, b. cbn. auto.
Qed.

(** C210 fails when the objective reports its noise: the run warns that nothing it evaluated improved on the start, 1/2,
    although it evaluated 0, where the objective is smaller *)
Definition noisy_objective (_ : nat) (x : list R) : option ext := Some (Fin (nth 0 x 0)).
Notation noisy_run f := (f (BoCfg 3 (Some 2%Z) 10 (/ 1000) (/ 1000) 0 1%nat) (make_tf [(0, 1)] (fun _ => None)) noisy_objective None (Some 1) (fun _ : nat => false)
    unit (fun _ => Some tt) (fun _ _ => Some ([0], PInf)) (fun _ us => Some (map (fun _ => 0) us)) (fun _ : nat => [1]) [/ 2]).
Theorem bo_start_warning_refuted : exists info cbs, noisy_run bayesian_optimize = Ok (info, cbs) /\ noisy_run bo_warned = true /\
  i_x info = [/ 2] /\ noisy_objective 0 [/ 2] = Some (Fin (/ 2)) /\ exists e, In e (i_evs info) /\ noisy_objective 0 (ev_theta e) = Some (Fin 0).
Proof.
  set (tf := make_tf [(0, 1)] (fun _ => None)).
  assert (F : forall u, 0 <= u <= 1 -> from_unit tf [u] = [u]).
  { intros u Hu. unfold tf. cbn. unfold from_unit1, make_dim. cbn. replace (rltb 0 0) with false by (symmetry; apply rltb_false; lra). cbn.
    replace (rltb 0 1) with true by (symmetry; apply rltb_spec; lra). rewrite clip_id by exact Hu. f_equal. lra. }
  assert (T : to_unit tf [/ 2] = [/ 2]).
  { unfold tf. cbn. unfold to_unit1, make_dim. cbn. replace (rltb 0 0) with false by (symmetry; apply rltb_false; lra). cbn.
    replace (rltb 0 1) with true by (symmetry; apply rltb_spec; lra). rewrite clip_id by lra. f_equal. lra. }
  set (nv := Rmax 1 (/ 10 ^ 12)). assert (N1 : 1 <= nv) by apply Rmax_l.
  set (evs := [Ev [/ 2] [/ 2] (/ 2) (Some nv); Ev [1] [1] 1 (Some nv); Ev [0] [0] 0 (Some nv)]).
  assert (RC : recommend unit (fun _ us => Some (map (fun _ => 0) us)) (Some tt) evs = (0%nat, rmean [nv; nv; nv])).
  { unfold recommend. cbn [evs map ev_v ev_y ev_u known]. assert (M : rmean [nv; nv; nv] = nv) by (unfold rmean; cbn; lra).
    replace (rltb 0 (rmean [nv; nv; nv])) with true by (symmetry; apply rltb_spec; lra).
    assert (Z0 : rltb 0 0 = false) by (apply rltb_false; lra). unfold argmaxr at 1. cbn [argbest]. rewrite !Z0. cbn [nth].
    replace (rleb _ _) with true; [unfold argmaxr; cbn [argbest]; now rewrite !Z0|]. symmetry. apply rleb_spec. rewrite M.
    assert (1 <= sqrt nv) by (rewrite <- sqrt_1; apply sqrt_le_1; lra).
    destruct (argmin_spec [/ 2; 1; 0]) as [A _]; [discriminate|]. destruct (argmin [/ 2; 1; 0]) as [|[|[|k]]]; cbn in A |- *; try lra; lia. }
  assert (DS : exists cbs, design tf noisy_objective None (Some 1) (fun _ => false) [[/ 2]; [1]] [] [] 0 = Some (firstn 2 evs, cbs, 2%nat, false)).
  { cbn [design]. unfold evaluate, noisy_objective. cbn [length app]. rewrite !F by lra. cbn. eexists. reflexivity. }
  destruct DS as [cbs0 DS].
  assert (SE : exists cbs p, search (BoCfg 3 (Some 2%Z) 10 (/ 1000) (/ 1000) 0 1%nat) tf noisy_objective None (Some 1) (fun _ => false) unit (fun _ => Some tt) (fun _ _ => Some ([0], PInf))
     1 None 0 (best_y (firstn 2 evs)) (best_u (firstn 2 evs)) (firstn 2 evs) cbs0 2 = Ok (evs, cbs, p, false, Budget, Some tt)).
  { cbn [search ei_tol patience]. replace (rltb 0 0) with false by (symmetry; apply rltb_false; lra). cbn [andb].
    unfold evaluate, noisy_objective. rewrite F by lra. cbn [firstn evs app finite_value nth noise_for]. fold nv.
    match goal with |- context[Z.ltb 0 10 && ?x] => replace (Z.ltb 0 10 && x) with false by (destruct (no_gain _ _ _ _); reflexivity) end.
    do 2 eexists. reflexivity. }
  destruct SE as (cbs1 & p & SE).
  unfold bayesian_optimize, bo_warned, start_warning. fold tf. change (Z.to_nat (design_size _ _ _)) with 2%nat. cbn [seq map Nat.sub]. rewrite T, DS. cbv iota.
  change (Z.to_nat (max_iter _ - Z.of_nat (length (firstn 2 evs)))) with 1%nat. rewrite SE, RC. do 2 eexists. split; [reflexivity|]. split; [reflexivity|]. split; [reflexivity|]. split; [reflexivity|].
  eexists. split; [right; right; left; reflexivity|reflexivity].
Qed.
Print Assumptions bo_start_warning_refuted.

(** ... A run that warns did return what it was given and had evaluated something else, and nothing it evaluated was better by more
    than three standard deviations of the reported noise.  With an exact objective it warns exactly if nothing it evaluated was
    better, and otherwise its answer is better than what it was given. *)
Theorem bo_start_warning_partial : forall bounds ls c objective noise_function fixed_noise early_stop G fit acquire pm sobol init info cbs,
  (forall (g : G) us m, pm g us = Some m -> length m = length us) ->
  length init = length bounds -> in_box bounds init -> (forall j lo hi, nth_error bounds j = Some (lo, hi) -> 0 < lo -> / 10 ^ 300 <= lo) ->
  bayesian_optimize c (make_tf bounds ls) objective noise_function fixed_noise early_stop G fit acquire pm sobol init = Ok (info, cbs) ->
  let warned := bo_warned c (make_tf bounds ls) objective noise_function fixed_noise early_stop G fit acquire pm sobol init in
  exists start, (objective 0%nat init = Some (Fin start) \/ (start = big /\ exists v, objective 0%nat init = Some v /\ forall r, v <> Fin r)) /\
    (warned = true -> (1 < i_n info)%nat /\ i_x info = init /\ i_f info = start /\ forall e, In e (i_evs info) -> start <= ev_y e + 3 * sqrt (i_noise info)) /\
    ((forall k x, noise_for noise_function fixed_noise k x = None) ->
       (warned = true <-> (1 < i_n info)%nat /\ forall e, In e (i_evs info) -> start <= ev_y e) /\
       (warned = false -> (1 < i_n info)%nat -> i_f info < start)).
Proof.
  intros bounds ls c objective nf fn es G fit acquire pm sobol init info cbs Hm L B T E warned.
  destruct (run_spec c (make_tf bounds ls) objective nf fn es G fit acquire pm sobol init info cbs E) as ((_ & H & _) & HN & HN1 & _ & _ & _ & _ & H0 & _).
  destruct (warned_is _ _ _ _ _ _ _ _ _ _ _ _ _ _ E) as (gp & b & HR & HX & HF & HW). fold warned in HW.
  assert (Hne : i_evs info <> []) by (intros Z0; rewrite Z0 in HN; cbn in HN; lia).
  destruct (recommend_spec G pm Hm gp (i_evs info) b _ Hne HR) as (Hb & HA & HB & _).
  rewrite nth_error_map in H0. destruct (nth_error (i_evs info) 0) as [e0|] eqn:E0; [|discriminate]. injection H0 as H0.
  destruct (H 0%nat e0 E0) as (HT & (v & Ev & Ey) & _). rewrite H0, round_trip_vec in HT by assumption. rewrite HT in Ev.
  assert (Y0 : nth 0 (map ev_y (i_evs info)) 0 = ev_y e0) by (apply nth_error_nth; now apply map_nth_error).
  exists (ev_y e0). split.
  { rewrite Ev, Ey. destruct v; cbn; [right|right|right|left; reflexivity]; (split; [reflexivity|]; eexists; split; [reflexivity|]; intros r Hr; discriminate Hr). }
  split.
  - rewrite HW. intros [W1 W2]%andb_prop. apply Nat.ltb_lt in W1. apply Nat.eqb_eq in W2. subst b. split; [exact W1|]. split.
    + rewrite HX, <- HT. apply nth_error_nth. now apply map_nth_error.
    + split; [congruence|]. intros e He. rewrite <- Y0. now apply HB.
  - intros N. assert (FA : Forall (fun e => ev_v e = None) (i_evs info)).
    { apply Forall_forall. intros e' He'. apply In_nth_error in He' as [i Hi]. destruct (H i e' Hi) as (_ & _ & ->). apply N. }
    destruct (HA FA) as [HB0 HZ]. split; [split|].
    + rewrite HW. intros [W1 W2]%andb_prop. apply Nat.ltb_lt in W1. apply Nat.eqb_eq in W2. split; [exact W1|]. intros e He. rewrite <- Y0. subst b. specialize (HB e He). rewrite W2, HZ, sqrt_0 in HB. lra.
    + intros [W1 W2]. rewrite HW. apply andb_true_intro. split; [now apply Nat.ltb_lt|]. apply Nat.eqb_eq. destruct b as [|b]; [reflexivity|exfalso].
      assert (Q : (0 < argmin (map ev_y (i_evs info)))%nat) by lia. apply argmin_first in Q. rewrite Y0 in Q.
      destruct (nth_error (i_evs info) (argmin (map ev_y (i_evs info)))) as [e|] eqn:Ee; [|apply nth_error_None in Ee; lia].
      specialize (W2 e (nth_error_In _ _ Ee)). rewrite (nth_error_nth _ _ 0 (map_nth_error ev_y _ _ Ee)) in Q. lra.
    + rewrite HW. intros W W1. rewrite (proj2 (Nat.ltb_lt _ _) W1) in W. cbn [andb] in W. apply Nat.eqb_neq in W. rewrite HF, HB0.
      rewrite <- Y0. apply argmin_first. lia.
Qed.
Print Assumptions bo_start_warning_partial.
(** five evaluations of a distance: a run from 1/3 with the minimum there warns, one with the minimum at 1/2 does not and ends at 1/2 *)
Definition dist_run {T} (f : bo_cfg -> list dimt -> (nat -> list R -> option ext) -> option (nat -> list R -> option ext) -> option R -> (nat -> bool) ->
    forall G : Type, (list ev -> option G) -> (G -> list ev -> option (list R * ext)) -> (G -> list (list R) -> option (list R)) -> (nat -> list R) -> list R -> T) (at_ : R) : T :=
  f (BoCfg 50 None 10 (/ 1000) (/ 1000) 0 1%nat) (make_tf [(0, 1)] (fun _ => None)) (fun _ x => Some (Fin (Rabs (hd 0 x - at_)))) None None (fun _ => false)
    unit (fun _ => None) (fun _ _ => None) (fun _ _ => None) (fun i => [/ INR (i + 1)]) [/ 3].
Lemma dist_runs at_ : exists info cbs, dist_run bayesian_optimize at_ = Ok (info, cbs) /\ i_n info = 5%nat /\ map ev_u (i_evs info) = to_unit (make_tf [(0, 1)] (fun _ => None)) [/ 3] :: map (fun i => [/ INR (i + 1)]) [1; 2; 3; 4]%nat.
Proof.
  unfold dist_run, bayesian_optimize. change (Z.to_nat (design_size _ _ _)) with 5%nat. cbn [seq map Nat.sub].
  match goal with |- context[design ?a ?b ?c ?d ?e ?us [] [] 0] => destruct (design a b c d e us [] [] 0) as [[[[evs cbs] polls] st]|] eqn:ED; [|discriminate ED] end.
  assert (L : length evs = 5%nat /\ st = false) by (injection ED as <- _ _ <-; auto). destruct L as (L & ->). apply design_us in ED. cbv iota. rewrite L. change (Z.to_nat (max_iter _ - Z.of_nat 5)) with 45%nat.
  cbn [search]. destruct (recommend _ _ _ _) as [b nv]. do 2 eexists. split; [reflexivity|]. cbn [i_n i_evs]. split; [exact L|exact ED].
Qed.
Example bo_start_warning_ex : dist_run bo_warned (/ 3) = true /\ dist_run bo_warned (/ 2) = false.
Proof.
  assert (K : forall at_, exists info cbs, dist_run bayesian_optimize at_ = Ok (info, cbs) /\ i_n info = 5%nat /\ map ev_u (i_evs info) = to_unit (make_tf [(0, 1)] (fun _ => None)) [/ 3] :: map (fun i => [/ INR (i + 1)]) [1; 2; 3; 4]%nat /\
    (forall i e, nth_error (i_evs info) i = Some e -> ev_y e = Rabs (hd 0 (from_unit (make_tf [(0, 1)] (fun _ => None)) (ev_u e)) - at_)) /\
    (dist_run bo_warned at_ = true <-> (1 < i_n info)%nat /\ forall e, In e (i_evs info) -> Rabs (/ 3 - at_) <= ev_y e)).
  { intros at_. destruct (dist_runs at_) as (info & cbs & E & N & U). exists info, cbs. split; [exact E|]. split; [exact N|]. split; [exact U|]. split.
    - destruct (run_spec _ _ _ _ _ _ _ _ _ _ _ _ _ _ E) as ((_ & H & _) & _). intros i e Hi. destruct (H i e Hi) as (<- & (v & Ev & ->) & _). injection Ev as <-. reflexivity.
    - refine ((fun X => _) (fun A B C D => bo_start_warning_partial _ _ _ _ _ _ _ _ _ _ _ _ _ _ _ A B C D E)). destruct X as (st & HS & _ & HX).
      + intros g us m H. discriminate H.
      + reflexivity.
      + intros [|[|j]] v H; try discriminate H. injection H as <-. exists 0, 1. split; [reflexivity|lra].
      + intros [|[|j]] lo hi H P; try discriminate H. injection H as <- <-. lra.
      + destruct HS as [HS|(_ & v & HS & HV)]; [injection HS as <-|injection HS as <-; destruct (HV _ eq_refl)]. now apply HX. }
  split.
  - destruct (K (/ 3)) as (info & cbs & _ & N & U & Y & W). apply W. split; [lia|]. intros e He. apply In_nth_error in He as [i Hi]. rewrite (Y i e Hi). rewrite Rminus_eq_0, Rabs_R0. apply Rabs_pos.
  - destruct (K (/ 2)) as (info & cbs & _ & N & U & Y & W). destruct (dist_run bo_warned (/ 2)); [exfalso|reflexivity]. destruct (proj1 W eq_refl) as [_ H].
    destruct (nth_error (i_evs info) 1) as [e|] eqn:E1.
    + specialize (H e (nth_error_In _ _ E1)). rewrite (Y _ _ E1) in H. apply (map_nth_error ev_u) in E1. rewrite U in E1. injection E1 as E1. rewrite <- E1 in H.
      cbn in H. unfold from_unit1, make_dim in H. cbn in H. replace (rltb 0 0) with false in H by (symmetry; apply rltb_false; lra). cbn in H.
      replace (rltb 0 1) with true in H by (symmetry; apply rltb_spec; lra). rewrite clip_id in H by lra. replace (0 + / (1 + 1) * (1 - 0) - / 2) with 0 in H by lra. rewrite Rabs_R0 in H.
      assert (0 < Rabs (/ 3 - / 2)) by (apply Rabs_pos_lt; lra). lra.
    + apply (f_equal (@length _)) in U. rewrite map_length in U. apply nth_error_None in E1. cbn in U. lia.
Qed.
