(** Property C203: how many evaluations a BO run spends before it models anything, and where. *)
From Coq Require Import Reals Lra Lia.
From Verif Require Import Model.Prelude Model.Ext Model.BO Model.BOWarn Spec.BODesignSpec Props.BOProps.
Local Open Scope nat_scope.

Lemma design_sizeE asked d budget : (1 <= d)%Z -> (2 <= budget)%Z -> design_size asked d budget = space_filling asked d budget.
Proof.
  intros D B. unfold design_size, space_filling, clipped, default_design. destruct asked as [n|].
  - destruct (Z.ltb_spec n 2); [lia|]. destruct (Z.ltb_spec budget n); lia.
  - destruct (Z.ltb_spec (2 * (d + 1)) 5); [|destruct (Z.ltb_spec (10 * d) (2 * (d + 1)))];
      (match goal with |- context[(?a <? 2)%Z] => destruct (Z.ltb_spec a 2) end; [lia|]; match goal with |- context[(budget <? ?a)%Z] => destruct (Z.ltb_spec budget a) end; lia).
Qed.

Section D.
Variables (c : bo_cfg) (tf : list dimt).
Variable objective : nat -> list R -> option ext.
Variable noise_function : option (nat -> list R -> option ext).
Variable fixed_noise : option R.
Variable early_stop : nat -> bool.
Let ev1 := evaluate tf objective noise_function fixed_noise.
Let des := design tf objective noise_function fixed_noise early_stop.

Lemma evaluate_app u it evs cbs evs' cbs' : ev1 u it evs cbs = Some (evs', cbs') -> exists e, evs' = evs ++ [e] /\ ev_u e = u.
Proof. unfold ev1, evaluate. destruct (objective _ _); [|discriminate]. intros E. injection E as <- _. eexists. split; [reflexivity|reflexivity]. Qed.
Lemma design_us us : forall evs cbs polls evs' cbs' polls', des us evs cbs polls = Some (evs', cbs', polls', false) -> map ev_u evs' = map ev_u evs ++ us.
Proof.
  induction us as [|u us IH]; intros evs cbs polls evs' cbs' polls' E; unfold des in *; cbn [design] in E; [injection E as <- _ _; now rewrite app_nil_r|].
  destruct (early_stop polls); [discriminate|]. destruct (evaluate _ _ _ _ _ _ _ _) as [[evs1 cbs1]|] eqn:Ev; [|discriminate].
  apply evaluate_app in Ev. destruct Ev as (e & -> & Ee). rewrite (IH _ _ _ _ _ _ E), map_app. cbn [map]. now rewrite Ee, <- app_assoc.
Qed.

Section G.
Variables (G : Type) (fit : list ev -> option G) (acquire : G -> list ev -> option (list R * ext)) (pm : G -> list (list R) -> option (list R)).
Lemma search_app left : forall gp stall pb pu evs cbs polls evs' cbs' polls' st why g,
  search c tf objective noise_function fixed_noise early_stop G fit acquire left gp stall pb pu evs cbs polls = Ok (evs', cbs', polls', st, why, g) ->
  exists rest, evs' = evs ++ rest.
Proof.
  induction left as [|left IH]; intros gp stall pb pu evs cbs polls evs' cbs' polls' st why g E; cbn [search] in E.
  - injection E as <- _ _ _ _ _. exists []. now rewrite app_nil_r.
  - destruct (early_stop polls); [injection E as <- _ _ _ _ _; exists []; now rewrite app_nil_r|].
    destruct (match gp with Some g0 => _ | None => _ end) as [g0|]; [|injection E as <- _ _ _ _ _; exists []; now rewrite app_nil_r].
    destruct (acquire g0 evs) as [[u ei]|]; [|discriminate].
    destruct (rltb 0 (ei_tol c) && _); [injection E as <- _ _ _ _ _; exists []; now rewrite app_nil_r|].
    destruct (evaluate _ _ _ _ _ _ _ _) as [[evs1 cbs1]|] eqn:Ev; [|discriminate]. apply evaluate_app in Ev. destruct Ev as (e & -> & _).
    destruct (Z.ltb 0 (patience c) && _); [injection E as <- _ _ _ _ _; now exists [e]|].
    apply IH in E. destruct E as (rest & ->). exists (e :: rest). now rewrite <- app_assoc.
Qed.

Variables (sobol : nat -> list R) (init : list R).
Let n0 := design_size (n_init_arg c) (Z.of_nat (length tf)) (max_iter c).
Let us := to_unit tf init :: map sobol (seq 1 (Z.to_nat n0 - 1)).
(** an unstopped run is the design followed by the search *)
Lemma run_shape info cbs : bayesian_optimize c tf objective noise_function fixed_noise early_stop G fit acquire pm sobol init = Ok (info, cbs) ->
  i_stopped info = false ->
  exists evs cbs0 polls rest, des us [] [] 0 = Some (evs, cbs0, polls, false) /\ i_evs info = evs ++ rest /\ i_n info = length (i_evs info) /\
    ((forall l, fit l = None) -> rest = []).
Proof.
  unfold bayesian_optimize. fold n0 us. fold des. destruct (des us [] [] 0) as [[[[evs cbs0] polls] [|]]|] eqn:ED; [| |discriminate].
  - destruct (Nat.eqb _ _); [discriminate|]. destruct (recommend _ _ _ _). intros E. injection E as <- _. discriminate.
  - destruct (search _ _ _ _ _ _ _ _ _ _ _ _ _ _ _ _ _) as [[[[[[evs' cbs'] polls'] st] why] g]|] eqn:ES; [|discriminate].
    pose proof (search_app _ _ _ _ _ _ _ _ _ _ _ _ _ _ ES) as (rest & Hr). destruct (recommend _ _ _ _). intros E _. injection E as <- _. cbn [i_evs i_n].
    exists evs, cbs0, polls, rest. rewrite Hr. repeat split. intros F. revert ES. destruct (Z.to_nat (max_iter c - _)) as [|left]; cbn [search]; intros ES.
    + injection ES as <- _ _ _ _ _. apply (f_equal (@length _)) in Hr. rewrite app_length in Hr. destruct rest; [reflexivity|simpl in Hr; lia].
    + rewrite F in ES. destruct (early_stop polls); injection ES as <- _ _ _ _ _; apply (f_equal (@length _)) in Hr; rewrite app_length in Hr; (destruct rest; [reflexivity|simpl in Hr; lia]).
Qed.
End G.
End D.

(** C203: an unstopped run begins at the given hyperparameters and then at the points of the space-filling sequence, as many as the
    documentation says; every surrogate gets the same first evaluations; one that cannot be fitted gets no others. *)
Theorem bo_design : forall c tf objective noise_function fixed_noise early_stop G fit acquire pm sobol init info cbs,
  1 <= length tf -> (2 <= max_iter c)%Z ->
  bayesian_optimize c tf objective noise_function fixed_noise early_stop G fit acquire pm sobol init = Ok (info, cbs) -> i_stopped info = false ->
  let n := Z.to_nat (space_filling (n_init_arg c) (Z.of_nat (length tf)) (max_iter c)) in
  n <= i_n info /\
  map ev_u (firstn n (i_evs info)) = to_unit tf init :: map sobol (seq 1 (n - 1)) /\
  ((forall l, fit l = None) -> i_n info = n) /\
  forall G' fit' acquire' pm' info' cbs',
    bayesian_optimize c tf objective noise_function fixed_noise early_stop G' fit' acquire' pm' sobol init = Ok (info', cbs') -> i_stopped info' = false ->
    firstn n (i_evs info') = firstn n (i_evs info).
Proof.
  intros c tf objective nf fn es G fit acquire pm sobol init info cbs D B E NS n.
  destruct (run_shape _ _ _ _ _ _ _ _ _ _ _ _ _ _ E NS) as (evs & cbs0 & polls & rest & ED & Hi & Hn & Hf).
  pose proof (design_us _ _ _ _ _ _ _ _ _ _ _ _ ED) as HU. cbn [map app] in HU.
  rewrite design_sizeE in HU by lia. fold n in HU.
  assert (N2 : 2 <= n).
  { unfold n. rewrite <- design_sizeE by lia. unfold design_size. lia. }
  assert (L : length evs = n).
  { apply (f_equal (@length _)) in HU. rewrite map_length in HU. cbn [length] in HU. rewrite map_length, seq_length in HU. lia. }
  assert (F : firstn n (i_evs info) = evs) by (rewrite Hi, <- L, firstn_app, Nat.sub_diag, firstn_all, firstn_O; apply app_nil_r).
  split; [rewrite Hn, Hi, app_length; lia|]. split; [now rewrite F|]. split.
  - intros X. rewrite Hn, Hi, (Hf X), app_nil_r. exact L.
  - intros G' fit' acquire' pm' info' cbs' E' NS'.
    destruct (run_shape _ _ _ _ _ _ _ _ _ _ _ _ _ _ E' NS') as (evs' & cbs0' & polls' & rest' & ED' & Hi' & _). rewrite ED in ED'. injection ED' as <- _ _.
    rewrite F, Hi', <- L, firstn_app, Nat.sub_diag, firstn_all, firstn_O. apply app_nil_r.
Qed.
Print Assumptions bo_design.
(** one hyperparameter: 5 points; two: 6; seven: 16; a budget of 10 cuts that to 10; a request for 1 becomes 2, one for 50 the budget *)
Example bo_design_numbers : space_filling None 1 100 = 5%Z /\ space_filling None 2 100 = 6%Z /\ space_filling None 7 100 = 16%Z /\
  space_filling None 7 10 = 10%Z /\ space_filling (Some 1%Z) 7 100 = 2%Z /\ space_filling (Some 50%Z) 2 40 = 40%Z.
Proof. repeat split. Qed.
(** a run in one dimension whose surrogate cannot be fitted: five evaluations of a budget of 50 *)
Example bo_design_ex : exists info cbs,
  bayesian_optimize (BoCfg 50 None 10 (/ 1000) (/ 1000) 0 1) (make_tf [(0, 1)%R] (fun _ => None)) (fun _ x => Some (Fin (hd 0%R x))) None None (fun _ => false)
    unit (fun _ => None) (fun _ _ => None) (fun _ _ => None) (fun i => [/ INR (i + 1)]%R) [/ 3]%R = Ok (info, cbs) /\ i_stopped info = false /\ i_n info = 5.
Proof.
  unfold bayesian_optimize. change (Z.to_nat (design_size _ _ _)) with 5. cbn [seq map Nat.sub].
  match goal with |- context[design ?a ?b ?c ?d ?e ?us [] [] 0] => destruct (design a b c d e us [] [] 0) as [[[[evs cbs] polls] st]|] eqn:ED; [|discriminate ED] end.
  assert (L : length evs = 5 /\ st = false) by (injection ED as <- _ _ <-; auto). destruct L as (L & ->). clear ED. cbv iota. rewrite L. change (Z.to_nat (max_iter _ - Z.of_nat 5)) with 45.
  cbn [search]. destruct (recommend _ _ _ _) as [b nv]. do 2 eexists. repeat split. exact L.
Qed.

(** ** C205: the first evaluation is the starting point itself, so the answer is no worse than it *)
Local Open Scope R_scope.
Lemma nth_error_ext_len {A} : forall (l m : list A), length l = length m -> (forall j v, nth_error l j = Some v -> nth_error m j = Some v) -> l = m.
Proof.
  induction l as [|a l IH]; intros [|b m] L H; try discriminate L; [reflexivity|]. pose proof (H 0%nat a eq_refl) as H0. injection H0 as ->. f_equal. apply IH; [now injection L|]. intros j v Hj. exact (H (S j) v Hj).
Qed.
Lemma round_trip_vec bounds ls init : length init = length bounds -> in_box bounds init ->
  (forall j lo hi, nth_error bounds j = Some (lo, hi) -> 0 < lo -> / 10 ^ 300 <= lo) ->
  from_unit (make_tf bounds ls) (to_unit (make_tf bounds ls) init) = init.
Proof.
  intros L B T. assert (LT : length (make_tf bounds ls) = length bounds) by (unfold make_tf; rewrite map_length, combine_length, seq_length; apply Nat.min_id).
  assert (LU : length (to_unit (make_tf bounds ls) init) = length bounds) by (unfold to_unit; rewrite map_length, combine_length; lia).
  apply nth_error_ext_len.
  - unfold from_unit. rewrite map_length, combine_length. lia.
  - intros j v Hv. destruct (from_unit_nth _ _ _ _ Hv) as (d & w & Hd & Hw & ->).
    assert (Hw' : exists v0, nth_error init j = Some v0 /\ w = to_unit1 d v0).
    { unfold to_unit in Hw. rewrite nth_error_map in Hw. clear -Hw Hd. revert Hw Hd. generalize (make_tf bounds ls). intros tf. revert tf init.
      induction j as [|j IH]; intros [|d0 tf] [|a init]; cbn; try discriminate; [intros [= <-] [= ->]; eauto|intros; eapply IH; eauto]. }
    destruct Hw' as (v0 & Hi & ->). rewrite Hi. f_equal. destruct (B _ _ Hi) as (lo & hi & Hb & R0). rewrite make_tf_nth, Hb in Hd. injection Hd as <-. cbn [fst snd].
    symmetry. destruct (transform_round_trip lo hi (ls j) (T _ _ _ Hb)) as (P & _). exact (proj2 (P v0 R0)).
Qed.

Theorem bo_never_worse : forall bounds ls c objective noise_function fixed_noise early_stop G fit acquire pm sobol init info cbs,
  (forall (g : G) us m, pm g us = Some m -> length m = length us) ->
  length init = length bounds -> in_box bounds init -> (forall j lo hi, nth_error bounds j = Some (lo, hi) -> 0 < lo -> / 10 ^ 300 <= lo) ->
  bayesian_optimize c (make_tf bounds ls) objective noise_function fixed_noise early_stop G fit acquire pm sobol init = Ok (info, cbs) ->
  exists v, objective 0%nat init = Some v /\ nth_error (map ev_theta (i_evs info)) 0 = Some init /\
    i_f info <= finite_value v + 3 * sqrt (i_noise info) /\
    ((forall k x, noise_for noise_function fixed_noise k x = None) -> i_f info <= finite_value v).
Proof.
  intros bounds ls c objective nf fn es G fit acquire pm sobol init info cbs Hm L B T E.
  destruct (run_spec c (make_tf bounds ls) objective nf fn es G fit acquire pm sobol init info cbs E) as ((_ & H & _) & _ & _ & _ & _ & _ & _ & H0 & _).
  destruct (bo_recommendation c (make_tf bounds ls) objective nf fn es G fit acquire pm sobol init info cbs Hm E) as (_ & HB & HC & _).
  rewrite nth_error_map in H0. destruct (nth_error (i_evs info) 0) as [e|] eqn:E0; [|discriminate]. injection H0 as H0.
  destruct (H 0%nat e E0) as (HT & (v & Ev & Ey) & _). rewrite H0, round_trip_vec in HT by assumption.
  assert (In e (i_evs info)) by (eapply nth_error_In; eassumption).
  change (BOP.value_of v) with (finite_value v) in Ey. exists v. rewrite <- Ey. split; [congruence|]. split; [rewrite nth_error_map, E0; cbn; congruence|]. split; [auto|].
  intros N. apply HB; [|assumption]. apply Forall_forall. intros e' He'. apply In_nth_error in He' as [i Hi].
  destruct (H i e' Hi) as (_ & _ & ->). apply N.
Qed.
Print Assumptions bo_never_worse.
(** the run of [bo_design_ex], which starts at 1/3, answers with 1/3 or less *)
Example bo_never_worse_ex : exists info cbs,
  bayesian_optimize (BoCfg 50 None 10 (/ 1000) (/ 1000) 0 1) (make_tf [(0, 1)] (fun _ => None)) (fun _ x => Some (Fin (hd 0 x))) None None (fun _ => false)
    unit (fun _ => None) (fun _ _ => None) (fun _ _ => None) (fun i => [/ INR (i + 1)]) [/ 3] = Ok (info, cbs) /\ i_f info <= / 3.
Proof.
  destruct bo_design_ex as (info & cbs & E & _). exists info, cbs. split; [exact E|].
  refine ((fun X => _) (fun A B C D => bo_never_worse _ _ _ _ _ _ _ _ _ _ _ _ _ _ _ A B C D E)). destruct X as (v & Ev & _ & _ & H).
  - intros g us m H. discriminate H.
  - reflexivity.
  - intros [|[|j]] v H; try discriminate H. injection H as <-. exists 0, 1. split; [reflexivity|lra].
  - intros [|[|j]] lo hi H P; try discriminate H. injection H as <- <-. lra.
  - injection Ev as <-. cbn in H. now apply H.
Qed.

(** the same for an exact objective that does not depend on the number of the call: the answer lies in the box, its value is the
    reported one and nothing that was evaluated, the start included, is better *)
Lemma bo_answer bounds ls c (obj : list R -> option R) noise_function fixed_noise early_stop G fit acquire pm sobol init info cbs :
  (forall (g : G) us m, pm g us = Some m -> length m = length us) ->
  length init = length bounds -> in_box bounds init -> (forall j lo hi, nth_error bounds j = Some (lo, hi) -> lo < hi /\ (0 < lo -> / 10 ^ 300 <= lo)) ->
  (forall k x, noise_for noise_function fixed_noise k x = None) ->
  bayesian_optimize c (make_tf bounds ls) (fun _ x => option_map Fin (obj x)) noise_function fixed_noise early_stop G fit acquire pm sobol init = Ok (info, cbs) ->
  in_box bounds (i_x info) /\ obj (i_x info) = Some (i_f info) /\ (exists v, obj init = Some v /\ i_f info <= v) /\
  forall e, In e (i_evs info) -> exists v, obj (ev_theta e) = Some v /\ i_f info <= v.
Proof.
  intros Hm L B T N E. assert (T1 : forall j lo hi, nth_error bounds j = Some (lo, hi) -> lo < hi) by (intros; eapply T; eassumption).
  assert (T2 : forall j lo hi, nth_error bounds j = Some (lo, hi) -> 0 < lo -> / 10 ^ 300 <= lo) by (intros; eapply T; eassumption).
  destruct (bo_in_box_partial _ _ _ _ _ _ _ _ _ _ _ _ _ _ _ Hm T1 E) as (_ & IB & _). split; [exact IB|].
  destruct (run_spec c _ _ _ _ _ _ _ _ _ _ _ info cbs E) as ((_ & H & _) & _).
  destruct (bo_recommendation c _ _ _ _ _ _ _ _ _ _ _ info cbs Hm E) as ((e0 & I0 & X0 & F0) & HB & _).
  assert (V : forall e, In e (i_evs info) -> obj (ev_theta e) = Some (ev_y e)).
  { intros e He. apply In_nth_error in He as [i Hi]. destruct (H i e Hi) as (_ & (v & Ev & Ey) & _). destruct (obj (ev_theta e)) as [r|]; [|discriminate Ev]. injection Ev as <-. now rewrite Ey. }
  assert (FA : Forall (fun e => ev_v e = None) (i_evs info)).
  { apply Forall_forall. intros e' He'. apply In_nth_error in He' as [i Hi]. destruct (H i e' Hi) as (_ & _ & ->). apply N. }
  split; [rewrite X0, F0; now apply V|]. split.
  - destruct (bo_never_worse _ _ _ _ _ _ _ _ _ _ _ _ _ _ _ Hm L B T2 E) as (v & Ev & _ & _ & Hv). destruct (obj init) as [r|]; [|discriminate Ev]. injection Ev as <-. exists r. split; [reflexivity|]. now apply Hv.
  - intros e He. exists (ev_y e). split; [now apply V|]. now apply HB.
Qed.
