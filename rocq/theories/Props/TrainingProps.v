(** Properties C26-C29, C67: training. *)
From Coq Require Import Lra.
From Verif Require Import Model.Prelude Model.Ext Model.MCMC Model.Adam Model.Training Proofs.MCMCP Props.MCMCProps.
Local Open Scope R_scope.

(** no component is below its lower or above its upper bound *)
Definition not_outside (x : vec) (b : box) : Prop :=
  length x = length b /\
  forall i v lo hi, nth_error x i = Some v -> nth_error b i = Some (lo, hi) -> eltb v lo = false /\ eltb hi v = false.
Definition inside (x : vec) (b : box) : Prop :=
  length x = length b /\
  forall i v lo hi, nth_error x i = Some v -> nth_error b i = Some (lo, hi) -> eleb lo v = true /\ eleb v hi = true.

Lemma existsb_or {A} f g (l : list A) : existsb f l || existsb g l = existsb (fun a => f a || g a) l.
Proof. induction l as [|a l IH]; cbn; [reflexivity|]. rewrite <- IH. destruct (f a), (g a), (existsb f l), (existsb g l); reflexivity. Qed.

Lemma in_bounds_spec : forall x b, in_bounds x b = Some true <-> not_outside x b.
Proof.
  intros x b. unfold in_bounds, not_outside. destruct (Nat.eqb_spec (length x) (length b)) as [L|L].
  2:{ split; [discriminate|]. intros [H _]. contradiction. }
  rewrite existsb_or. revert b L. induction x as [|v x IH]; intros [|[lo hi] b] L; try discriminate L.
  - split; [|reflexivity]. intros _. split; [reflexivity|]. intros [|i] ? ? ? H; discriminate H.
  - injection L as L. cbn [combine existsb fst snd]. specialize (IH b L). destruct (eltb v lo || eltb hi v) eqn:E; cbn [orb].
    + split; [discriminate|]. intros [_ H]. destruct (H 0%nat v lo hi eq_refl eq_refl) as [A B]. rewrite A, B in E. discriminate E.
    + apply orb_false_iff in E. rewrite IH. split; intros [_ H]; (split; [cbn; congruence|]).
      * intros [|i] v' lo' hi' H1 H2; cbn in H1, H2; [injection H1 as <-; injection H2 as <- <-; exact E|exact (H i v' lo' hi' H1 H2)].
      * intros i v' lo' hi' H1 H2. exact (H (Datatypes.S i) v' lo' hi' H1 H2).
Qed.

Lemma out_of_bounds_spec : forall x b, length x = length b -> out_of_bounds x b = Some false <-> not_outside x b.
Proof.
  intros x b L. revert b L. induction x as [|v x IH]; intros [|[lo hi] b] L; try discriminate L.
  - split; [|reflexivity]. intros _. split; [reflexivity|]. intros [|i] ? ? ? H; discriminate H.
  - injection L as L. cbn [out_of_bounds]. specialize (IH b L). destruct (eltb v lo || eltb hi v) eqn:E.
    + split; [discriminate|]. intros [_ H]. destruct (H 0%nat v lo hi eq_refl eq_refl) as [A B]. rewrite A, B in E. discriminate E.
    + apply orb_false_iff in E. rewrite IH. split; intros [_ H]; (split; [cbn; congruence|]).
      * intros [|i] v' lo' hi' H1 H2; cbn in H1, H2; [injection H1 as <-; injection H2 as <- <-; exact E|exact (H i v' lo' hi' H1 H2)].
      * intros i v' lo' hi' H1 H2. exact (H (Datatypes.S i) v' lo' hi' H1 H2).
Qed.

Lemma uniform_spec : forall b us x, uniform b us = Some x -> length x = length b /\
  forall i v, nth_error x i = Some v -> exists lo hi, nth_error b i = Some (Fin lo, Fin hi) /\ v = Fin (lo + us i * (hi - lo)).
Proof.
  induction b as [|[lo hi] b IH]; intros us x H; cbn [uniform] in H.
  - injection H as <-. split; [reflexivity|]. intros [|i] v Hv; discriminate Hv.
  - destruct lo as [| | |lo]; try discriminate H. destruct hi as [| | |hi]; try discriminate H.
    destruct (uniform b _) as [y|] eqn:E; [|discriminate]. injection H as <-. destruct (IH _ _ E) as [L K]. split; [cbn; congruence|].
    intros [|i] v Hv; [injection Hv as <-; exists lo, hi; auto|]. exact (K i v Hv).
Qed.

(** C26: the point handed to the optimizer of a synchronous run violates no bound; of an asynchronous run neither,
    provided it has one component per bound and the random numbers and bounds are in order; and the
    caller's (or the current) vector is used whenever it can be *)
Theorem start_in_bounds : forall init current b us,
  let wish := match init with Some v => v | None => current end in
  (forall x, start_point init current b us = Ok x -> not_outside x b) /\
  (forall x, choose_init init current b us = Ok x -> length wish = length b ->
     (forall i, 0 <= us i <= 1) -> (forall i lo hi, nth_error b i = Some (Fin lo, Fin hi) -> lo <= hi) -> not_outside x b) /\
  (not_outside wish b -> start_point init current b us = Ok wish).
Proof.
  intros init current b us wish. split; [|split].
  - intros x. unfold start_point. destruct (choose_init _ _ _ _) as [y|]; [|discriminate]. destruct (in_bounds y b) as [[|]|] eqn:E; try discriminate.
    intros [= <-]. now apply in_bounds_spec.
  - intros x H L Hu Hb. unfold choose_init in H. fold wish in H. destruct (out_of_bounds wish b) as [[|]|] eqn:E; try discriminate H.
    + destruct (uniform b us) as [y|] eqn:EU; [|discriminate]. injection H as <-. destruct (uniform_spec _ _ _ EU) as [L' K]. split; [exact L'|].
      intros i v lo hi Hv Hi. destruct (K i v Hv) as (lo' & hi' & Hi' & ->). rewrite Hi in Hi'. injection Hi' as -> ->.
      specialize (Hu i). specialize (Hb i lo' hi' Hi). cbn. assert (0 <= us i * (hi' - lo') <= 1 * (hi' - lo')) by (split; [apply Rmult_le_pos|apply Rmult_le_compat_r]; lra).
      destruct (Rlt_dec _ _); [exfalso; lra|]. destruct (Rlt_dec _ _); [exfalso; lra|]. auto.
    + injection H as <-. now apply out_of_bounds_spec.
  - intros H. unfold start_point, choose_init. fold wish. rewrite (proj2 (out_of_bounds_spec wish b (proj1 H)) H).
    now rewrite (proj2 (in_bounds_spec wish b) H).
Qed.
Print Assumptions start_in_bounds.
Ltac sq := unfold start_point, choose_init, in_bounds; cbn; rdec; cbn; rdec; cbn; reflexivity.
Example start_ex : start_point (Some [Fin 5]) [Fin 1] [(Fin 0, Fin 2)] (fun _ => / 2) = Ok [Fin (0 + / 2 * (2 - 0))].
Proof.
  unfold start_point, choose_init. cbn. rdec; cbn; unfold in_bounds; cbn; rdec; cbn; reflexivity.
Qed.
Example start_ex2 : start_point None [Fin 2] [(Fin 0, Fin 2)] (fun _ => / 2) = Ok [Fin 2].
Proof. sq. Qed.

(** C27 fails: Adam ignores the bounds. Default settings, gradient 1, start on the lower bound. *)
Definition adam_default := Cfg (1 / 100) (9 / 10) (999 / 1000) (1 / 100000000) (1 / 1000000).
Theorem results_in_bounds_refuted :
  start_point None [Fin 0] [(Fin 0, Fin 1)] (fun _ => 0) = Ok [Fin 0] /\
  in_bounds (map Fin (fst (adam adam_default (fun x => nth 0 x 0) (fun _ => [1]) (fun _ => false) [0] 1))) [(Fin 0, Fin 1)] = Some false.
Proof.
  split; [sq|].
  replace (fst (adam adam_default (fun x => nth 0 x 0) (fun _ => [1]) (fun _ => false) [0] 1))
    with (sub [0] (step adam_default (moment1 adam_default [0] [1]) (moment2 adam_default [0] [1]) 1)).
  2:{ unfold adam. cbn [adam_loop repeat length]. destruct (if Rlt_dec _ _ then true else false); reflexivity. }
  unfold adam_default. cbn. replace ((999 / 1000 * 0 + (1 - 999 / 1000) * (1 * 1)) / (1 - 999 / 1000 * 1)) with (1 * 1) by field.
  rewrite sqrt_square by lra. replace ((9 / 10 * 0 + (1 - 9 / 10) * 1) / (1 - 9 / 10 * 1)) with 1 by field.
  assert (H : 0 < 1 / 100 * 1 / (1 + 1 / 100000000)) by (apply Rdiv_lt_0_compat; lra).
  unfold in_bounds. cbn. rdec. reflexivity.
Qed.
Print Assumptions results_in_bounds_refuted.

(** ** medians stay between the smallest and the largest value *)
Lemma rinsert_In a l x : In x (rinsert a l) -> x = a \/ In x l.
Proof. induction l as [|b l IH]; cbn; [intros [<-|[]]; auto|]. destruct (Rle_dec a b); cbn; [intros [<-|H]; auto|]. intros [<-|H]; auto. destruct (IH H); auto. Qed.
Lemma rsort_In l x : In x (rsort l) -> In x l.
Proof. induction l as [|a l IH]; cbn; [auto|]. intros H. apply rinsert_In in H as [->|H]; auto. Qed.
Lemma rsort_length l : length (rsort l) = length l.
Proof.
  assert (K : forall a s, length (rinsert a s) = Datatypes.S (length s)).
  { intros a s. induction s as [|b s IH]; cbn; [reflexivity|]. destruct (Rle_dec a b); cbn; [reflexivity|]. now rewrite IH. }
  induction l as [|a l IH]; cbn; [reflexivity|]. rewrite K. unfold rsort in IH. now rewrite IH.
Qed.
Lemma median_bounds lo hi l : l <> [] -> Forall (fun x => lo <= x <= hi) l -> lo <= median l <= hi.
Proof.
  intros Hne H. rewrite Forall_forall in H. assert (0 < length l)%nat by (destruct l; [congruence|cbn; lia]).
  assert (K : forall i, (i < length l)%nat -> lo <= nth i (rsort l) 0 <= hi).
  { intros i Hi. apply H, rsort_In, nth_In. now rewrite rsort_length. }
  unfold median. pose proof (Nat.div_lt (length l) 2 ltac:(lia) ltac:(lia)). pose proof (K (length l / 2)%nat ltac:(lia)).
  destruct (Nat.odd _); [assumption|]. pose proof (K (length l / 2 - 1)%nat ltac:(lia)). lra.
Qed.

(** ... true for the methods that keep to the box: an MCMC run started inside returns a vector inside *)
Theorem mcmc_result_in_bounds_partial : forall S Omega lik b propose adapt x0 n rnd brk os t f,
  not_outside x0 b ->
  run_mcmc S Omega lik (training_prior b) propose adapt x0 n rnd brk os = Ok (t, Some f) ->
  (forall x v, In x (i_window f) -> In v x -> exists r, v = Fin r) ->
  (forall i lo hi, nth_error b i = Some (lo, hi) -> exists l h, lo = Fin l /\ hi = Fin h) ->
  inside (mcmc_result (length b) (i_window f)) b.
Proof.
  intros S Omega lik b propose adapt x0 n rnd brk os t f H0 E Hf Hb.
  assert (Hp0 : training_prior b x0 <> NInf) by (unfold training_prior; rewrite (proj2 (in_bounds_spec x0 b) H0); discriminate).
  pose proof (mcmc_trace _ _ _ _ _ _ _ _ _ _ _ _ _ E) as (_ & _ & _ & _ & _ & _ & G). specialize (G Hp0). rewrite Forall_forall in G.
  destruct (mcmc_info_complete_partial _ _ _ _ _ _ _ _ _ _ _ _ _ E) as [_ HI]. destruct (HI f eq_refl) as (_ & I1 & I2 & pre & I3 & _ & Hne).
  assert (Hin : forall x, In x (i_window f) -> not_outside x b).
  { intros x Hx. assert (In x (t_x t)).
    { assert (In x (i_x f)) by (rewrite I3; apply in_or_app; auto). destruct (brk t); [destruct (I2 eq_refl) as [y ->]; apply in_or_app; auto|]. now rewrite <- (I1 eq_refl). }
    specialize (G x H). unfold training_prior in G. destruct (in_bounds x b) as [[|]|] eqn:EB; try (now elim G). now apply in_bounds_spec. }
  split; [unfold mcmc_result; now rewrite map_length, seq_length|].
  intros i v lo hi Hv Hi. unfold mcmc_result in Hv. rewrite nth_error_map in Hv. destruct (nth_error (seq 0 (length b)) i) as [j|] eqn:Ej; [|discriminate]. injection Hv as <-.
  assert (Hib : (i < length b)%nat) by (apply nth_error_Some; congruence).
  assert (j = i). { pose proof (nth_error_nth _ _ 0%nat Ej) as Z. rewrite seq_nth in Z by exact Hib. cbn in Z. congruence. } subst j.
  destruct (Hb i lo hi Hi) as (l & h & -> & ->).
  assert (M : l <= median (map (fun x => to_r (nth i x NaN)) (i_window f)) <= h).
  { apply median_bounds; [destruct (i_window f); [congruence|discriminate]|]. apply Forall_map, Forall_forall. intros x Hx. destruct (Hin x Hx) as [Lx Kx].
    destruct (nth_error x i) as [v|] eqn:Ev; [|apply nth_error_None in Ev; lia]. rewrite (nth_error_nth _ _ _ Ev).
    destruct (Hf x v Hx (nth_error_In _ _ Ev)) as [r ->]. destruct (Kx i _ _ _ Ev Hi) as [A B]. cbn in A, B |- *.
    destruct (Rlt_dec r l); [discriminate|]. destruct (Rlt_dec h r); [discriminate|]. lra. }
  cbn. rdec. auto.
Qed.
Print Assumptions mcmc_result_in_bounds_partial.
Example mcmc_result_ex : mcmc_result 1 [[Fin 3]; [Fin 1]; [Fin 2]] = [Fin 2].
Proof. unfold mcmc_result, median. cbn. do 2 f_equal. rdec; cbn; try reflexivity; repeat (rdec; cbn); reflexivity. Qed.

(** ** Guarded training *)
Section G.
Variables (Pr No Kv : Type) (prior_of : vec -> option Pr) (noise_of : vec -> option No) (kv_of : Pr -> No -> option Kv).
Variables (loglik : gp Pr No Kv -> ext) (variance : gp Pr No Kv -> option R).

(** the derived state belongs to the hyperparameters *)
Definition coherent (s : gp Pr No Kv) : Prop :=
  prior_of (g_hps s) = Some (g_prior s) /\ noise_of (g_hps s) = Some (g_noise s) /\ kv_of (g_prior s) (g_noise s) = Some (g_kv s).
Definition dominates (new old : ext) (tolerance : R) : Prop :=
  match new, old with
  | Fin a, Fin b => b - tolerance <= a
  | PInf, PInf | PInf, Fin _ | PInf, NInf | Fin _, NInf | NInf, NInf => True
  | _, _ => False
  end.

Lemma set_hps_ok s h s' : set_hps _ _ _ prior_of noise_of kv_of s h = (s', true) -> g_hps s' = h /\ coherent s'.
Proof.
  unfold set_hps, coherent. destruct (prior_of h) as [p|] eqn:E1; [|discriminate]. destruct (noise_of h) as [v|] eqn:E2; [|discriminate].
  destruct (kv_of p v) as [k|] eqn:E3; [|discriminate]. intros [= <-]. cbn. auto.
Qed.
Lemma coherent_unique s1 s2 : g_hps s1 = g_hps s2 -> coherent s1 -> coherent s2 -> s1 = s2.
Proof.
  destruct s1 as [h1 p1 n1 k1], s2 as [h2 p2 n2 k2]. unfold coherent. cbn. intros -> (A & B & C) (A' & B' & C'). rewrite A in A'. injection A' as <-.
  rewrite B in B'. injection B' as <-. rewrite C in C'. injection C' as <-. reflexivity.
Qed.
Lemma dominates_eleb n o t : eleb (esub o (Fin t)) n = true <-> dominates n o t.
Proof.
  destruct n, o; cbn; try (split; auto; discriminate). replace (r0 + - t) with (r0 - t) by ring. destruct (Rle_dec _ _); split; auto; try discriminate; contradiction.
Qed.

(** C28: a guarded run either installs the optimizer's result, whose likelihood is not worse, or leaves the GP
    exactly as it was *)
Theorem guarded_training_g s result s' h : coherent s ->
  train_sync _ _ _ prior_of noise_of kv_of loglik variance true s result = (s', Some h) ->
  coherent s' /\ g_hps s' = h /\
  ((result = Some h /\ dominates (loglik s') (loglik s) (match variance s' with None => 0 | Some v => 3 * sqrt (2 * v) end)) \/ s' = s).
Proof.
  intros HC. unfold train_sync. destruct result as [r|]; [|discriminate]. destruct (set_hps _ _ _ _ _ _ s r) as [s1 [|]] eqn:E1; [|discriminate].
  destruct (set_hps_ok _ _ _ E1) as [H1 C1]. unfold reject_if_not_improved. destruct (eleb _ _) eqn:EL.
  - intros [= <- <-]. split; [exact C1|]. split; [exact H1|]. left. split; [reflexivity|]. now apply dominates_eleb in EL.
  - destruct (set_hps _ _ _ _ _ _ s1 (g_hps s)) as [s2 [|]] eqn:E2; [|discriminate]. intros [= <- <-].
    destruct (set_hps_ok _ _ _ E2) as [H2 C2]. split; [exact C2|]. split; [exact H2|]. right. now apply coherent_unique.
Qed.

(** the guard rejects only results that are worse, and a rejection cannot fail *)
Theorem guarded_training_complete_g s r : coherent s ->
  forall s1, set_hps _ _ _ prior_of noise_of kv_of s r = (s1, true) ->
  train_sync _ _ _ prior_of noise_of kv_of loglik variance true s (Some r) =
    (if eleb (esub (loglik s) (Fin (match variance s1 with None => 0 | Some v => 3 * sqrt (2 * v) end))) (loglik s1) then (s1, Some r) else (s, Some (g_hps s))).
Proof.
  intros HC s1 E. unfold train_sync. rewrite E. unfold reject_if_not_improved, tolerance. destruct (eleb _ _); [reflexivity|].
  assert (E2 : set_hps _ _ _ prior_of noise_of kv_of s1 (g_hps s) = (s, true)).
  { unfold set_hps. destruct HC as (A & B & C). rewrite A, B, C. now destruct s. }
  now rewrite E2.
Qed.

(** C29 *)
Theorem poll_safe_g s l s' ret : coherent s ->
  update_hyperparameters _ _ _ prior_of noise_of kv_of s l = (s', ret) ->
  match ret with
  | Some h => coherent s' /\ g_hps s' = h /\
      (h = g_hps s /\ s' = s \/
       match l with LList (Some (Vec1 v) :: _) => h = v | LDict (Some (Vec1 v)) _ _ => h = v | LDict None (Some (Vec1 v)) _ => h = v | _ => False end)
  | None => s' = s \/ exists h, pull (g_hps s) l = Ok h /\ snd (set_hps _ _ _ prior_of noise_of kv_of s h) = false
  end.
Proof.
  intros HC. unfold update_hyperparameters. destruct (pull (g_hps s) l) as [h|e] eqn:EP.
  2:{ intros [= <- <-]. auto. }
  destruct (set_hps _ _ _ _ _ _ s h) as [s1 [|]] eqn:E1; intros [= <- <-].
  - destruct (set_hps_ok _ _ _ E1) as [H1 C1]. split; [exact C1|]. split; [exact H1|].
    assert (Z : h = g_hps s -> h = g_hps s /\ s1 = s) by (intros; split; [assumption|]; apply coherent_unique; auto; congruence).
    unfold pull in EP. destruct l as [|[|[[v|]|] l]|[[v|]|] [[v'|]|] [|n]| |[|n]]; try discriminate EP; injection EP as EP; auto; left; apply Z; congruence.
  - right. exists h. split; [reflexivity|]. now rewrite E1.
Qed.

(** an empty or failing reply leaves the whole GP unchanged *)
Theorem poll_empty_g s : coherent s -> forall l, l = LRaises \/ l = LList [] \/ (exists m x, l = LDict m x 0) \/ l = LOther 0 ->
  update_hyperparameters _ _ _ prior_of noise_of kv_of s l = (s, Some (g_hps s)).
Proof.
  intros HC l Hl. assert (E : pull (g_hps s) l = Ok (g_hps s)).
  { destruct Hl as [->|[->|[(m & x & ->)| ->]]]; try reflexivity. destruct m as [[]|], x as [[]|]; reflexivity. }
  unfold update_hyperparameters. rewrite E. unfold set_hps. destruct HC as (A & B & C). rewrite A, B, C. now destruct s.
Qed.
End G.
Theorem guarded_training : forall Pr No Kv prior_of noise_of kv_of loglik variance (s : gp Pr No Kv) result s' h, coherent _ _ _ prior_of noise_of kv_of s ->
  train_sync _ _ _ prior_of noise_of kv_of loglik variance true s result = (s', Some h) ->
  coherent _ _ _ prior_of noise_of kv_of s' /\ g_hps s' = h /\
  ((result = Some h /\ dominates (loglik s') (loglik s) (match variance s' with None => 0 | Some v => 3 * sqrt (2 * v) end)) \/ s' = s).
Proof. exact guarded_training_g. Qed.
Print Assumptions guarded_training.
Theorem guarded_training_complete : forall Pr No Kv prior_of noise_of kv_of loglik variance (s : gp Pr No Kv) r, coherent _ _ _ prior_of noise_of kv_of s ->
  forall s1, set_hps _ _ _ prior_of noise_of kv_of s r = (s1, true) ->
  train_sync _ _ _ prior_of noise_of kv_of loglik variance true s (Some r) =
    (if eleb (esub (loglik s) (Fin (match variance s1 with None => 0 | Some v => 3 * sqrt (2 * v) end))) (loglik s1) then (s1, Some r) else (s, Some (g_hps s))).
Proof. exact guarded_training_complete_g. Qed.
Print Assumptions guarded_training_complete.
Theorem poll_safe : forall Pr No Kv prior_of noise_of kv_of (s : gp Pr No Kv) l s' ret, coherent _ _ _ prior_of noise_of kv_of s ->
  update_hyperparameters _ _ _ prior_of noise_of kv_of s l = (s', ret) ->
  match ret with
  | Some h => coherent _ _ _ prior_of noise_of kv_of s' /\ g_hps s' = h /\
      (h = g_hps s /\ s' = s \/
       match l with LList (Some (Vec1 v) :: _) => h = v | LDict (Some (Vec1 v)) _ _ => h = v | LDict None (Some (Vec1 v)) _ => h = v | _ => False end)
  | None => s' = s \/ exists h, pull (g_hps s) l = Ok h /\ snd (set_hps _ _ _ prior_of noise_of kv_of s h) = false
  end.
Proof. exact poll_safe_g. Qed.
Print Assumptions poll_safe.
Theorem poll_empty : forall Pr No Kv prior_of noise_of kv_of (s : gp Pr No Kv), coherent _ _ _ prior_of noise_of kv_of s ->
  forall l, l = LRaises \/ l = LList [] \/ (exists m x, l = LDict m x 0) \/ l = LOther 0 ->
  update_hyperparameters _ _ _ prior_of noise_of kv_of s l = (s, Some (g_hps s)).
Proof. exact poll_empty_g. Qed.
Print Assumptions poll_empty.

(** a GP whose likelihood is minus the square of its only hyperparameter; a hyperparameter above 9 cannot be factorized *)
Definition ex_prior (h : vec) : option ext := match h with [a] => Some a | _ => None end.
Definition ex_noise (h : vec) : option unit := Some tt.
Definition ex_kv (p : ext) (_ : unit) : option ext := if eltb (Fin 9) p then None else Some p.
Definition ex_ll (s : gp ext unit ext) : ext := match g_kv s with Fin a => Fin (- (a * a)) | _ => NaN end.
Definition ex_gp (a : R) : gp ext unit ext := GP [Fin a] (Fin a) tt (Fin a).
Example guarded_ex1 : train_sync _ _ _ ex_prior ex_noise ex_kv ex_ll (fun _ => None) true (ex_gp 2) (Some [Fin 1]) = (ex_gp 1, Some [Fin 1]).
Proof. unfold train_sync, set_hps, ex_gp, ex_kv. cbn. rdec. unfold reject_if_not_improved. cbn. rdec. reflexivity. Qed.
Example guarded_ex2 : train_sync _ _ _ ex_prior ex_noise ex_kv ex_ll (fun _ => None) true (ex_gp 2) (Some [Fin 3]) = (ex_gp 2, Some [Fin 2]).
Proof. unfold train_sync, set_hps, ex_gp, ex_kv. cbn. rdec. unfold reject_if_not_improved, set_hps. cbn. rdec. reflexivity. Qed.
Example guarded_ex3 : train_sync _ _ _ ex_prior ex_noise ex_kv ex_ll (fun _ => None) true (ex_gp 2) (Some [NaN]) = (ex_gp 2, Some [Fin 2]).
Proof. unfold train_sync, set_hps, ex_gp, ex_kv. cbn. unfold reject_if_not_improved, set_hps. cbn. rdec. reflexivity. Qed.
Example poll_ex : update_hyperparameters _ _ _ ex_prior ex_noise ex_kv (ex_gp 2) (LDict (Some (Vec1 [Fin 5])) None 3) = (ex_gp 5, Some [Fin 5]).
Proof. unfold update_hyperparameters, set_hps, ex_gp, ex_kv. cbn. rdec. reflexivity. Qed.

(** C67 fails: a vector whose covariance cannot be factorized stays installed, next to the solver state of the old one *)
Theorem failed_set_atomic_refuted : exists s',
  coherent _ _ _ ex_prior ex_noise ex_kv (ex_gp 2) /\
  set_hps _ _ _ ex_prior ex_noise ex_kv (ex_gp 2) [Fin 10] = (s', false) /\ g_hps s' = [Fin 10] /\ g_kv s' = Fin 2 /\ ~ coherent _ _ _ ex_prior ex_noise ex_kv s'.
Proof.
  eexists. split; [unfold coherent, ex_kv, ex_gp; cbn; rdec; auto|]. split; [unfold set_hps, ex_kv, ex_gp; cbn; rdec; reflexivity|].
  split; [reflexivity|]. split; [reflexivity|]. unfold coherent, ex_kv. cbn. rdec. intros (_ & _ & H). discriminate H.
Qed.
Print Assumptions failed_set_atomic_refuted.
(** ... what does hold: a call that does not raise installs everything; after one that raised, a successful call
    with the old hyperparameters restores the GP exactly *)
Theorem failed_set_atomic_partial : forall Pr No Kv prior_of noise_of kv_of (s : gp Pr No Kv) h s' ok, coherent _ _ _ prior_of noise_of kv_of s ->
  set_hps _ _ _ prior_of noise_of kv_of s h = (s', ok) ->
  (ok = true -> g_hps s' = h /\ coherent _ _ _ prior_of noise_of kv_of s') /\
  set_hps _ _ _ prior_of noise_of kv_of s' (g_hps s) = (s, true).
Proof.
  intros Pr No Kv prior_of noise_of kv_of s h s' ok HC E. split.
  - intros ->. now apply set_hps_ok in E.
  - unfold set_hps. destruct HC as (A & B & C). rewrite A, B, C. now destruct s.
Qed.
Print Assumptions failed_set_atomic_partial.
