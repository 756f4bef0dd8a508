(** Training a GGMP: C134-C138. *)
From Coq Require Import Reals Lra Lia List Bool.
From Verif Require Import Model.Prelude Model.Ext Model.Training Model.GGMPPhases Props.TrainingProps.
Import ListNotations.
Local Open Scope R_scope.

Lemma eeqb_eq a b : eeqb a b = true -> a = b.
Proof.
  unfold eeqb. destruct a, b; cbn; try discriminate; try reflexivity. destruct (Rle_dec r r0), (Rle_dec r0 r); try discriminate. intros _. f_equal. lra.
Qed.
Lemma array_equal_eq : forall x y, array_equal x y = true -> x = y.
Proof.
  induction x as [|a x IH]; intros [|b y] H; try discriminate; [reflexivity|]. cbn in H. apply andb_true_iff in H. destruct H as [H1 H2].
  rewrite (eeqb_eq _ _ H1), (IH _ H2). reflexivity.
Qed.

Section P.
Variables (Pr No Kv : Type).
Variable prior_of : nat -> vec -> option Pr.
Variable noise_of : nat -> vec -> option No.
Variable kv_of : nat -> Pr -> No -> option Kv.
Variable loglik : nat -> gp Pr No Kv -> ext.
Variable variance : nat -> gp Pr No Kv -> option R.
Variable optimize : nat -> vec -> option vec.
Variable draws : nat -> nat -> R.
Variable submitted : nat -> bool.
Variables em_density em_samples : list (gp Pr No Kv) -> list R -> option (list R).
Notation gpT := (gp Pr No Kv).
Notation coh k := (coherent Pr No Kv (prior_of k) (noise_of k) (kv_of k)).
Notation safe := (safe_set Pr No Kv prior_of noise_of kv_of).
Notation gtrain := (gp_train Pr No Kv prior_of noise_of kv_of loglik variance optimize draws submitted).
Notation comp := (component Pr No Kv prior_of noise_of kv_of loglik variance optimize draws submitted).
Notation Train := (train Pr No Kv prior_of noise_of kv_of loglik variance optimize draws submitted em_density em_samples).
Notation gps := (gg_gps Pr No Kv).
Notation weights := (gg_weights Pr No Kv).
Notation stored_weights := (gg_stored_weights Pr No Kv).
Notation stored_hps := (gg_stored_hps Pr No Kv).
Notation bounds := (gg_bounds Pr No Kv).

Definition all_coherent (gs : list gpT) : Prop := forall k g, nth_error gs k = Some g -> coh k g.
(** the bounds and the starting vector of component k *)
Definition bounds_of (c : call) (s : ggmp Pr No Kv) (k : nat) : option box := nth_error (match t_bounds c with Some l => l | None => bounds s end) k.
Definition init_of (c : call) (k : nat) (g : gpT) : option vec := match t_init c with Some l => nth_error l k | None => Some (g_hps g) end.

Lemma safe_ok k g h g' : coh k g -> safe k g h = (g', true) -> g_hps g' = h /\ coh k g'.
Proof.
  intros HC. unfold safe_set. destruct (array_equal (g_hps g) h) eqn:E.
  - intros [= <-]. split; [now apply array_equal_eq | exact HC].
  - intro H. exact (set_hps_ok _ _ _ _ _ _ _ _ _ H).
Qed.
Lemma safe_same k g : coh k g -> safe k g (g_hps g) = (g, true).
Proof.
  intros HC. unfold safe_set. destruct (array_equal (g_hps g) (g_hps g)); [reflexivity|].
  unfold set_hps. destruct HC as (A & B & C). rewrite A, B, C. now destruct g.
Qed.

Lemma each_true f : forall gs k gs', each Pr No Kv f k gs = (gs', true) ->
  length gs' = length gs /\ forall i g, nth_error gs i = Some g -> exists g', nth_error gs' i = Some g' /\ f (k + i)%nat g = (g', true).
Proof.
  induction gs as [|a gs IH]; intros k gs'; cbn.
  - intros [= <-]. split; [reflexivity|]. intros [|i] g; discriminate.
  - destruct (f k a) as [a' [|]] eqn:E; [|discriminate]. destruct (each Pr No Kv f (S k) gs) as [r ok] eqn:E2. intros [= <- ->].
    destruct (IH _ _ E2) as [L H]. split; [cbn; now rewrite L|]. intros [|i] g; cbn.
    + intros [= <-]. exists a'. rewrite Nat.add_0_r. auto.
    + intro N. destruct (H i g N) as [g' [N' F]]. exists g'. split; [exact N'|]. now rewrite Nat.add_succ_r.
Qed.
Lemma each_false f : forall gs k gs', each Pr No Kv f k gs = (gs', false) ->
  length gs' = length gs /\ exists i g g', nth_error gs i = Some g /\ nth_error gs' i = Some g' /\ f (k + i)%nat g = (g', false) /\
    (forall j, (i < j)%nat -> nth_error gs' j = nth_error gs j) /\
    (forall j h, (j < i)%nat -> nth_error gs j = Some h -> exists h', nth_error gs' j = Some h' /\ f (k + j)%nat h = (h', true)).
Proof.
  induction gs as [|a gs IH]; intros k gs'; cbn; [discriminate|].
  destruct (f k a) as [a' [|]] eqn:E.
  - destruct (each Pr No Kv f (S k) gs) as [r ok] eqn:E2. intros [= <- ->]. destruct (IH _ _ E2) as [L (i & g & g' & N & N' & F & A & B)].
    split; [cbn; now rewrite L|]. exists (S i), g, g'. rewrite Nat.add_succ_r. split; [exact N|]. split; [exact N'|]. split; [exact F|]. split.
    + intros [|j] Hj; [lia|]. cbn. apply A. lia.
    + intros [|j] h Hj; cbn.
      * intros [= <-]. exists a'. rewrite Nat.add_0_r. auto.
      * intro Nj. destruct (B j h ltac:(lia) Nj) as [h' [X Y]]. exists h'. split; [exact X|]. now rewrite Nat.add_succ_r.
  - intros [= <-]. split; [reflexivity|]. exists 0%nat, a, a'. rewrite Nat.add_0_r. split; [reflexivity|]. split; [reflexivity|]. split; [exact E|]. split.
    + intros [|j] Hj; [lia | reflexivity].
    + intros j h Hj. lia.
Qed.
Lemma each_id f : forall gs k, (forall i g, nth_error gs i = Some g -> f (k + i)%nat g = (g, true)) -> each Pr No Kv f k gs = (gs, true).
Proof.
  induction gs as [|a gs IH]; intros k H; cbn; [reflexivity|].
  rewrite <- (Nat.add_0_r k) at 1. rewrite (H 0%nat a eq_refl). rewrite IH; [reflexivity|].
  intros i g N. rewrite Nat.add_succ_l, <- Nat.add_succ_r. apply (H (S i)). exact N.
Qed.

Lemma comp_ok c s k g g' : coh k g -> comp c (bounds s) k g = (g', true) -> exists b h g1,
  bounds_of c s k = Some b /\ init_of c k g = Some h /\ g_hps g1 = h /\ coh k g1 /\ (t_init c = None -> g1 = g) /\ gtrain c k b h g1 = (g', true).
Proof.
  intros HC. unfold component, bounds_of, init_of. destruct (nth_error _ k) as [b|]; [|discriminate].
  destruct (match t_init c with Some l => nth_error l k | None => Some (g_hps g) end) as [h|] eqn:EI; [|discriminate].
  destruct (safe k g h) as [g1 [|]] eqn:ES; [|discriminate]. intro T. destruct (safe_ok _ _ _ _ HC ES) as [H1 C1].
  exists b, h, g1. repeat (split; [assumption || reflexivity|]). split; [|exact T].
  intro N. rewrite N in EI. injection EI as <-. rewrite (safe_same k g HC) in ES. now injection ES.
Qed.
Lemma start_in init cur b us x : start_point init cur b us = Ok x -> in_bounds x b = Some true.
Proof.
  unfold start_point. destruct (choose_init init cur b us) as [y|]; [|discriminate]. destruct (in_bounds y b) as [[|]|] eqn:E; try discriminate. intros [= <-]. exact E.
Qed.
Lemma gtrain_ok c k b h g g' : coh k g -> gtrain c k b h g = (g', true) ->
  coh k g' /\ (t_async c = true -> g' = g) /\
  (t_async c = false -> exists x0, in_bounds x0 b = Some true /\
     (optimize k x0 = Some (g_hps g') \/ t_guarded c = true /\ g' = g) /\
     (t_guarded c = true -> g' = g \/
        dominates (loglik k g') (loglik k g) (match variance k g' with None => 0 | Some v => 3 * sqrt (2 * v) end))).
Proof.
  intros HC. unfold gp_train. destruct (t_async c).
  - destruct (choose_init _ _ _ _); [|discriminate]. intros [= <- _]. split; [exact HC|]. split; [reflexivity | discriminate].
  - destruct (start_point _ _ _ _) as [x0|] eqn:ES; [|discriminate].
    destruct (train_sync _ _ _ _ _ _ _ _ _ g (optimize k x0)) as [g2 [h2|]] eqn:ET; [|discriminate]. intros [= <-].
    assert (B := start_in _ _ _ _ _ ES). destruct (t_guarded c).
    + destruct (guarded_training _ _ _ _ _ _ _ _ _ _ _ _ HC ET) as [C2 [H2 D]]. split; [exact C2|]. split; [discriminate|]. intros _. exists x0. split; [exact B|].
      destruct D as [[D1 D2]| ->]; [split; [left; rewrite H2; exact D1 | intros _; right; exact D2] | split; [right; auto | intros _; left; reflexivity]].
    + unfold train_sync in ET. destruct (optimize k x0) as [r|] eqn:EO; [|discriminate].
      destruct (set_hps _ _ _ _ _ _ g r) as [g3 [|]] eqn:E3; [|discriminate]. injection ET as <- <-. destruct (set_hps_ok _ _ _ _ _ _ _ _ _ E3) as [H3 C3].
      split; [exact C3|]. split; [discriminate|]. intros _. exists x0. split; [exact B|]. split; [left; rewrite EO, H3; reflexivity | discriminate].
Qed.

Lemma train_inv c s s' hs : all_coherent (gps s) -> Train c s = (s', Some hs) ->
  each Pr No Kv (comp c (bounds s)) 0%nat (gps s) = (gps s', true) /\ all_coherent (gps s') /\ hs = map g_hps (gps s') /\
  stored_hps s' = hs /\ stored_weights s' = weights s' /\ bounds s' = bounds s /\
  (t_weights c = false -> weights s' = weights s) /\
  (t_weights c = true -> match t_method c with
     | Density => em_density (gps s') (weights s) = Some (weights s')
     | Samples => t_samples c = true /\ em_samples (gps s') (weights s) = Some (weights s')
     | OtherWeights => False end).
Proof.
  intros HA. unfold train. destruct (each Pr No Kv _ 0%nat (gps s)) as [gs [|]] eqn:E1; [|discriminate]. cbn [negb].
  destruct (each_true _ _ _ _ E1) as [L H].
  assert (CA : all_coherent gs).
  { intros k g' N. destruct (nth_error (gps s) k) as [g|] eqn:Ng.
    - destruct (H k g Ng) as [g'' [N' F]]. rewrite N' in N. injection N as ->. destruct (comp_ok c s k g g' (HA k g Ng) F) as (b & h & g1 & _ & _ & _ & C1 & _ & T).
      apply (gtrain_ok c k b h g1 g' C1 T).
    - apply nth_error_None in Ng. rewrite <- L in Ng. apply nth_error_None in Ng. rewrite Ng in N. discriminate. }
  destruct (t_weights c).
  - assert (EI : each Pr No Kv (fun k g => match nth_error (map g_hps gs) k with Some h => safe k g h | None => (g, false) end) 0%nat gs = (gs, true)).
    { apply each_id. intros i g N. cbn. rewrite (map_nth_error g_hps i gs N). apply safe_same. exact (CA i g N). }
    unfold weight_phase. rewrite EI. destruct (t_method c).
    + destruct (em_density gs (weights s)) as [w|] eqn:EM; [|discriminate]. intros [= <- <-]. cbn. repeat match goal with |- _ /\ _ => split end; auto; discriminate.
    + destruct (t_samples c); [|discriminate]. destruct (em_samples gs (weights s)) as [w|] eqn:EM; [|discriminate]. intros [= <- <-]. cbn. repeat match goal with |- _ /\ _ => split end; auto; discriminate.
    + discriminate.
  - intros [= <- <-]. cbn. repeat match goal with |- _ /\ _ => split end; auto; discriminate.
Qed.

Lemma trained_component c s s' hs k g : all_coherent (gps s) -> Train c s = (s', Some hs) -> nth_error (gps s) k = Some g ->
  exists g' b h g1, nth_error (gps s') k = Some g' /\ bounds_of c s k = Some b /\ init_of c k g = Some h /\ g_hps g1 = h /\ coh k g1 /\
    (t_init c = None -> g1 = g) /\ gtrain c k b h g1 = (g', true).
Proof.
  intros HA HT N. destruct (train_inv _ _ _ _ HA HT) as [E _]. destruct (each_true _ _ _ _ E) as [_ H]. destruct (H k g N) as [g' [N' F]].
  destruct (comp_ok c s k g g' (HA k g N) F) as (b & h & g1 & A). exists g', b, h, g1. split; [exact N' | exact A].
Qed.

(** C134 *)
Theorem ggmp_train_synced_g c s s' hs : all_coherent (gps s) -> Train c s = (s', Some hs) ->
  length (gps s') = length (gps s) /\ all_coherent (gps s') /\ hs = map g_hps (gps s') /\ stored_hps s' = hs /\ stored_weights s' = weights s' /\
  (t_weights c = false -> weights s' = weights s) /\
  (t_weights c = true -> match t_method c with
     | Density => em_density (gps s') (weights s) = Some (weights s')
     | Samples => t_samples c = true /\ em_samples (gps s') (weights s) = Some (weights s')
     | OtherWeights => False end).
Proof.
  intros HA HT. destruct (train_inv _ _ _ _ HA HT) as (E & A & B & C & D & _ & F). split; [apply (each_true _ _ _ _ E)|]. auto.
Qed.

(** C135 *)
Theorem failed_ggmp_train_partial_g c s s' : all_coherent (gps s) -> Train c s = (s', None) ->
  weights s' = weights s /\ stored_weights s' = stored_weights s /\ stored_hps s' = stored_hps s /\ length (gps s') = length (gps s) /\
  ((exists i, (i < length (gps s))%nat /\ forall j, (i < j)%nat -> nth_error (gps s') j = nth_error (gps s) j) \/
   t_weights c = true /\ all_coherent (gps s')).
Proof.
  intros HA. unfold train. destruct (each Pr No Kv _ 0%nat (gps s)) as [gs [|]] eqn:E1; cbn [negb].
  - destruct (each_true _ _ _ _ E1) as [L H].
    assert (CA : all_coherent gs).
    { intros k g' N. destruct (nth_error (gps s) k) as [g|] eqn:Ng.
      - destruct (H k g Ng) as [g'' [N' F]]. rewrite N' in N. injection N as ->. destruct (comp_ok c s k g g' (HA k g Ng) F) as (b & h & g1 & _ & _ & _ & C1 & _ & T).
        apply (gtrain_ok c k b h g1 g' C1 T).
      - apply nth_error_None in Ng. rewrite <- L in Ng. apply nth_error_None in Ng. rewrite Ng in N. discriminate. }
    destruct (t_weights c); [|discriminate].
    assert (EI : each Pr No Kv (fun k g => match nth_error (map g_hps gs) k with Some h => safe k g h | None => (g, false) end) 0%nat gs = (gs, true)).
    { apply each_id. intros i g N. cbn. rewrite (map_nth_error g_hps i gs N). apply safe_same. exact (CA i g N). }
    unfold weight_phase. rewrite EI.
    destruct (t_method c); [destruct (em_density gs (weights s)); [discriminate|] | destruct (t_samples c); [destruct (em_samples gs (weights s)); [discriminate|]|] |];
      intros [= <-]; cbn; repeat match goal with |- _ /\ _ => split end; auto.
  - destruct (each_false _ _ _ _ E1) as [L (i & g & g' & N & _ & _ & A & _)]. intros [= <-]. cbn. repeat match goal with |- _ /\ _ => split end; auto. left. exists i. split; [|exact A].
    apply nth_error_Some. rewrite N. discriminate.
Qed.

(** C136 *)
Theorem ggmp_never_worse_partial_g c s s' hs k g : all_coherent (gps s) -> Train c s = (s', Some hs) -> t_async c = false ->
  t_guarded c = true -> t_init c = None -> nth_error (gps s) k = Some g ->
  exists g', nth_error (gps s') k = Some g' /\
    (g' = g \/ dominates (loglik k g') (loglik k g) (match variance k g' with None => 0 | Some v => 3 * sqrt (2 * v) end)).
Proof.
  intros HA HT NA GU NI N. destruct (trained_component _ _ _ _ _ _ HA HT N) as (g' & b & h & g1 & N' & _ & _ & _ & C1 & EQ & T).
  specialize (EQ NI). subst g1. exists g'. split; [exact N'|]. destruct (gtrain_ok _ _ _ _ _ _ C1 T) as [_ [_ K]]. destruct (K NA) as (x0 & _ & _ & D). exact (D GU).
Qed.

(** C137, with the bounds of C27 *)
Theorem ggmp_result_is_trained_partial_g c s s' hs k g : all_coherent (gps s) -> Train c s = (s', Some hs) -> nth_error (gps s) k = Some g ->
  exists g' b h, nth_error (gps s') k = Some g' /\ nth_error hs k = Some (g_hps g') /\ bounds_of c s k = Some b /\ init_of c k g = Some h /\
  (t_async c = false -> exists x0, in_bounds x0 b = Some true /\ (optimize k x0 = Some (g_hps g') \/ t_guarded c = true /\ g_hps g' = h)) /\
  (t_async c = true -> g_hps g' = h).
Proof.
  intros HA HT N. destruct (trained_component _ _ _ _ _ _ HA HT N) as (g' & b & h & g1 & N' & B & I & E1 & C1 & _ & T).
  destruct (train_inv _ _ _ _ HA HT) as (_ & _ & EH & _). destruct (gtrain_ok _ _ _ _ _ _ C1 T) as [_ [K1 K2]].
  exists g', b, h. split; [exact N'|]. split; [rewrite EH; now apply map_nth_error|]. split; [exact B|]. split; [exact I|]. split.
  - intro NA. destruct (K2 NA) as (x0 & X & [O|[G ->]] & _); exists x0; split; auto.
  - intro YA. rewrite (K1 YA). exact E1.
Qed.

(** C138 *)
Theorem safe_set_partial_g k g h g' : safe k g h = (g', true) -> coh k g \/ g_hps g <> h -> g_hps g' = h /\ coh k g'.
Proof.
  intros H [C|D]; [exact (safe_ok _ _ _ _ C H)|]. unfold safe_set in H. destruct (array_equal (g_hps g) h) eqn:E; [apply array_equal_eq in E; contradiction|].
  exact (set_hps_ok _ _ _ _ _ _ _ _ _ H).
Qed.
End P.

(** ** The statements *)
Theorem ggmp_train_synced : forall Pr No Kv prior_of noise_of kv_of loglik variance optimize draws submitted em_density em_samples c (s s' : ggmp Pr No Kv) hs,
  all_coherent Pr No Kv prior_of noise_of kv_of (gg_gps _ _ _ s) ->
  train Pr No Kv prior_of noise_of kv_of loglik variance optimize draws submitted em_density em_samples c s = (s', Some hs) ->
  length (gg_gps _ _ _ s') = length (gg_gps _ _ _ s) /\ all_coherent Pr No Kv prior_of noise_of kv_of (gg_gps _ _ _ s') /\
  hs = map g_hps (gg_gps _ _ _ s') /\ gg_stored_hps _ _ _ s' = hs /\ gg_stored_weights _ _ _ s' = gg_weights _ _ _ s' /\
  (t_weights c = false -> gg_weights _ _ _ s' = gg_weights _ _ _ s) /\
  (t_weights c = true -> match t_method c with
     | Density => em_density (gg_gps _ _ _ s') (gg_weights _ _ _ s) = Some (gg_weights _ _ _ s')
     | Samples => t_samples c = true /\ em_samples (gg_gps _ _ _ s') (gg_weights _ _ _ s) = Some (gg_weights _ _ _ s')
     | OtherWeights => False end).
Proof. exact ggmp_train_synced_g. Qed.
Print Assumptions ggmp_train_synced.
Theorem failed_ggmp_train_partial : forall Pr No Kv prior_of noise_of kv_of loglik variance optimize draws submitted em_density em_samples c (s s' : ggmp Pr No Kv),
  all_coherent Pr No Kv prior_of noise_of kv_of (gg_gps _ _ _ s) ->
  train Pr No Kv prior_of noise_of kv_of loglik variance optimize draws submitted em_density em_samples c s = (s', None) ->
  gg_weights _ _ _ s' = gg_weights _ _ _ s /\ gg_stored_weights _ _ _ s' = gg_stored_weights _ _ _ s /\ gg_stored_hps _ _ _ s' = gg_stored_hps _ _ _ s /\
  length (gg_gps _ _ _ s') = length (gg_gps _ _ _ s) /\
  ((exists i, (i < length (gg_gps _ _ _ s))%nat /\ forall j, (i < j)%nat -> nth_error (gg_gps _ _ _ s') j = nth_error (gg_gps _ _ _ s) j) \/
   t_weights c = true /\ all_coherent Pr No Kv prior_of noise_of kv_of (gg_gps _ _ _ s')).
Proof. exact failed_ggmp_train_partial_g. Qed.
Print Assumptions failed_ggmp_train_partial.
Theorem ggmp_never_worse_partial : forall Pr No Kv prior_of noise_of kv_of loglik variance optimize draws submitted em_density em_samples c (s s' : ggmp Pr No Kv) hs k g,
  all_coherent Pr No Kv prior_of noise_of kv_of (gg_gps _ _ _ s) ->
  train Pr No Kv prior_of noise_of kv_of loglik variance optimize draws submitted em_density em_samples c s = (s', Some hs) ->
  t_async c = false -> t_guarded c = true -> t_init c = None -> nth_error (gg_gps _ _ _ s) k = Some g ->
  exists g', nth_error (gg_gps _ _ _ s') k = Some g' /\
    (g' = g \/ dominates (loglik k g') (loglik k g) (match variance k g' with None => 0 | Some v => 3 * sqrt (2 * v) end)).
Proof. exact ggmp_never_worse_partial_g. Qed.
Print Assumptions ggmp_never_worse_partial.
Theorem ggmp_result_is_trained_partial : forall Pr No Kv prior_of noise_of kv_of loglik variance optimize draws submitted em_density em_samples c (s s' : ggmp Pr No Kv) hs k g,
  all_coherent Pr No Kv prior_of noise_of kv_of (gg_gps _ _ _ s) ->
  train Pr No Kv prior_of noise_of kv_of loglik variance optimize draws submitted em_density em_samples c s = (s', Some hs) ->
  nth_error (gg_gps _ _ _ s) k = Some g ->
  exists g' b h, nth_error (gg_gps _ _ _ s') k = Some g' /\ nth_error hs k = Some (g_hps g') /\ bounds_of _ _ _ c s k = Some b /\ init_of _ _ _ c k g = Some h /\
  (t_async c = false -> exists x0, in_bounds x0 b = Some true /\ (optimize k x0 = Some (g_hps g') \/ t_guarded c = true /\ g_hps g' = h)) /\
  (t_async c = true -> g_hps g' = h).
Proof. exact ggmp_result_is_trained_partial_g. Qed.
Print Assumptions ggmp_result_is_trained_partial.
Theorem safe_set_partial : forall Pr No Kv prior_of noise_of kv_of k (g : gp Pr No Kv) h g',
  safe_set Pr No Kv prior_of noise_of kv_of k g h = (g', true) ->
  coherent Pr No Kv (prior_of k) (noise_of k) (kv_of k) g \/ g_hps g <> h ->
  g_hps g' = h /\ coherent Pr No Kv (prior_of k) (noise_of k) (kv_of k) g'.
Proof. exact safe_set_partial_g. Qed.
Print Assumptions safe_set_partial.

(** one component, likelihood minus the square of its hyperparameter (guarded_ex1), currently 2, bounds [0, 5], weight 1 *)
Definition e_train (opt : R) := train ext unit ext (fun _ => ex_prior) (fun _ => ex_noise) (fun _ => ex_kv) (fun _ => ex_ll) (fun _ _ => None)
  (fun _ _ => Some [Fin opt]) (fun _ _ => 0) (fun _ => true) (fun _ _ => Some [1]) (fun _ _ => None).
Definition e_ggmp (a b : R) : ggmp ext unit ext := GGMP ext unit ext [ex_gp a] [1] [[(Fin 0, Fin 5)]] [1] [[Fin b]].
Ltac norm := cbv -[Rlt_dec Rle_dec Rplus Rmult Ropp Rminus IZR sqrt Rlt Rle].
Ltac rd := repeat (match goal with
  | |- context [Rlt_dec ?x ?y] => destruct (Rlt_dec x y); try (exfalso; lra)
  | |- context [Rle_dec ?x ?y] => destruct (Rle_dec x y); try (exfalso; lra) end; norm).
Ltac run := norm; rd; try reflexivity.
Lemma e_coherent a b : a <= 9 -> all_coherent ext unit ext (fun _ => ex_prior) (fun _ => ex_noise) (fun _ => ex_kv) (gg_gps _ _ _ (e_ggmp a b)).
Proof.
  intros Ha [|k] g; cbn; [|destruct k; discriminate]. intros [= <-]. unfold coherent, ex_gp, ex_kv. cbn. destruct (Rlt_dec 9 a); [exfalso; lra | auto].
Qed.

Example ggmp_example : e_train 1 (Call None None false true true Density false) (e_ggmp 2 2) = (e_ggmp 1 1, Some [[Fin 1]]).
Proof. run. Qed.

(** an unknown weight_method is noticed after the GPs were trained: GP and stored hyperparameters disagree *)
Theorem failed_ggmp_train_refuted : let s := e_ggmp 2 2 in
  all_coherent ext unit ext (fun _ => ex_prior) (fun _ => ex_noise) (fun _ => ex_kv) (gg_gps _ _ _ s) /\
  e_train 1 (Call None None false true true OtherWeights false) s = (e_ggmp 1 2, None) /\ e_ggmp 1 2 <> s.
Proof.
  cbv zeta. split; [apply e_coherent; lra|]. split; [run|]. unfold e_ggmp, ex_gp. intros [=]. lra.
Qed.
Print Assumptions failed_ggmp_train_refuted.

(** guarded training from the given vector 4: the optimizer stays there, and the likelihood drops from -4 to -16 *)
Theorem ggmp_never_worse_refuted : let s := e_ggmp 2 2 in
  e_train 4 (Call None (Some [[Fin 4]]) false true false Density false) s = (e_ggmp 4 4, Some [[Fin 4]]) /\
  ex_ll (ex_gp 2) = Fin (-4) /\ ex_ll (ex_gp 4) = Fin (-16).
Proof. cbv zeta. split; [run|]. unfold ex_ll. cbn. split; f_equal; lra. Qed.
Print Assumptions ggmp_never_worse_refuted.

(** asynchronous=True: the call returns normally, and no optimizer result ever reaches the GPs *)
Theorem ggmp_result_is_trained_refuted : forall opt, opt <> 2 -> let s := e_ggmp 2 2 in
  e_train opt (Call None None true true true Density false) s = (s, Some [[Fin 2]]).
Proof. intros opt _. cbv zeta. run. Qed.
Print Assumptions ggmp_result_is_trained_refuted.

(** hyperparameter 12 cannot be factorized: the first call raises, the second returns normally with the factorization of 2 *)
Theorem safe_set_refuted : let set := safe_set ext unit ext (fun _ => ex_prior) (fun _ => ex_noise) (fun _ => ex_kv) 0%nat in
  exists g, set (ex_gp 2) [Fin 12] = (g, false) /\ set g [Fin 12] = (g, true) /\ g_kv g = Fin 2 /\
  ~ coherent ext unit ext ex_prior ex_noise ex_kv g.
Proof.
  cbv zeta. exists (GP [Fin 12] (Fin 12) tt (Fin 2)). split; [|split; [|split; [reflexivity|]]].
  - run.
  - run.
  - intros (_ & _ & K). unfold ex_kv in K. cbn in K. destruct (Rlt_dec 9 12); [discriminate | lra].
Qed.
Print Assumptions safe_set_refuted.
