(** C49, C86: at most one GP per Dask client. *)
From Verif Require Import Model.Prelude Model.Registry Proofs.RegistryP.

(** a live, successfully constructed gp2Scale GP on client [c] *)
Definition uses {Id} (w : world Id) (g : nat) (c : Id) : Prop := obj w g = Some (Done (Some c) true).
Definition registered {Id} id_eqb (w : world Id) (g : nat) (c : Id) : Prop := reg_get id_eqb (w_reg w) c = Some g.

(** * C49 *)
(** after any sequence of constructions and collections the registry lists exactly the live gp2Scale GPs with their
    clients, so there is at most one per client *)
Theorem one_gp_per_client : forall {Id : Type} (id_eqb : Id -> Id -> bool), (forall a b, id_eqb a b = true <-> a = b) ->
  forall cs (w : world Id), w = history id_eqb cs ->
  (forall g c, uses w g c <-> registered id_eqb w g c) /\
  (forall g g' c, uses w g c -> uses w g' c -> g = g').
Proof.
intros Id e E cs w ->. destruct (history_inv e E cs) as [A B]. split; [exact B|].
intros g g' c H H'. apply B in H. apply B in H'. unfold registered in *. congruence.
Qed.
Print Assumptions one_gp_per_client.
(** a second construction raises and leaves the first registered and alive *)
Theorem second_gp_raises : forall {Id : Type} (id_eqb : Id -> Id -> bool), (forall a b, id_eqb a b = true <-> a = b) ->
  forall cs (w : world Id) g c a fine, w = history id_eqb cs -> uses w g c -> a_gp2 a = true -> a_imate a = true -> a_client a = Some c ->
  exists w', construct id_eqb w a fine = (w', Err RShared) /\ uses w' g c /\ registered id_eqb w' g c.
Proof.
intros Id e E cs w g c a fine -> U G I C. exact (second_raises_l e _ g c a fine (history_inv e E cs) U G I C).
Qed.
Print Assumptions second_gp_raises.
(** once there is no live GP on the client a new one may be built, and is then the one *)
Theorem free_client_accepted : forall {Id : Type} (id_eqb : Id -> Id -> bool), (forall a b, id_eqb a b = true <-> a = b) ->
  forall cs (w : world Id) c a, w = history id_eqb cs -> (forall g, ~ uses w g c) -> a_gp2 a = true -> a_imate a = true -> a_client a = Some c ->
  exists w' g, construct id_eqb w a true = (w', Ok g) /\ obj w g = None /\ uses w' g c /\ registered id_eqb w' g c.
Proof.
intros Id e E cs w c a -> U G I C. exact (free_accepted_l e E _ c a (history_inv e E cs) U G I C).
Qed.
Print Assumptions free_client_accepted.
(** collecting the GP frees its client and no other; a construction that fails leaves the registry alone *)
Theorem collecting_frees : forall {Id : Type} (id_eqb : Id -> Id -> bool), (forall a b, id_eqb a b = true <-> a = b) ->
  forall cs (w : world Id) g, w = history id_eqb cs ->
  (forall c, ~ uses (collect w g) g c) /\ (forall g' c, g' <> g -> uses (collect w g) g' c <-> uses w g' c).
Proof. intros Id e E cs w g ->. exact (collect_l (history e cs) g). Qed.
Theorem failed_construction_keeps : forall {Id : Type} (id_eqb : Id -> Id -> bool), (forall a b, id_eqb a b = true <-> a = b) ->
  forall cs (w : world Id) a fine w' e, w = history id_eqb cs -> construct id_eqb w a fine = (w', Err e) ->
  w_reg w' = w_reg w /\ forall g c, uses w' g c <-> uses w g c.
Proof. intros Id e E cs w a fine w' x -> H. exact (failed_l e _ a fine w' x H). Qed.
Print Assumptions failed_construction_keeps.
Definition onclient (c : nat) : cargs nat := CArgs true (Some c) true None.
Example registry_ex :
  let w := history Nat.eqb [CNew (onclient 7) false; CNew (onclient 7) true; CNew (onclient 7) true; CNew (onclient 8) true; CCollect 1; CNew (onclient 7) true] in
  map (obj w) [0; 1; 2; 3; 4] = [Some Failed; None; Some Failed; Some (Done (Some 8) true); Some (Done (Some 7) true)] /\
  reg_get Nat.eqb (w_reg w) 7 = Some 4 /\ reg_get Nat.eqb (w_reg w) 8 = Some 3.
Proof. vm_compute. repeat split. Qed.

(** * C86 *)
(** constructions in two threads both pass the guard before either registers *)
Theorem threads_share_client_refuted : exists es (w : world nat), w = run Nat.eqb w0 es /\
  uses w 0 7 /\ uses w 1 7 /\ registered Nat.eqb w 1 7 /\ ~ registered Nat.eqb w 0 7.
Proof.
exists [EBegin (onclient 7); EBegin (onclient 7); EFinish 0 true; EFinish 1 true]. eexists. split; [reflexivity|].
split; [reflexivity|]. split; [reflexivity|]. split; [reflexivity|]. discriminate.
Qed.
Print Assumptions threads_share_client_refuted.
(** whatever the interleaving, a registered GP is alive and was constructed with that client, and each client has one entry *)
Theorem threads_registry_partial : forall {Id : Type} (id_eqb : Id -> Id -> bool), (forall a b, id_eqb a b = true <-> a = b) ->
  forall es (w : world Id), w = run id_eqb w0 es -> NoDup (map fst (w_reg w)) /\ forall g c, registered id_eqb w g c -> uses w g c.
Proof. intros Id e E es w ->. exact (run_inv e E es). Qed.
Print Assumptions threads_registry_partial.
