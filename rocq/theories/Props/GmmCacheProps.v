(** C54, C93: the cache of station fits. *)
From Coq Require Import Permutation Sorted.
From Verif Require Import Model.Prelude Model.GmmCache Spec.GmmCacheSpec Proofs.GmmCacheP.

Section C54.
Context {Meta P Series F : Type} (meta_eqb : Meta -> Meta -> bool) (p_eqb : P -> P -> bool) (path_of : Meta -> P) (width : Meta -> nat).
Context (fit : Meta -> Series -> option F) (zeros : Meta -> F) (argsort : list Z -> list nat).
Hypotheses (PE : forall a b, p_eqb a b = true <-> a = b) (ME : forall a b, meta_eqb a b = true <-> a = b).
(** C54: wherever a save is interrupted, the cache file is the old one or the complete new one, and no other cache file changes *)
Theorem save_crash_safe : forall writes p (c : @content Meta F) k d, let d' := fold_left (exec p_eqb) (firstn k (save_ops writes p c)) d in
  (d_main d' p = d_main d p \/ d_main d' p = Some (Whole c)) /\ forall q, q <> p -> d_main d' q = d_main d q.
Proof. intros w p c k d. cbn zeta. destruct (save_cases p_eqb PE w p c k d) as [S|[S1 S2]]; [rewrite S; auto|auto]. Qed.
Theorem save_completes : forall writes p (c : @content Meta F) d, let d' := fold_left (exec p_eqb) (save_ops writes p c) d in
  d_main d' p = Some (Whole c) /\ d_tmp d' p = None /\ forall q, q <> p -> d_main d' q = d_main d q.
Proof. intros w p c d. cbn zeta. destruct (save_whole p_eqb PE w p c d) as (S1 & S2 & S3). auto. Qed.
(** C54, the part of the transparency that holds: if the file names of different settings differ, the directory holds nothing but broken files and fits made with these settings, and the
    series of a station is determined by its id and the data file, then in any sequence of runs, any of which may be killed while saving, every run returns what it returns without cache.
    Missing: repeated ids, series prepared differently from the same file, files of other settings. *)
Theorem cache_transparent_partial : forall data d qs, (forall a b, path_of a = path_of b -> a = b) -> (forall m, faithful meta_eqb width fit data m (d_main d (path_of m))) ->
  Forall (fun q => from_file data (r_meta q) (r_stations q)) qs ->
  snd (serve_all meta_eqb p_eqb path_of width fit zeros argsort d qs) = map (fun q => Ok (run_plain fit zeros (r_meta q) (r_stations q))) qs.
Proof. intros data d qs INJ FF FQ. apply (serve_all_faithful meta_eqb p_eqb path_of width fit zeros argsort PE ME INJ data qs d FF FQ). Qed.
(** without cache every station gets its own fit, or zeros *)
Theorem plain_fits : forall m stations, run_plain fit zeros m stations = map (fun s => match fit m (snd s) with Some f => f | None => zeros m end) stations.
Proof. intros m st. apply plain_direct. Qed.
(** C54: the cache has an effect: after a run that was not killed, every station of the run whose fit succeeded is in the file, as are all that were in it before *)
Theorem cache_kept : forall data d q, (forall m, faithful meta_eqb width fit data m (d_main d (path_of m))) -> from_file data (r_meta q) (r_stations q) -> r_killed q = None -> argsort_contract argsort ->
  (exists id y, In (id, y) (r_stations q) /\ fit (r_meta q) y <> None) ->
  exists c, load (d_main (fst (serve meta_eqb p_eqb path_of width fit zeros argsort d q)) (path_of (r_meta q))) = Some c /\ meta_eqb (c_meta c) (r_meta q) = true /\ c_width c = width (r_meta q) /\
    (forall id y r, In (id, y) (r_stations q) -> fit (r_meta q) y = Some r -> In id (map fst (c_rows c))) /\
    match load (d_main d (path_of (r_meta q))) with Some o => c_width o = width (r_meta q) -> incl (map fst (c_rows o)) (map fst (c_rows c)) | None => True end.
Proof.
intros data d q FF D K C (id & y & I & NE). unfold serve. destruct (run_faithful meta_eqb path_of width fit zeros argsort ME data (r_meta q) (r_stations q) _ (FF _) D) as (c' & E & H). rewrite E.
destruct c' as [c|]; [|destruct H as [_ H]; exfalso; apply NE; eapply H; exact I]. rewrite K. cbn [fst]. destruct H as (H1 & H2 & H3 & H4).
exists c. rewrite (proj1 (save_whole p_eqb PE (r_writes q) (path_of (r_meta q)) c d)). split; [reflexivity|]. split; [apply H1|]. split; [exact H2|]. split; [intros; eapply H3; eassumption|exact (H4 C)].
Qed.
(** C54: rows of a file of other settings, or of another number of components, are not served by the run that finds it: it returns what it returns without cache, or raises *)
Theorem other_settings_not_served : forall d q c, load (d_main d (path_of (r_meta q))) = Some c -> c_meta c <> r_meta q \/ c_width c <> width (r_meta q) ->
  match snd (serve meta_eqb p_eqb path_of width fit zeros argsort d q) with Ok out => out = map (fun s => match fit (r_meta q) (snd s) with Some f => f | None => zeros (r_meta q) end) (r_stations q) | Err _ => True end.
Proof.
intros d q c L NE. rewrite <- plain_fits. unfold serve, run, run_plain. rewrite L.
assert (N : (meta_eqb (c_meta c) (r_meta q) && (c_width c =? width (r_meta q))%nat)%bool = false).
{ apply andb_false_iff. destruct NE as [NE|NE]; [left|right; apply Nat.eqb_neq; exact NE]. destruct (meta_eqb (c_meta c) (r_meta q)) eqn:Q; [exfalso; apply NE, ME, Q|reflexivity]. }
rewrite N. destruct (fit_all fit zeros (r_meta q) [] (r_stations q)) as [out added]. cbn [fst].
destruct (meta_eqb (c_meta c) (r_meta q)); [destruct (c_width c =? width (r_meta q))%nat|]; destruct added; try (destruct (c_width c =? width (r_meta q))%nat); cbn; auto.
Qed.
End C54.
Print Assumptions other_settings_not_served.
Print Assumptions save_crash_safe. Print Assumptions save_completes. Print Assumptions cache_transparent_partial. Print Assumptions plain_fits. Print Assumptions cache_kept.

(** a small instance: settings are numbers, a fit doubles the series and fails for 0 *)
Definition dfit (m : nat) (y : Z) : option Z := if Z.eqb y 0 then None else Some (2 * y + Z.of_nat m)%Z.
Definition zsort (l : list Z) : list nat := map snd (fold_right (fun p => (fix ins q l := match l with [] => [q] | r :: t => if Z.leb (fst q) (fst r) then q :: l else r :: ins q t end) p) [] (combine l (seq 0 (length l)))).
Notation srv := (serve_all Nat.eqb Nat.eqb (fun m : nat => m) (fun _ => 3) dfit (fun _ => 0%Z) zsort).
Definition req m st k := {| r_meta := m; r_stations := st; r_writes := 2; r_killed := k |} : @request nat Z.
Definition no_files : @disk nat nat Z := {| d_main := fun _ => None; d_tmp := fun _ => None |}.
(** three runs, the second killed: the third finds the fits of the first *)
Example three_runs : let '(d, out) := srv no_files [req 1%nat [(7, 5); (3, 4); (9, 0)] None; req 1%nat [(8, 6)] (Some 3%nat); req 1%nat [(3, 4); (8, 6)] None]%Z in
  out = [Ok [11; 9; 0]; Ok [13]; Ok [9; 13]]%Z /\ load (d_main d 1) = Some {| c_meta := 1%nat; c_width := 3%nat; c_rows := [(3, 9); (7, 11); (8, 13)]%Z |}.
Proof. vm_compute. split; reflexivity. Qed.
(** C54 fails for repeated ids: the second run gives both stations the fit of one of them *)
Theorem duplicate_ids_refuted : ~ (forall d qs, (forall m, d_main d m = None) -> snd (srv d qs) = map (fun q => Ok (run_plain dfit (fun _ => 0%Z) (r_meta q) (r_stations q))) qs).
Proof. intros H. specialize (H no_files [req 1%nat [(7, 5); (7, 4)] None; req 1%nat [(7, 5); (7, 4)] None]%Z (fun _ => eq_refl)). vm_compute in H. discriminate H. Qed.
(** C54 fails when other series are prepared from the same data file: ids are distinct within each run, but the second run gets the fits of the first one's series *)
Theorem other_series_refuted : ~ (forall d qs, (forall m, d_main d m = None) -> Forall (fun q => NoDup (map fst (r_stations q))) qs ->
  snd (srv d qs) = map (fun q => Ok (run_plain dfit (fun _ => 0%Z) (r_meta q) (r_stations q))) qs).
Proof.
intros H. specialize (H no_files [req 1%nat [(7, 5)] None; req 1%nat [(7, 6)] None]%Z (fun _ => eq_refl)).
assert (N : NoDup [7%Z]) by (repeat constructor; cbn; tauto). specialize (H ltac:(constructor; [exact N|constructor; [exact N|constructor]])). vm_compute in H. discriminate H.
Qed.
(** C54 fails for a file of other settings: it is not used, but its rows are merged into the new file under the new settings and served by the next run *)
Theorem other_meta_refuted : ~ (forall d qs (data : Z -> Z), (forall m, match d_main d m with Some (Whole c) => forall id r, In (id, r) (c_rows c) -> dfit (c_meta c) (data id) = Some r | _ => True end) ->
  Forall (fun q => forall id y, In (id, y) (r_stations q) -> y = data id) qs -> snd (srv d qs) = map (fun q => Ok (run_plain dfit (fun _ => 0%Z) (r_meta q) (r_stations q))) qs).
Proof.
intros H. set (d := {| d_main := fun _ => Some (Whole {| c_meta := 2%nat; c_width := 3%nat; c_rows := [(7, 12)]%Z |}); d_tmp := fun _ => None |} : @disk nat nat Z).
specialize (H d [req 1%nat [(7, 5)] None; req 1%nat [(7, 5)] None]%Z (fun _ => 5%Z)). specialize (H ltac:(intros m id r [E|[]]; injection E as <- <-; reflexivity)).
assert (N : forall id y, In (id, y) [(7, 5)]%Z -> y = 5%Z) by (intros id y [E|[]]; injection E as <- <-; reflexivity). specialize (H ltac:(constructor; [exact N|constructor; [exact N|constructor]])). vm_compute in H. discriminate H.
Qed.
Print Assumptions duplicate_ids_refuted. Print Assumptions other_series_refuted. Print Assumptions other_meta_refuted.

(** C93, the part that holds: whatever the interleaving of any number of saving processes, a complete file holds what one of them saved or what was there before.  Missing: that the
    file stays complete, and that every process succeeds. *)
Theorem concurrent_complete_partial : forall C (cs : nat -> C) l s g old, (forall i c, snd (n_data s i) = Complete c -> c = old) ->
  forall c, reading (fst (sched cs l s g)) = Some (Complete c) -> c = old \/ exists p, In p l /\ c = cs p.
Proof.
intros C cs l s g old H c R. unfold reading in R. destruct (n_main _) as [i|]; [|discriminate]. injection R as R.
exact (sched_known cs (fun c => c = old \/ exists p, In p l /\ c = cs p) l (fun p I => or_intror (ex_intro _ p (conj I eq_refl))) s g (fun i c E => or_introl (H i c E)) i c R).
Qed.
(** C93 fails: two processes that share the temporary file.  After the first one has saved successfully, the cache file is an unfinished one of the second process (and the old content is lost);
    when the second one then finishes, its replace fails since the temporary file is gone. *)
Definition start : @names nat := {| n_main := Some 0; n_tmp := None; n_data := fun _ => (0, Complete 100); n_next := 1 |}.
Theorem concurrent_refuted : let '(s, g) := sched (fun p => p) [1; 1; 2; 1] start (fun _ => Begin) in reading start = Some (Complete 100) /\ reading s = Some Garbage /\ g 1 = Saved /\
  (let '(s', g') := sched (fun p => p) [2; 2] s g in g' 2 = Failed).
Proof. vm_compute. repeat split. Qed.
(** one after the other they are fine *)
Example one_by_one : let '(s, g) := sched (fun p => p) [1; 1; 1; 2; 2; 2] start (fun _ => Begin) in reading s = Some (Complete 2) /\ g 1 = Saved /\ g 2 = Saved.
Proof. vm_compute. repeat split. Qed.
Print Assumptions concurrent_complete_partial. Print Assumptions concurrent_refuted.
