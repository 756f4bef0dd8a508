(** Invariants of the actors. *)
From Coq Require Import Sorted.
From Verif Require Import Model.Prelude Model.Actor Spec.ActorSpec.
Local Open Scope nat_scope.

Lemma earlier_refl a : earlier a a.
Proof. destruct a; cbn; lia. Qed.
Lemma earlier_trans a b c : earlier a b -> earlier b c -> earlier a c.
Proof. destruct a, b, c; cbn; lia. Qed.

Section A.
Context {Snap : Type}.
Variables (k : kind) (n : nat) (out : nat -> outcome Snap) (final : nat -> option (list (Snap -> Snap))) (init : Snap).

Local Notation after := (after out init).
Local Notation value := (value out final init).
Definition failed : Prop := (exists i, i < n /\ out i = Raise) \/ (k = Leading /\ exists i, i <= n /\ final i = None).

Definition inv (s : state Snap) (st : stage) : Prop :=
  match at_ s with
  | NotStarted => st = AfterIter 0 /\ latest s = init /\ locked s = false /\ calls s = 0
  | Check i => st = AfterIter i /\ after i = Some (latest s) /\ locked s = false /\ i <= n /\ calls s = i /\ (k = Trailing -> 0 < i)
  | Compute i => st = AfterIter i /\ after i = Some (latest s) /\ locked s = false /\ i < n /\ calls s = i
  | Publish i => st = AfterIter i /\ after i = Some (latest s) /\ locked s = false /\ i < n /\ (exists v b, out i = Value v b) /\ calls s = i + 1
  | Finalize i => st = AfterIter i /\ after i = Some (latest s) /\ locked s = false /\ i <= n /\ calls s = i /\ k = Leading
  | Write i j => st = AfterIter i /\ locked s = true /\ calls s = i /\ k = Leading /\ i <= n /\
      exists ws v, final i = Some ws /\ after i = Some v /\ latest s = apply_all (firstn j ws) v /\ j <= length ws
  | Exit ok => value st = Some (latest s) /\ locked s = false /\ (ok = false -> failed) /\ (ok = true -> k = Leading -> exists i, st = AtEnd i) /\ calls s <= n /\ (k = Trailing -> ok = true)
  | Over ok => value st = Some (latest s) /\ locked s = false /\ (ok = false -> failed) /\ (ok = true -> k = Leading -> exists i, st = AtEnd i) /\ calls s <= n /\
      (ok = true \/ k = Leading -> running s = false)
  end.

Lemma fresh_inv : inv (fresh init) (AfterIter 0).
Proof. cbn. auto. Qed.

Lemma firstn_S_nth {A} (l : list A) j w : nth_error l j = Some w -> firstn (j + 1) l = firstn j l ++ [w].
Proof.
  revert l. induction j as [|j IH]; intros [|a l]; cbn; try discriminate.
  - intros [= ->]. reflexivity.
  - intros H. f_equal. now apply IH.
Qed.

Lemma tstep_inv s st s' : inv s st -> tstep k n out final s = Some s' -> exists st', earlier st st' /\ inv s' st'.
Proof.
  unfold inv, tstep. destruct s as [ru la lo p ca]. cbn [at_ running latest locked calls].
  destruct p as [|i|i|i|i|i j|ok|ok]; try discriminate.
  - (* Check *) intros (-> & Ha & -> & Hi & -> & Hk). destruct k eqn:Ek.
    + destruct (negb ru || own_stop out (i - 1) || Nat.leb n i) eqn:C; intros [= <-]; exists (AfterIter i); (split; [apply earlier_refl|]);
        cbn [at_ running latest locked calls].
      * repeat split; auto; intros; discriminate.
      * apply orb_false_iff in C as [_ C]. apply Nat.leb_gt in C. repeat split; auto.
    + destruct (negb ru || (Nat.ltb 0 i && own_stop out (i - 1)) || Nat.leb n i) eqn:C; intros [= <-]; exists (AfterIter i); (split; [apply earlier_refl|]);
        cbn [at_ running latest locked calls].
      * repeat split; auto.
      * apply orb_false_iff in C as [_ C]. apply Nat.leb_gt in C. repeat split; auto.
  - (* Compute *) intros (-> & Ha & -> & Hi & ->). destruct (out i) as [|v b] eqn:Eo; intros [= <-]; exists (AfterIter i); (split; [apply earlier_refl|]);
      cbn [at_ running latest locked calls].
    + assert (F : failed) by (left; eauto). destruct k eqn:Ek; cbn [at_ running latest locked calls].
      * split; [exact Ha|]. split; [reflexivity|]. split; [auto|]. split; [discriminate|]. split; [lia|]. intros [?|?]; congruence.
      * split; [exact Ha|]. split; [reflexivity|]. split; [auto|]. split; [discriminate|]. split; [lia|]. congruence.
    + split; [reflexivity|]. split; [exact Ha|]. split; [reflexivity|]. split; [exact Hi|]. eauto.
  - (* Publish *) intros (-> & Ha & -> & Hi & (v & b & Eo) & ->). rewrite Eo. intros [= <-]. exists (AfterIter (i + 1)). split; [cbn; lia|].
    cbn [at_ running latest locked calls]. split; [reflexivity|]. split; [rewrite Nat.add_1_r; cbn; now rewrite Eo|]. repeat split; try lia.
  - (* Finalize *) intros (-> & Ha & -> & Hi & -> & Hk). destruct (final i) as [ws|] eqn:Ef; intros [= <-]; exists (AfterIter i); (split; [apply earlier_refl|]);
      cbn [at_ running latest locked calls].
    + repeat (split; [auto|]). exists ws, la. repeat split; auto. lia.
    + split; [exact Ha|]. split; [reflexivity|]. split; [intros _; right; split; [exact Hk|]; exists i; split; [exact Hi|exact Ef]|]. split; [discriminate|]. split; [exact Hi|congruence].
  - (* Write *) intros (-> & -> & -> & Hk & Hi & ws & v & Ef & Ha & -> & Hj). rewrite Ef. destruct (nth_error ws j) as [w|] eqn:Ew; intros [= <-]; cbn [at_ running latest locked calls].
    + exists (AfterIter i). split; [apply earlier_refl|]. repeat (split; [auto|]). exists ws, v. repeat split; auto.
      * rewrite (firstn_S_nth _ _ _ Ew). unfold apply_all. now rewrite fold_left_app.
      * assert (j < length ws) by (apply nth_error_Some; congruence). lia.
    + exists (AtEnd i). split; [cbn; lia|]. apply nth_error_None in Ew. rewrite firstn_all2 by lia. cbn [value]. rewrite Ha, Ef.
      split; [reflexivity|]. split; [reflexivity|]. split; [discriminate|]. split; [eauto|]. split; [exact Hi|congruence].
  - (* Exit *) intros (Hv & -> & Hf & He & Hc & Hk) [= <-]. exists st. split; [apply earlier_refl|]. cbn [at_ running latest locked calls]. repeat split; auto.
Qed.

Lemma step_inv s st e s' o : inv s st -> step k n out final s e = Some (s', o) ->
  exists st', earlier st st' /\ inv s' st' /\ forall v, o = Some v -> value st' = Some v.
Proof.
  intros I. destruct e; cbn [step].
  - unfold inv in I. destruct (at_ s) eqn:E; try discriminate. destruct I as (-> & Hl & Hlo & Hc). intros [= <- <-].
    exists (AfterIter 0). split; [apply earlier_refl|]. split; [|discriminate]. unfold inv. destruct k eqn:Ek; cbn [at_ running latest locked calls].
    + destruct (Nat.leb_spec n 0) as [Hn|Hn]; cbn [at_].
      * cbn. rewrite Hl. repeat split; auto; try discriminate. lia.
      * rewrite Hl. cbn. repeat split; auto.
    + rewrite Hl. cbn. repeat split; auto; try discriminate. lia.
  - intros [= <- <-]. exists st. split; [apply earlier_refl|]. split; [|discriminate]. unfold inv in *. cbn [at_ running latest locked calls].
    destruct (at_ s); auto. destruct I as (H1 & H2 & H3 & H4 & H5 & H6). repeat split; auto.
  - destruct (locked s) eqn:L; [discriminate|]. intros [= <- <-]. exists st. split; [apply earlier_refl|]. split; [exact I|].
    intros v [= <-]. unfold inv in I. destruct (at_ s); try (destruct I as (-> & H & _); cbn; now rewrite ?H); try tauto.
    destruct I as (_ & H & _). congruence.
  - destruct (tstep k n out final s) as [s1|] eqn:E; [|discriminate]. intros [= <- <-].
    destruct (tstep_inv _ _ _ I E) as (st' & H1 & H2). exists st'. repeat split; auto. discriminate.
Qed.

Lemma exec_inv evs : forall s st s' os, inv s st -> exec k n out final s evs = Some (s', os) ->
  exists sts st', Forall2 (fun o t => value t = Some o) os sts /\ StronglySorted earlier (st :: sts) /\ Forall (fun t => earlier t st') (st :: sts) /\ inv s' st'.
Proof.
  induction evs as [|e evs IH]; intros s st s' os I; cbn [exec].
  - intros [= <- <-]. exists [], st. split; [constructor|]. split; [repeat constructor|]. split; [|exact I]. constructor; [apply earlier_refl|constructor].
  - destruct (step k n out final s e) as [[s1 o]|] eqn:E; [|discriminate].
    destruct (exec k n out final s1 evs) as [[s2 os2]|] eqn:E2; [|discriminate]. intros [= <- <-].
    destruct (step_inv _ _ _ _ _ I E) as (st1 & H1 & I1 & Hv).
    destruct (IH _ _ _ _ I1 E2) as (sts & st' & F & So & Fa & I').
    assert (HS : forall l, StronglySorted earlier (st1 :: l) -> StronglySorted earlier (st :: l)).
    { intros l Hl. inversion Hl as [|? ? Hl1 Hl2]; subst. constructor; [exact Hl1|]. eapply Forall_impl; [|exact Hl2]. cbn. intros a Ha. now apply earlier_trans with st1. }
    destruct o as [v|].
    + exists (st1 :: sts), st'. split; [constructor; [now apply Hv|exact F]|]. split.
      * constructor; [exact So|]. constructor; [exact H1|]. inversion So as [|? ? _ Hl2]; subst. eapply Forall_impl; [|exact Hl2]. cbn. intros a Ha. now apply earlier_trans with st1.
      * split; [|exact I']. constructor; [|exact Fa]. inversion Fa; subst. now apply earlier_trans with st1.
    + exists sts, st'. split; [exact F|]. split; [now apply HS|]. split; [|exact I']. inversion Fa; subst. constructor; [now apply earlier_trans with st1|assumption].
Qed.

(** after a stop *)
Definition pending (s : state Snap) : nat := match at_ s with Compute _ => 1 | _ => 0 end.
Lemma stopped_step s e s' o : at_ s <> NotStarted -> running s = false -> step k n out final s e = Some (s', o) ->
  at_ s' <> NotStarted /\ running s' = false /\ calls s <= calls s' /\ calls s' + pending s' <= calls s + pending s.
Proof.
  destruct s as [ru la lo p ca]. cbn [at_ running]. intros Hp ->. destruct e; cbn [step at_ running latest locked calls].
  - destruct p; try discriminate. congruence.
  - intros [= <- <-]. unfold pending. cbn. repeat split; auto.
  - destruct lo; [discriminate|]. intros [= <- <-]. cbn. repeat split; auto.
  - unfold tstep, pending. cbn [at_ running latest locked calls negb orb].
    destruct p; try discriminate; try congruence.
    + destruct k; intros [= <- <-]; cbn; repeat split; auto; discriminate.
    + destruct (out i); intros [= <- <-]; destruct k; cbn; repeat split; auto; try discriminate; lia.
    + destruct (out i); [discriminate|]. intros [= <- <-]. cbn. repeat split; auto. discriminate.
    + destruct (final i); intros [= <- <-]; cbn; repeat split; auto; discriminate.
    + destruct (final i) as [ws|]; [|discriminate]. destruct (nth_error ws k0); intros [= <- <-]; cbn; repeat split; auto; discriminate.
    + intros [= <- <-]. cbn. repeat split; auto. discriminate.
Qed.
Lemma stopped_exec evs : forall s s' os, at_ s <> NotStarted -> running s = false -> exec k n out final s evs = Some (s', os) ->
  calls s' <= calls s + pending s.
Proof.
  induction evs as [|e evs IH]; intros s s' os H1 H2; cbn [exec].
  - intros [= <- <-]. lia.
  - destruct (step k n out final s e) as [[s1 o]|] eqn:E; [|discriminate].
    destruct (exec k n out final s1 evs) as [[s2 os2]|] eqn:E2; [|discriminate]. intros [= <- <-].
    destruct (stopped_step _ _ _ _ H1 H2 E) as (A & B & C & D). pose proof (IH _ _ _ A B E2). lia.
Qed.

(** termination *)
Definition max_writes : nat := list_max (map (fun i => match final i with Some ws => length ws | None => 0 end) (seq 0 (n + 1))).
Lemma writes_le i ws : i <= n -> final i = Some ws -> length ws <= max_writes.
Proof.
  intros Hi Hf. unfold max_writes. pose proof (proj1 (list_max_le (map (fun i => match final i with Some ws => length ws | None => 0 end) (seq 0 (n + 1))) _) (le_n _)) as H.
  rewrite Forall_forall in H. apply H. apply in_map_iff. exists i. rewrite Hf. split; [reflexivity|]. apply in_seq. lia.
Qed.
Definition mu (s : state Snap) : nat :=
  let M := max_writes + 4 in
  match at_ s with
  | NotStarted => 3 * n + M + 1
  | Check i => 3 * (n - i) + M
  | Compute i => 3 * (n - i) + M - 1
  | Publish i => 3 * (n - i) + M - 2
  | Finalize i => max_writes + 3
  | Write i j => max_writes - j + 2
  | Exit _ => 1
  | Over _ => 0
  end.
Definition is_thread (e : event) : bool := match e with EThread => true | _ => false end.
Lemma step_mu s st e s' o : inv s st -> step k n out final s e = Some (s', o) -> mu s' + (if is_thread e then 1 else 0) <= mu s.
Proof.
  destruct s as [ru la lo p ca]. unfold inv. cbn [at_ running latest locked calls]. intros I. destruct e; cbn [step at_ running latest locked calls is_thread].
  - destruct p; try discriminate. intros [= <- <-]. unfold mu. cbn [at_]. destruct k; [destruct (Nat.leb n 0)|]; lia.
  - intros [= <- <-]. unfold mu. cbn [at_]. lia.
  - destruct lo; [discriminate|]. intros [= <- <-]. lia.
  - unfold tstep, mu. cbn [at_ running latest locked calls]. destruct p; try discriminate.
    + destruct k.
      * destruct (_ || _ || _) eqn:C; intros [= <- <-]; cbn [at_]; lia.
      * destruct (_ || _ || _) eqn:C; intros [= <- <-]; cbn [at_]; lia.
    + destruct (out i); intros [= <- <-]; cbn [at_]; [destruct k|]; lia.
    + destruct (out i); [discriminate|]. intros [= <- <-]. cbn [at_]. lia.
    + destruct (final i); intros [= <- <-]; cbn [at_]; lia.
    + destruct I as (_ & _ & _ & _ & Hi & ws & v & Ef & _). rewrite Ef. destruct (nth_error ws k0) eqn:Ew; intros [= <- <-]; cbn [at_]; [|lia].
      pose proof (writes_le _ _ Hi Ef). assert (k0 < length ws) by (apply nth_error_Some; congruence). lia.
    + intros [= <- <-]. cbn [at_]. lia.
Qed.
Lemma exec_mu evs : forall s st s' os, inv s st -> exec k n out final s evs = Some (s', os) ->
  length (filter is_thread evs) + mu s' <= mu s.
Proof.
  induction evs as [|e evs IH]; intros s st s' os I; cbn [exec filter].
  - intros [= <- <-]. cbn. lia.
  - destruct (step k n out final s e) as [[s1 o]|] eqn:E; [|discriminate].
    destruct (exec k n out final s1 evs) as [[s2 os2]|] eqn:E2; [|discriminate]. intros [= <- <-].
    destruct (step_inv _ _ _ _ _ I E) as (st1 & _ & I1 & _). pose proof (step_mu _ _ _ _ _ I E). pose proof (IH _ _ _ _ I1 E2).
    destruct (is_thread e); cbn [length]; lia.
Qed.
Lemma stuck s st : inv s st -> tstep k n out final s = None -> at_ s = NotStarted \/ exists ok, at_ s = Over ok.
Proof.
  destruct s as [ru la lo p ca]. unfold inv, tstep. cbn [at_ running latest locked calls]. destruct p; eauto.
  - intros _. destruct k; destruct (_ || _ || _); discriminate.
  - intros _. destruct (out i); discriminate.
  - intros (_ & _ & _ & _ & (v & b & ->) & _). discriminate.
  - intros _. destruct (final i); discriminate.
  - intros (_ & _ & _ & _ & _ & ws & v & -> & _). destruct (nth_error ws k0); discriminate.
  - discriminate.
Qed.
End A.
