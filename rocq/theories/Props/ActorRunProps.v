(** Property C212: polling an asynchronous optimizer, and the timing of its thread, change nothing about what it does. *)
From Verif Require Import Model.Prelude Model.Actor Spec.ActorSpec Spec.ActorRunSpec.
Local Open Scope nat_scope.

Section Inv.
Context {Snap : Type}.
Variables (k : kind) (n : nat) (out : nat -> outcome Snap) (final : nat -> option (list (Snap -> Snap))) (init : Snap).
Let target := undisturbed out n 0 init.

(** what the final writes make of the last published state *)
Let ended (c : nat) (l : Snap) (ok : bool) : Prop :=
  match k with
  | Trailing => target = (c, l, ok)
  | Leading =>
      (target = (c, l, false) /\ ok = false) \/
      (exists l0, target = (c, l0, true) /\ match final c with None => ok = false /\ l = l0 | Some ws => ok = true /\ l = apply_all ws l0 end)
  end.

Let goes_on (i : nat) (l : Snap) (b : bool) : Prop := (if b then (i, l, true) else undisturbed out (n - i) i l) = target.

Let good (s : state Snap) : Prop :=
  match at_ s with
  | NotStarted => running s = false /\ calls s = 0 /\ latest s = init /\ locked s = false
  | Check i => running s = true /\ calls s = i /\ i <= n /\ (k = Trailing -> 0 < i) /\
               goes_on i (latest s) (Nat.ltb 0 i && match out (i - 1) with Value _ b => b | Raise => false end) /\ locked s = false
  | Compute i => running s = true /\ calls s = i /\ i < n /\ goes_on i (latest s) false /\ locked s = false
  | Publish i => running s = true /\ calls s = S i /\ i < n /\ exists v b, out i = Value v b /\ goes_on (S i) v b /\ locked s = false
  | Finalize i => running s = true /\ calls s = i /\ k = Leading /\ target = (i, latest s, true) /\ locked s = false
  | Write i j => running s = true /\ calls s = i /\ k = Leading /\ exists ws l0, final i = Some ws /\ target = (i, l0, true) /\
                 j <= length ws /\ latest s = apply_all (firstn j ws) l0 /\ locked s = true
  | Exit ok => running s = true /\ locked s = false /\ ended (calls s) (latest s) ok
  | Over ok => (running s = false \/ (k = Trailing /\ ok = false)) /\ locked s = false /\ ended (calls s) (latest s) ok
  end.

Lemma firstn_snoc {A} (l : list A) j x : nth_error l j = Some x -> firstn (S j) l = firstn j l ++ [x].
Proof. revert j. induction l as [|a l IH]; intros [|j] H; try discriminate H; [now injection H as ->|].
  change (a :: firstn (S j) l = a :: (firstn j l ++ [x])). f_equal. now apply IH.
Qed.

Lemma good_step s e s' o : e <> EStop -> good s -> step k n out final s e = Some (s', o) -> good s'.
Proof using Type.
  intros Ne G. destruct e; cbn [step]; [| now destruct Ne| |].
  - unfold good in *. destruct (at_ s) eqn:A; try discriminate. destruct G as (_ & C & L & Lo). intros [= <- <-]. cbn [at_ running calls latest locked].
    destruct k eqn:K.
    + destruct (Nat.leb_spec n 0) as [Z|P]; cbn [at_ running calls latest locked].
      * assert (n = 0) as -> by lia. repeat split; auto. unfold ended, target. rewrite C, L. reflexivity.
      * repeat split; auto. unfold goes_on, target. now rewrite L, Nat.sub_0_r.
    + repeat split; auto; [lia|discriminate|]. unfold goes_on, target. cbn. now rewrite L, Nat.sub_0_r.
  - destruct (locked s); [discriminate|]. now intros [= <- <-].
  - destruct (tstep k n out final s) as [s2|] eqn:T; [|discriminate]. intros [= <- <-]. unfold tstep in T. unfold good in *.
    destruct (at_ s) as [|i|i|i|i|i j|ok|ok] eqn:A; try discriminate.
    + destruct G as (R & C & Hi & K0 & Go & Lo). rewrite R in T. cbn [negb orb] in T. destruct k eqn:K.
      * specialize (K0 eq_refl). unfold own_stop in T.
        assert (L0 : Nat.ltb 0 i = true) by now apply Nat.ltb_lt. rewrite L0 in Go. cbn [andb] in Go.
        destruct (match out (i - 1) with Raise => false | Value _ b => b end); cbn [orb] in T.
        -- injection T as <-. cbn [at_ running calls latest locked]. repeat split; auto. unfold ended; rewrite C; now symmetry.
        -- destruct (Nat.leb_spec n i) as [Z|P]; injection T as <-; cbn [at_ running calls latest locked].
           ++ repeat split; auto. unfold ended, goes_on in *. replace (n - i) with 0 in Go by lia. rewrite C. now symmetry.
           ++ repeat split; auto.
      * unfold own_stop in T. destruct (Nat.ltb 0 i && match out (i - 1) with Raise => false | Value _ b => b end); cbn [orb] in T.
        -- injection T as <-. cbn [at_ running calls latest locked]. repeat split; auto.
        -- destruct (Nat.leb_spec n i) as [Z|P]; injection T as <-; cbn [at_ running calls latest locked].
           ++ repeat split; auto. unfold goes_on in Go. replace (n - i) with 0 in Go by lia. now symmetry.
           ++ repeat split; auto.
    + destruct G as (R & C & Hi & Go & Lo). unfold goes_on in Go. replace (n - i) with (S (n - S i)) in Go by lia. cbn [undisturbed] in Go.
      destruct (out i) as [|v b] eqn:O; injection T as <-.
      * destruct k eqn:K; cbn [at_ running calls latest locked].
        -- repeat split; auto. unfold ended. rewrite C, Nat.add_1_r. now symmetry.
        -- repeat split; auto. unfold ended. left. split; [|reflexivity]. rewrite C, Nat.add_1_r. now symmetry.
      * cbn [at_ running calls latest locked]. repeat split;auto; try lia. exists v, b. repeat split; auto. 
    + destruct G as (R & C & Hi & v & b & O & Go & Lo). rewrite O in T. injection T as <-. cbn [at_ running calls latest locked].
      rewrite Nat.add_1_r. repeat split; auto; [lia|]. cbn [Nat.ltb Nat.leb andb]. rewrite Nat.sub_succ, Nat.sub_0_r, O. exact Go.
    + destruct G as (R & C & K & Ta & Lo). destruct (final i) as [ws|] eqn:F; injection T as <-; cbn [at_ running calls latest locked].
      * repeat split; auto. exists ws, (latest s). repeat split; auto. lia.
      * repeat split; auto. unfold ended. rewrite K. right. exists (latest s). rewrite C, F. auto.
    + destruct G as (R & C & K & ws & l0 & F & Ta & Hj & L & Lo). rewrite F in T. destruct (nth_error ws j) as [w|] eqn:N; injection T as <-; cbn [at_ running calls latest locked].
      * assert (Hl : j < length ws) by (apply nth_error_Some; congruence).
        repeat split; auto. exists ws, l0. repeat split; auto; [lia|]. rewrite Nat.add_1_r, (firstn_snoc _ _ _ N). unfold apply_all. rewrite fold_left_app. cbn. f_equal. exact L.
      * apply nth_error_None in N. repeat split; auto. unfold ended. rewrite K. right. exists l0. rewrite C, F. repeat split; auto.
        rewrite L. now rewrite firstn_all2 by lia.
    + destruct G as (R & Lo & E). injection T as <-. cbn [at_ running calls latest locked]. auto.
Qed.

Lemma good_exec evs : forall s s' os, not_stopped evs -> good s -> exec k n out final s evs = Some (s', os) -> good s'.
Proof using Type.
  induction evs as [|e evs IH]; cbn [exec]; intros s s' os N G; [now intros [= <- <-]|].
  destruct (step k n out final s e) as [[s1 o]|] eqn:E; [|discriminate].
  destruct (exec k n out final s1 evs) as [[s2 os2]|] eqn:X; [|discriminate]. intros [= <- <-].
  eapply IH; [|eapply good_step; [|exact G|exact E]|exact X]; [intros H; apply N; now right|intros ->; apply N; now left].
Qed.

(** C212.  In every interleaving in which nobody calls stop: before start nothing was called and nothing changed; and if the thread is over,
    calls of the objective, published state and success are those of the undisturbed run - with the final writes, for the Bayesian optimizer.
    So polls and timing have no influence. *)
Theorem async_run : forall evs s os, not_stopped evs -> exec k n out final (fresh init) evs = Some (s, os) ->
  (at_ s = NotStarted -> running s = false /\ calls s = 0 /\ latest s = init /\ Forall (eq init) os) /\
  (forall ok, at_ s = Over ok ->
     let '(c, l, done) := undisturbed out n 0 init in
     calls s = c /\
     match k with
     | Trailing => ok = done /\ latest s = l
     | Leading => match done, final c with
                  | true, Some ws => ok = true /\ latest s = apply_all ws l
                  | _, _ => ok = false /\ latest s = l
                  end
     end).
Proof using Type.
  intros evs s os N X. assert (G0 : good (fresh init)) by (cbn; auto).
  pose proof (good_exec _ _ _ _ N G0 X) as G. split.
  - intros A. unfold good in G. rewrite A in G. destruct G as (R & C & L & _). repeat split; auto.
    (* a run that ends not started consists of polls *)
    clear R C L. revert X. generalize (eq_refl : at_ (@fresh Snap init) = NotStarted) (eq_refl : latest (fresh init) = init).
    generalize (fresh init). clear N G0. revert os.
    assert (St : forall s0 e s1 o, step k n out final s0 e = Some (s1, o) -> at_ s0 <> NotStarted -> at_ s1 <> NotStarted).
    { intros s0 [] s1 o; cbn [step].
      - destruct (at_ s0); try discriminate; congruence.
      - now intros [= <- <-].
      - destruct (locked s0); [discriminate|]. now intros [= <- <-].
      - unfold tstep. intros E Ns. destruct (at_ s0) as [|i|i|i|i|i j|b|b]; try (now destruct Ns); try discriminate.
        + destruct k; destruct (_ || _); injection E as <- <-; cbn; discriminate.
        + destruct (out i); [destruct k|]; injection E as <- <-; cbn; discriminate.
        + destruct (out i); [discriminate|]; injection E as <- <-; cbn; discriminate.
        + destruct (final i); injection E as <- <-; cbn; discriminate.
        + destruct (final i) as [ws|]; [|discriminate]. destruct (nth_error ws j); injection E as <- <-; cbn; discriminate.
        + injection E as <- <-; cbn; discriminate. }
    assert (St' : forall evs s0 s1 os, exec k n out final s0 evs = Some (s1, os) -> at_ s0 <> NotStarted -> at_ s1 <> NotStarted).
    { induction evs0 as [|e evs0 IH]; cbn [exec]; intros s0 s1 os; [now intros [= <- <-]|].
      destruct (step k n out final s0 e) as [[s2 o]|] eqn:E; [|discriminate]. destruct (exec k n out final s2 evs0) as [[s3 os3]|] eqn:X; [|discriminate].
      intros [= <- <-] Ns. eapply IH; [exact X|]. eapply St; eauto. }
    induction evs as [|e evs IH]; cbn [exec]; intros os s0 A0 L0; [now intros [= <- <-]|].
    destruct (step k n out final s0 e) as [[s1 o]|] eqn:E; [|discriminate].
    destruct (exec k n out final s1 evs) as [[s2 os2]|] eqn:X; [|discriminate]. intros [= -> <-].
    destruct e; cbn [step] in E.
    + rewrite A0 in E. injection E as <- <-. exfalso. revert A. apply (St' _ _ _ _ X). cbn. destruct k; [destruct (Nat.leb n 0)|]; discriminate.
    + injection E as <- <-. eapply IH; [| |exact X]; auto.
    + destruct (locked s0); [discriminate|]. injection E as <- <-. constructor; [congruence|]. eapply IH; [| |exact X]; auto.
    + unfold tstep in E. rewrite A0 in E. discriminate.
  - intros ok A. unfold good in G. rewrite A in G. destruct G as (_ & _ & E). unfold ended, target in E.
    destruct (undisturbed out n 0 init) as [[c l] d]. destruct k.
    + now injection E as <- <- <-.
    + destruct E as [[E Eo]|(l0 & E & Fi)]; inversion E; subst; [auto|]. split; [reflexivity|]. destruct (final (calls s)); exact Fi.
Qed.
End Inv.
Print Assumptions async_run.

(** four iterations allowed, the criterion of the optimizer holds after the second; once without polls and once with polls in between *)
Example async_run_ex :
  let out i := Value (10 + i) (Nat.eqb i 1) in
  let quick := [EStart] ++ repeat EThread 7 in
  let polled := [EPoll; EStart; EPoll; EThread; EPoll; EThread; EPoll; EThread; EThread; EPoll; EThread; EThread; EThread; EPoll] in
  (exists s s', exec Trailing 4 out (fun _ => None) (fresh 0) quick = Some (s, []) /\
     exec Trailing 4 out (fun _ => None) (fresh 0) polled = Some (s', [0; 0; 0; 10; 10; 11]) /\
     at_ s = Over true /\ s' = s /\ latest s = 11 /\ calls s = 2) /\
  undisturbed out 4 0 0 = (2, 11, true) /\
  (exists s, exec Leading 4 out (fun i => Some [Nat.add i; Nat.mul 2]) (fresh 0) ([EStart] ++ repeat EThread 12) = Some (s, []) /\
     at_ s = Over true /\ latest s = 26 /\ calls s = 2) /\
  not_stopped quick /\ not_stopped polled.
Proof.
  intros out quick polled. split; [|split; [reflexivity|split; [|split]]].
  - do 2 eexists. split; [vm_compute; reflexivity|]. split; [vm_compute; reflexivity|]. now vm_compute.
  - eexists. split; [vm_compute; reflexivity|]. now vm_compute.
  - unfold not_stopped, quick. cbn. intuition discriminate.
  - unfold not_stopped, polled. cbn. intuition discriminate.
Qed.
