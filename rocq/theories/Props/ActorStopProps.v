(** Property C213: a stopped asynchronous optimization ends as the run cut off after some number of iterations. *)
From Verif Require Import Model.Prelude Model.Actor Spec.ActorSpec Spec.ActorRunSpec.
Local Open Scope nat_scope.

Section Inv.
Context {Snap : Type}.
Variables (k : kind) (n : nat) (out : nat -> outcome Snap) (final : nat -> option (list (Snap -> Snap))) (init : Snap).
Let cut (m : nat) := undisturbed out m 0 init.

(** after [i] iterations the run is at [l] and would go on from there *)
Let reached (i : nat) (l : Snap) : Prop := forall r, cut (i + r) = undisturbed out r i l.
Let own (i : nat) : bool := Nat.ltb 0 i && match out (i - 1) with Value _ b => b | Raise => false end.

Let ended (c : nat) (l : Snap) (ok : bool) : Prop :=
  exists m, m <= n /\
  match k with
  | Trailing => cut m = (c, l, ok)
  | Leading =>
      (cut m = (c, l, false) /\ ok = false) \/
      (exists l0, cut m = (c, l0, true) /\ match final c with None => ok = false /\ l = l0 | Some ws => ok = true /\ l = apply_all ws l0 end)
  end.

Let good (s : state Snap) : Prop :=
  match at_ s with
  | NotStarted => calls s = 0 /\ latest s = init
  | Check i => calls s = i /\ i <= n /\ (k = Trailing -> 0 < i) /\ cut i = (i, latest s, true) /\ (own i = false -> reached i (latest s))
  | Compute i => calls s = i /\ i < n /\ reached i (latest s)
  | Publish i => calls s = S i /\ i < n /\ exists v b, out i = Value v b /\ cut (S i) = (S i, v, true) /\ (b = false -> reached (S i) v)
  | Finalize i => calls s = i /\ i <= n /\ k = Leading /\ cut i = (i, latest s, true)
  | Write i j => calls s = i /\ i <= n /\ k = Leading /\ exists ws l0, final i = Some ws /\ cut i = (i, l0, true) /\
                 j <= length ws /\ latest s = apply_all (firstn j ws) l0
  | Exit ok | Over ok => ended (calls s) (latest s) ok
  end.

Lemma firstn_next {A} (l : list A) j x : nth_error l j = Some x -> firstn (S j) l = firstn j l ++ [x].
Proof.
  revert j. induction l as [|a l IH]; intros [|j] H; try discriminate H; [now injection H as ->|].
  change (a :: firstn (S j) l = a :: (firstn j l ++ [x])). f_equal. now apply IH.
Qed.

Lemma cut_step i l : reached i l -> match out i with
  | Raise => cut (S i) = (S i, l, false)
  | Value v b => cut (S i) = (S i, v, true) /\ (b = false -> reached (S i) v)
  end.
Proof using Type.
  intros R. pose proof (R 1) as R1. rewrite Nat.add_1_r in R1. cbn [undisturbed] in R1. destruct (out i) as [|v [|]] eqn:O; auto; split; auto; try discriminate.
  intros _ r. replace (S i + r) with (i + S r) by lia. rewrite R. cbn [undisturbed]. now rewrite O.
Qed.

Lemma good_step s e s' o : good s -> step k n out final s e = Some (s', o) -> good s'.
Proof using Type.
  intros G. destruct e; cbn [step].
  - unfold good in *. destruct (at_ s) eqn:A; try discriminate. destruct G as (C & L). intros [= <- <-]. cbn [at_ calls latest].
    assert (R0 : reached 0 (latest s)) by (intros r; rewrite L; reflexivity).
    destruct k eqn:K.
    + destruct (Nat.leb_spec n 0) as [Z|P]; cbn [at_ calls latest]; [|auto].
      exists 0. rewrite C, L. split; [lia|reflexivity].
    + repeat split; auto; [lia|discriminate|]. unfold cut. cbn. now rewrite L.
  - intros [= <- <-]. unfold good in *. cbn [at_ calls latest]. exact G.
  - destruct (locked s); [discriminate|]. now intros [= <- <-].
  - destruct (tstep k n out final s) as [s2|] eqn:T; [|discriminate]. intros [= <- <-]. unfold tstep in T. unfold good in *.
    destruct (at_ s) as [|i|i|i|i|i j|ok|ok] eqn:A; try discriminate.
    + destruct G as (C & Hi & K0 & Cu & Re). destruct k eqn:K.
      * specialize (K0 eq_refl). unfold own_stop in T. unfold own in Re.
        assert (L0 : Nat.ltb 0 i = true) by now apply Nat.ltb_lt. rewrite L0 in Re. cbn [andb] in Re.
        destruct (negb (running s) || match out (i - 1) with Raise => false | Value _ b => b end || Nat.leb n i) eqn:B; injection T as <-; cbn [at_ calls latest].
        -- exists i. rewrite C. auto.
        -- apply orb_false_elim in B as [B1 B2]. apply orb_false_elim in B1 as [_ B1]. apply Nat.leb_gt in B2. auto.
      * unfold own_stop in T. unfold own in Re.
        destruct (negb (running s) || (Nat.ltb 0 i && match out (i - 1) with Raise => false | Value _ b => b end) || Nat.leb n i) eqn:B; injection T as <-; cbn [at_ calls latest].
        -- auto.
        -- apply orb_false_elim in B as [B1 B2]. apply orb_false_elim in B1 as [_ B1]. apply Nat.leb_gt in B2. auto.
    + destruct G as (C & Hi & Re). pose proof (cut_step _ _ Re) as St.
      destruct (out i) as [|v b] eqn:O; injection T as <-.
      * destruct k eqn:K; cbn [at_ calls latest]; exists (S i); rewrite C, Nat.add_1_r; auto.
      * cbn [at_ calls latest]. destruct St as [S1 S2]. split; [lia|]. split; [exact Hi|]. exists v, b. auto.
    + destruct G as (C & Hi & v & b & O & Cu & Re). rewrite O in T. injection T as <-. cbn [at_ calls latest].
      rewrite Nat.add_1_r. repeat split; auto; [lia|]. unfold own. cbn [Nat.ltb Nat.leb andb]. rewrite Nat.sub_succ, Nat.sub_0_r, O. exact Re.
    + destruct G as (C & Hi & K & Cu). destruct (final i) as [ws|] eqn:F; injection T as <-; cbn [at_ calls latest].
      * repeat split; auto. exists ws, (latest s). repeat split; auto. lia.
      * exists i. split; [exact Hi|]. rewrite K. right. exists (latest s). rewrite C, F. auto.
    + destruct G as (C & Hi & K & ws & l0 & F & Cu & Hj & L). rewrite F in T. destruct (nth_error ws j) as [w|] eqn:N; injection T as <-; cbn [at_ calls latest].
      * assert (Hl : j < length ws) by (apply nth_error_Some; congruence).
        repeat split; auto. exists ws, l0. repeat split; auto; [lia|]. rewrite Nat.add_1_r, (firstn_next _ _ _ N). unfold apply_all. rewrite fold_left_app. cbn. f_equal. exact L.
      * apply nth_error_None in N. exists i. split; [exact Hi|]. rewrite K. right. exists l0. rewrite C, F. repeat split; auto.
        rewrite L. now rewrite firstn_all2 by lia.
    + injection T as <-. cbn [at_ calls latest]. exact G.
Qed.

Lemma good_exec evs : forall s s' os, good s -> exec k n out final s evs = Some (s', os) -> good s'.
Proof using Type.
  induction evs as [|e evs IH]; cbn [exec]; intros s s' os G; [now intros [= <- <-]|].
  destruct (step k n out final s e) as [[s1 o]|] eqn:E; [|discriminate].
  destruct (exec k n out final s1 evs) as [[s2 os2]|] eqn:X; [|discriminate]. intros [= <- <-].
  eapply IH; [eapply good_step; [exact G|exact E]|exact X].
Qed.

(** C213.  Whatever the caller does and whenever, a thread that is over leaves what the undisturbed run leaves if it is cut off after some
    number [m] of iterations; for the Bayesian optimizer the final writes belong to the evaluations made.  In particular the thread fails
    only if an iteration up to there, or the recommendation, raised. *)
Theorem stopped_run : forall evs s os ok, exec k n out final (fresh init) evs = Some (s, os) -> at_ s = Over ok ->
  exists m, m <= n /\ (k = Trailing -> 0 < n -> 0 < m) /\
  let '(c, l, done) := undisturbed out m 0 init in
  calls s = c /\
  match k with
  | Trailing => ok = done /\ latest s = l
  | Leading => match done, final c with
               | true, Some ws => ok = true /\ latest s = apply_all ws l
               | _, _ => ok = false /\ latest s = l
               end
  end.
Proof using Type.
  intros evs s os ok X A. assert (G0 : good (fresh init)) by (cbn; auto).
  pose proof (good_exec _ _ _ _ G0 X) as G. unfold good in G. rewrite A in G. destruct G as (m & Hm & E). unfold cut in E.
  assert (P : k = Trailing -> 0 < n -> 0 < calls s).
  { (* the first iteration of MCMC and Adam runs before the flag is looked at *)
    intros K N. rewrite K in X. clear E G0.
    assert (W : forall evs s0 s1 os, match at_ s0 with NotStarted => True | Compute i => 0 < i \/ i = 0 | Finalize _ | Write _ _ => False | _ => 0 < calls s0 end ->
      exec Trailing n out final s0 evs = Some (s1, os) -> at_ s1 = Over ok -> 0 < calls s1).
    { clear evs X. induction evs as [|e evs IH]; cbn [exec]; intros s0 s1 os0 H0; [intros [= <- <-] A1; now rewrite A1 in H0|].
      destruct (step Trailing n out final s0 e) as [[s2 o]|] eqn:E; [|discriminate].
      destruct (exec Trailing n out final s2 evs) as [[s3 os3]|] eqn:X; [|discriminate]. intros [= <- <-]. eapply IH; [|exact X].
      destruct e; cbn [step] in E.
      - destruct (at_ s0); try discriminate. injection E as <- <-. cbn. destruct (Nat.leb_spec n 0); [lia|]. now right.
      - injection E as <- <-. cbn. exact H0.
      - destruct (locked s0); [discriminate|]. now injection E as <- <-.
      - unfold tstep in E. destruct (at_ s0) as [|i|i|i|i|i j|b|b]; try discriminate; try contradiction.
        + destruct (_ || _ || _); injection E as <- <-; cbn; [assumption|]. lia.
        + destruct (out i); injection E as <- <-; cbn; lia.
        + destruct (out i); [discriminate|]. injection E as <- <-. exact H0.
        + injection E as <- <-. exact H0. }
    now apply (W _ (fresh init) s os I X). }
  exists m. split; [exact Hm|]. split.
  - intros K N. specialize (P K N). destruct m; [|lia]. rewrite K in E. cbn in E. injection E as Ec _ _. lia.
  - destruct (undisturbed out m 0 init) as [[c l] d]. destruct k.
    + now inversion E.
    + destruct E as [[E Eo]|(l0 & E & Fi)]; inversion E; subst; [auto|]. split; [reflexivity|]. destruct (final (calls s)); exact Fi.
Qed.
End Inv.
Print Assumptions stopped_run.

(** Adam with four iterations, stopped while the second one is computed: the run of two iterations.  Bayesian optimization stopped while
    its first evaluation is computed: the writes for one evaluation.  A stop before start is forgotten. *)
Example stopped_run_ex :
  let out i := Value (10 + i) false in
  (exists s, exec Trailing 4 out (fun _ => None) (fresh 0) [EStart; EThread; EThread; EThread; EStop; EThread; EThread; EThread; EThread] = Some (s, []) /\
     at_ s = Over true /\ (calls s, latest s, true) = undisturbed out 2 0 0) /\
  (exists s, exec Leading 4 out (fun i => Some [Nat.add i; Nat.mul 2]) (fresh 0) ([EStart; EThread; EStop] ++ repeat EThread 8) = Some (s, []) /\
     at_ s = Over true /\ latest s = 22 /\ calls s = 1) /\
  (exists s, exec Trailing 2 out (fun _ => None) (fresh 0) ([EStop; EStart] ++ repeat EThread 7) = Some (s, []) /\
     at_ s = Over true /\ (calls s, latest s, true) = undisturbed out 2 0 0).
Proof.
  intros out. split; [|split].
  - eexists. split; [vm_compute; reflexivity|]. now vm_compute.
  - eexists. split; [vm_compute; reflexivity|]. now vm_compute.
  - eexists. split; [vm_compute; reflexivity|]. now vm_compute.
Qed.
