(** Properties C24 and C25: asynchronous optimizers. *)
From Coq Require Import Sorted.
From Verif Require Import Model.Prelude Model.Actor Spec.ActorSpec Proofs.ActorP.
Local Open Scope nat_scope.

(** C24: for every interleaving, the polls return complete states of the run (the initial one, the one after
    some iteration, or the final one), in the order of the run; and after a stop the objective is called at
    most once more. *)
Theorem poll_and_stop : forall {Snap} k n (out : nat -> outcome Snap) final init evs s os,
  exec k n out final (fresh init) evs = Some (s, os) ->
  (exists stages, Forall2 (fun o st => value out final init st = Some o) os stages /\ StronglySorted earlier stages) /\
  (forall more s' os', at_ s <> NotStarted -> exec k n out final s (EStop :: more) = Some (s', os') -> calls s' <= calls s + 1).
Proof.
  intros Snap k n out final init evs s os H. split.
  - destruct (exec_inv k n out final init evs _ _ _ _ (fresh_inv k n out final init) H) as (sts & st' & F & So & _ & _).
    exists sts. split; [exact F|]. now inversion So.
  - intros more s' os' Hn. cbn [exec step].
    destruct (exec _ _ _ _ _ more) as [[s2 os2]|] eqn:E; [|discriminate]. intros [= <- <-].
    apply stopped_exec in E; [|exact Hn|reflexivity]. unfold pending in E. cbn [at_ calls] in E. destruct (at_ s); lia.
Qed.
Print Assumptions poll_and_stop.

(** Bayesian optimization with three iterations, stopped while the second one is being computed *)
Example poll_and_stop_ex :
  let out i := Value (bo_published i i (Z.of_nat i) (i + 1)) false in
  let final i := match i with O => None | _ => Some (bo_final 7 99 i) end in
  option_map snd (exec Leading 3 out final (fresh (bo_init 5))
    ([EPoll; EStart; EThread; EThread; EPoll; EThread; EPoll; EThread; EStop; EThread; EThread; EPoll; EThread; EThread]
     ++ repeat EThread 6 ++ [EPoll; EThread]))
  = Some [bo_init 5; bo_init 5; bo_published 0 0 0 1; bo_published 1 1 1 2; BoSnap 7 1 (Some 99%Z) 2 Finished true] /\
  (* a poll between the final writes has to wait *)
  exec Leading 3 out final (fresh (bo_init 5)) ([EStart; EThread; EThread; EThread; EStop] ++ repeat EThread 4 ++ [EPoll]) = None.
Proof. vm_compute. auto. Qed.

(** C24, C25: what the polls of a Bayesian optimizer show.  A state that says queued is the initial one, a state that says running belongs to
    an iteration and has a value, a state that says finished has the recommendation with all its entries; and
    the status never goes back. *)
Definition rank (s : status) : nat := match s with Queued => 0 | Running => 1 | Finished => 2 end.
Theorem bo_status : forall n out final x0 evs s os,
  (forall i v b, out i = Value v b -> exists x f ne, v = bo_published x i f ne) ->
  (forall i ws, final i = Some ws -> exists x f ne, ws = bo_final x f ne) ->
  exec Leading n out final (fresh (bo_init x0)) evs = Some (s, os) ->
  Forall (fun o => match b_status o with
                   | Queued => b_x o = x0 /\ b_iteration o = 0 /\ b_objective o = None /\ b_evals o = 0 /\ b_extra o = false
                   | Running => exists b, out (b_iteration o) = Value o b
                   | Finished => b_extra o = true /\ exists i x f ne, final i = Some (bo_final x f ne) /\ b_x o = x /\ b_objective o = Some f /\ b_evals o = ne
                   end) os /\
  StronglySorted (fun a b => rank (b_status a) <= rank (b_status b)) os.
Proof.
  intros n out final x0 evs s os Ho Hf H. destruct (poll_and_stop Leading n out final (bo_init x0) evs s os H) as [(sts & F & So) _].
  set (r st := match st with AfterIter 0 => 0 | AfterIter (S _) => 1 | AtEnd _ => 2 end).
  assert (V : forall st o, value out final (bo_init x0) st = Some o -> rank (b_status o) = r st /\
     match b_status o with
     | Queued => b_x o = x0 /\ b_iteration o = 0 /\ b_objective o = None /\ b_evals o = 0 /\ b_extra o = false
     | Running => exists b, out (b_iteration o) = Value o b
     | Finished => b_extra o = true /\ exists i x f ne, final i = Some (bo_final x f ne) /\ b_x o = x /\ b_objective o = Some f /\ b_evals o = ne
     end).
  { intros [[|i]|i] o; cbn [value after].
    - intros [= <-]. cbn. auto 8.
    - destruct (out i) as [|v b] eqn:E; [discriminate|]. intros [= <-]. destruct (Ho _ _ _ E) as (x & f & ne & ->). cbn. split; [reflexivity|]. now exists b.
    - destruct (after out (bo_init x0) i) as [v|]; [|discriminate]. destruct (final i) as [ws|] eqn:E; [|discriminate]. intros [= <-].
      destruct (Hf _ _ E) as (x & f & ne & ->). cbn. split; [reflexivity|]. split; [reflexivity|]. exists i, x, f, ne. auto. }
  clear H. revert So. induction F as [|o st os sts Hv F IH]; intros So; [split; constructor|].
  inversion So as [|? ? So' Ha]; subst. destruct (IH So') as [IH1 IH2]. destruct (V _ _ Hv) as [R P]. split; constructor; auto.
  clear - F Ha V R. revert Ha. induction F as [|o' st' os sts Hv F IH]; intros Ha; constructor; inversion Ha as [|? ? Hb Ha']; subst; auto.
  destruct (V _ _ Hv) as [R' _]. rewrite R, R'. destruct st as [[|i]|i], st' as [[|j]|j]; cbn in *; lia.
Qed.
Print Assumptions bo_status.

(** C25: refuted.  An exception in the objective leaves the flag of MCMC and Adam set after the thread is gone. *)
Theorem terminal_status_refuted : exists evs s os,
  exec Trailing 3 (fun _ => @Raise nat) (fun _ => None) (fresh 0) evs = Some (s, os) /\
  at_ s = Over false /\ running s = true /\ tstep Trailing 3 (fun _ => @Raise nat) (fun _ => None) s = None.
Proof. exists [EStart; EThread]. do 2 eexists. split; [reflexivity|]. cbn. auto. Qed.
Print Assumptions terminal_status_refuted.

(** ... and Bayesian optimization keeps reporting "queued" for ever if it is stopped before its first evaluation
    (the recommendation then fails) or if the first evaluation raises, and "running" if a later one raises *)
Theorem terminal_status_bo_refuted :
  let ok i := Value (bo_published i i (Z.of_nat i) (i + 1)) false in
  let later i := match i with O => Value (bo_published 0 0 0 1) false | _ => Raise end in
  let final i := match i with O => None | _ => Some (bo_final 7 99 i) end in
  exists s1 s2 o1 o2 e1 e2,
    exec Leading 3 ok final (fresh (bo_init 5)) e1 = Some (s1, o1) /\ at_ s1 = Over false /\ latest s1 = bo_init 5 /\
    exec Leading 3 later final (fresh (bo_init 5)) e2 = Some (s2, o2) /\ at_ s2 = Over false /\ b_status (latest s2) = Running.
Proof.
  do 4 eexists. exists [EStart; EStop; EThread; EThread; EThread], [EStart; EThread; EThread; EThread; EThread; EThread; EThread].
  repeat split; reflexivity.
Qed.
Print Assumptions terminal_status_bo_refuted.

(** what holds: in every interleaving the thread makes a bounded number of steps; when it cannot make any more it
    is over; the running flag is then cleared unless an MCMC or Adam objective raised; the thread fails only
    if the objective or the recommendation raised; and a Bayesian optimizer that did not fail shows its
    final state *)
Theorem terminal_status_partial : forall {Snap} k n (out : nat -> outcome Snap) final init,
  exists bound, forall evs s os, exec k n out final (fresh init) evs = Some (s, os) ->
  length (filter is_thread evs) <= bound /\
  (tstep k n out final s = None -> at_ s <> NotStarted -> exists ok, at_ s = Over ok /\
     (ok = true \/ k = Leading -> running s = false) /\
     (ok = false -> (exists i, i < n /\ out i = Raise) \/ (k = Leading /\ exists i, i <= n /\ final i = None)) /\
     (ok = true -> k = Leading -> exists i, value out final init (AtEnd i) = Some (latest s))).
Proof.
  intros Snap k n out final init. exists (mu n final (fresh init)). intros evs s os H.
  pose proof (fresh_inv k n out final init) as I0. split.
  - pose proof (exec_mu k n out final init _ _ _ _ _ I0 H). lia.
  - intros Hs Hn. destruct (exec_inv k n out final init evs _ _ _ _ I0 H) as (_ & st & _ & _ & _ & I).
    destruct (stuck k n out final init _ _ I Hs) as [C|[ok Ho]]; [congruence|]. exists ok. split; [exact Ho|].
    unfold inv in I. rewrite Ho in I. destruct I as (H1 & H2 & H3 & H4 & _ & H5). split; [exact H5|]. split; [exact H3|].
    intros A B. destruct (H4 A B) as [i Hi]. exists i. now rewrite <- Hi.
Qed.
Print Assumptions terminal_status_partial.
Example terminal_status_ex : exists s os,
  exec Trailing 2 (fun i => Value (10 + i) false) (fun _ => None) (fresh 0) [EStart; EThread; EThread; EThread; EThread; EThread; EThread; EPoll; EThread] = Some (s, os) /\
  at_ s = Over true /\ running s = false /\ os = [11] /\ calls s = 2.
Proof. do 2 eexists. split; [reflexivity|]. cbn. auto. Qed.
