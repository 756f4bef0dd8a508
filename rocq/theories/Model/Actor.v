(** gp_actor.py: the asynchronous optimizer actors as a transition system.

    Two threads share [running], [latest] and the lock: the caller (start, stop, get_latest) and the background
    thread.  A step is one statement that reads or writes shared state, or one call of the user's objective.
    Everything the optimizer computes is an oracle: [out i] is the outcome of iteration i.
    Simplifications: the objective always returns or raises; start is called at most once (the training wrappers
    358-371, 409-423, 461-473 of gp_training.py do so); dictionaries are values, except for the final writes of
    the Bayesian optimizer, which change the fresh dictionary key by key. *)
From Verif Require Import Model.Prelude.
Local Open Scope nat_scope.

(** which loop the thread runs: [Trailing] = MCMC and Adam (compute, publish, check the stop flag, 47-70 and
    114-133; gp_mcmc.py 153-164; gp_training.py 628-663); [Leading] = Bayesian optimization (check, compute,
    publish, gp_bo.py 633-711) with final writes and try/finally (175-203). *)
Inductive kind := Trailing | Leading.

Inductive outcome (Snap : Type) :=
| Raise                                   (* the objective raised *)
| Value (s : Snap) (own_stop : bool).     (* state to publish; the optimizer's own stopping criterion holds *)
Arguments Raise {Snap}. Arguments Value {Snap} s own_stop.

(** what the background thread does next *)
Inductive pc :=
| NotStarted | Check (i : nat) | Compute (i : nat) | Publish (i : nat)
| Finalize (i : nat)                (* after i iterations: compute the recommendation *)
| Write (i k : nat)                 (* inside the lock, k final writes done *)
| Exit (ok : bool)                  (* self._running = False; then the thread is over *)
| Over (ok : bool).                 (* thread over; [ok = false]: by an exception *)

Record state (Snap : Type) := State { running : bool; latest : Snap; locked : bool; at_ : pc; calls : nat (* objective calls so far *) }.
Arguments State {Snap}. Arguments running {Snap}. Arguments latest {Snap}. Arguments locked {Snap}. Arguments at_ {Snap}. Arguments calls {Snap}.

Inductive event := EStart | EStop | EPoll | EThread.

Section Actor.
Context {Snap : Type}.
Variables (k : kind) (n : nat) (out : nat -> outcome Snap) (final : nat -> option (list (Snap -> Snap))).

Definition own_stop (i : nat) : bool := match out i with Value _ b => b | Raise => false end.

(** the thread's next step; None: it is not running *)
Definition tstep (s : state Snap) : option (state Snap) :=
  let go p := Some (State (running s) (latest s) (locked s) p (calls s)) in
  match at_ s with
  | NotStarted | Over _ => None
  | Compute i =>
      match out i with
      | Raise => Some (State (running s) (latest s) (locked s)
                   (match k with Trailing => Over false | Leading => Exit false end) (calls s + 1))
      | Value _ _ => Some (State (running s) (latest s) (locked s) (Publish i) (calls s + 1))
      end
  | Publish i =>
      match out i with
      | Raise => None
      | Value v _ => Some (State (running s) v (locked s) (Check (i + 1)) (calls s))
      end
  | Check i => (* i iterations are done *)
      match k with
      | Trailing => if negb (running s) || own_stop (i - 1) || Nat.leb n i then go (Exit true) else go (Compute i)
      | Leading => if negb (running s) || (Nat.ltb 0 i && own_stop (i - 1)) || Nat.leb n i then go (Finalize i) else go (Compute i)
      end
  | Finalize i =>
      match final i with
      | None => go (Exit false)                                     (* the recommendation raised: finally 203 *)
      | Some _ => Some (State (running s) (latest s) true (Write i 0) (calls s))
      end
  | Write i j =>
      match final i with
      | None => None
      | Some ws =>
          match nth_error ws j with
          | Some w => Some (State (running s) (w (latest s)) true (Write i (j + 1)) (calls s))
          | None => Some (State (running s) (latest s) false (Exit true) (calls s))
          end
      end
  | Exit ok => Some (State false (latest s) (locked s) (Over ok) (calls s))
  end.

(** one event; the second component is what a poll returned.  A poll has to wait for the lock. *)
Definition step (s : state Snap) (e : event) : option (state Snap * option Snap) :=
  match e with
  | EStart => match at_ s with
              | NotStarted => Some (State true (latest s) (locked s)
                                (match k with Trailing => if Nat.leb n 0 then Exit true else Compute 0 | Leading => Check 0 end) (calls s), None)
              | _ => None
              end
  | EStop => Some (State false (latest s) (locked s) (at_ s) (calls s), None)
  | EPoll => if locked s then None else Some (s, Some (latest s))
  | EThread => match tstep s with Some s' => Some (s', None) | None => None end
  end.

(** an interleaving: final state and everything the polls returned, in order *)
Fixpoint exec (s : state Snap) (evs : list event) : option (state Snap * list Snap) :=
  match evs with
  | [] => Some (s, [])
  | e :: evs' =>
      match step s e with
      | None => None
      | Some (s', o) =>
          match exec s' evs' with
          | None => None
          | Some (s'', os) => Some (s'', match o with Some v => v :: os | None => os end)
          end
      end
  end.
End Actor.

Definition fresh {Snap} (init : Snap) : state Snap := State false init false NotStarted 0.

(** the dictionaries of _BOActor 150-151, 162-168 and its final writes 186-201 *)
Inductive status := Queued | Running | Finished.
Record bo_snap := BoSnap { b_x : nat; b_iteration : nat; b_objective : option Z; b_evals : nat; b_status : status; b_extra : bool }.
Definition bo_init (x0 : nat) : bo_snap := BoSnap x0 0 None 0 Queued false.
Definition bo_published (x : nat) (i : nat) (f : Z) (ne : nat) : bo_snap := BoSnap x i (Some f) ne Running false.
Definition bo_final (x : nat) (f : Z) (ne : nat) : list (bo_snap -> bo_snap) :=
  [ (fun s => BoSnap x (b_iteration s) (b_objective s) (b_evals s) (b_status s) (b_extra s));
    (fun s => BoSnap (b_x s) (b_iteration s) (Some f) (b_evals s) (b_status s) (b_extra s));
    (fun s => BoSnap (b_x s) (b_iteration s) (b_objective s) ne (b_status s) (b_extra s));
    (fun s => BoSnap (b_x s) (b_iteration s) (b_objective s) (b_evals s) Finished (b_extra s));
    (fun s => BoSnap (b_x s) (b_iteration s) (b_objective s) (b_evals s) (b_status s) true) ].
