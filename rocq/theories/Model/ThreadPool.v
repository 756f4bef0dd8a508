(** Training the components in threads that share NumPy's generator: ggmp.py train_component_gps_mcmc 2197-2289
    (ThreadPoolExecutor, as_completed), with the draws of gp_mcmc.py 214, 339 and gp.py 1026, 1034 (np.random).

    Simplifications: a training is a program that ends with hyperparameters or an exception and in between draws numbers from
    the generator; one draw is one step (NumPy locks the generator), everything else a thread does is its own (its GP); the
    generator is a stream and the number of draws made.  The pool starts tasks in the order of submission as soon as a worker
    is free, the scheduler picks any running thread.  Gathering the results is train_components of Model/GGMPTrain.v.
    No proofs here. *)
From Coq Require Import Permutation.
From Verif Require Import Model.Prelude Model.GGMPTrain.

Section Pool.
Context {E V U : Type}.
(** _train_one_gp as seen by the generator *)
Inductive prog := Ret (r : res E V) | Draw (next : U -> prog).
Variable s : nat -> U.
(** run by itself when [pos] numbers have been drawn: what it ends with, and the draws made by then *)
Fixpoint alone (p : prog) (pos : nat) : res E V * nat :=
  match p with Ret r => (r, pos) | Draw f => alone (f (s pos)) (S pos) end.
(** 2281-2283: one after the other *)
Fixpoint in_turn (ps : list prog) (pos : nat) : res E (list V) :=
  match ps with
  | [] => Ok []
  | p :: r => match alone p pos with
              | (Err e, _) => Err e
              | (Ok v, pos') => match in_turn r pos' with Err e => Err e | Ok vs => Ok (v :: vs) end
              end
  end.

(** 2271-2272: the tasks waiting and running, who made each draw (the last first), what has ended (the last first) *)
Record pool := Pool { queue : list (nat * prog); running : list (nat * prog); drawn : list nat; finished : list (nat * res E V) }.
Definition submitted (ps : list prog) : pool := Pool (combine (seq 0 (length ps)) ps) [] [] [].
Inductive step (W : nat) : pool -> pool -> Prop :=
| Start : forall t q r d f, (length r < W)%nat -> step W (Pool (t :: q) r d f) (Pool q (r ++ [t]) d f)
| Number : forall q a k g b d f, step W (Pool q (a ++ (k, Draw g) :: b) d f) (Pool q (a ++ (k, g (s (length d))) :: b) (k :: d) f)
| End : forall q a k o b d f, step W (Pool q (a ++ (k, Ret o) :: b) d f) (Pool q (a ++ b) d ((k, o) :: f)).
Inductive steps (W : nat) : pool -> pool -> Prop :=
| Stay : forall st, steps W st st
| Go : forall st st' st'', step W st st' -> steps W st' st'' -> steps W st st''.
Definition over (st : pool) : Prop := queue st = [] /\ running st = [].
(** gp_parallel=True with W workers may end with [r] *)
Definition in_threads (W : nat) (ps : list prog) (r : res E (option (list V))) : Prop :=
  exists st order one, steps W (submitted ps) st /\ over st /\ Permutation order (seq 0 (length ps)) /\
    (forall k, (k < length ps)%nat -> lookup k (finished st) = Some (one k)) /\
    train_components one true (length ps) order = r.
End Pool.
Arguments prog : clear implicits.
Arguments pool : clear implicits.
