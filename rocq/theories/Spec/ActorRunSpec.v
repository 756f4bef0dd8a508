(** What a run of an optimizer does if nobody interferes: iterations in order, until one raises, the optimizer's own criterion holds, or all
    [n] are done.  Written without threads, flags or locks. *)
From Verif Require Import Model.Prelude Model.Actor.

Section Run.
Context {Snap : Type}.
Variable out : nat -> outcome Snap.

(** calls of the objective, last complete state, and whether nothing was raised; [i] iterations are done, [left] may follow *)
Fixpoint undisturbed (left i : nat) (last : Snap) : nat * Snap * bool :=
  match left with
  | O => (i, last, true)
  | S l => match out i with
           | Raise => (S i, last, false)
           | Value v true => (S i, v, true)
           | Value v false => undisturbed l (S i) v
           end
  end.
End Run.

(** nobody calls stop *)
Definition not_stopped (evs : list event) : Prop := ~ In EStop evs.
