(** What a poll of an asynchronous optimizer may return. *)
From Verif Require Import Model.Prelude Model.Actor.
Local Open Scope nat_scope.

(** the states a poll may see: the one after i iterations (i = 0: the initial one), and the final one of a run
    that ended after i iterations *)
Inductive stage := AfterIter (i : nat) | AtEnd (i : nat).
Definition earlier (a b : stage) : Prop :=
  match a, b with
  | AfterIter i, AfterIter j => i <= j
  | AfterIter i, AtEnd j => i <= j
  | AtEnd i, AtEnd j => i = j
  | AtEnd _, AfterIter _ => False
  end.

Section Stages.
Context {Snap : Type}.
Variables (out : nat -> outcome Snap) (final : nat -> option (list (Snap -> Snap))) (init : Snap).
Definition after (i : nat) : option Snap :=
  match i with O => Some init | S j => match out j with Value v _ => Some v | Raise => None end end.
Definition apply_all (ws : list (Snap -> Snap)) (v : Snap) : Snap := fold_left (fun a w => w a) ws v.
Definition value (st : stage) : option Snap :=
  match st with
  | AfterIter i => after i
  | AtEnd i => match after i, final i with Some v, Some ws => Some (apply_all ws v) | _, _ => None end
  end.

End Stages.
