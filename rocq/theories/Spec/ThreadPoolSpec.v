(** What a training in a pool of threads ought to come to. *)
From Coq Require Import List Arith.
From Verif Require Import Model.Prelude Model.ThreadPool.
Import ListNotations.

(** the numbers task k received, in the order of its draws; [d]: who made each draw, the last first *)
Fixpoint received {U} (s : nat -> U) (k : nat) (d : list nat) : list U :=
  match d with [] => [] | j :: d' => received s k d' ++ (if j =? k then [s (length d')] else []) end.
(** given exactly these numbers the program ends with r *)
Fixpoint ends {E V U} (p : prog E V U) (l : list U) (r : res E V) : Prop :=
  match p, l with
  | Ret o, [] => o = r
  | Draw f, u :: l' => ends (f u) l' r
  | _, _ => False
  end.
(** whatever numbers it gets, the same outcome *)
Definition not_random {E V U} (p : prog E V U) : Prop := forall l l' r r', ends p l r -> ends p l' r' -> r = r'.
