(** Graph distance, independent of the traversal code. *)
From Coq Require Import QArith Sorted Permutation.
From Verif Require Import Model.Prelude.
Local Open Scope nat_scope.

(** [walk nbrs j u v]: v is reached from u by j steps along nonzero entries *)
Inductive walk (nbrs : nat -> list nat) : nat -> nat -> nat -> Prop :=
| walk0 u : walk nbrs 0 u u
| walkS j u v w : walk nbrs j u v -> In w (nbrs v) -> walk nbrs (S j) u w.

(** every entry is a valid index *)
Definition in_range (n : nat) (nbrs : nat -> list nat) : Prop := forall u v, u < n -> In v (nbrs u) -> v < n.
