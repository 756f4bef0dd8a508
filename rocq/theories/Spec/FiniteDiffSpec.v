(** Partial derivatives of functions of hyperparameter vectors. *)
From Coq Require Import Reals.
From Coquelicot Require Import Coquelicot.
Local Open Scope R_scope.

(** the vector h with component i replaced by x *)
Definition at_comp (h : nat -> R) (i : nat) (x : R) : nat -> R := fun j => if Nat.eqb j i then x else h j.
(** f restricted to component i *)
Definition slice (f : (nat -> R) -> R) (h : nat -> R) (i : nat) : R -> R := fun x => f (at_comp h i x).
(** f depends on the numbers in the vector only *)
Definition extensional (f : (nat -> R) -> R) : Prop := forall h h', (forall j, h j = h' j) -> f h = f h'.
(** d is the derivative of f in component i at h *)
Definition partial_at (f : (nat -> R) -> R) (h : nat -> R) (i : nat) (d : R) : Prop := is_derive (slice f h i) (h i) d.
(** three (two) derivatives on the closed interval of radius e, the last one bounded by M *)
Definition smooth3 (f : R -> R) (x e M : R) (d1 : R) : Prop :=
  exists f1 f2 f3 : R -> R, f1 x = d1 /\
    forall t : R, Rabs (t - x) <= e -> is_derive f t (f1 t) /\ is_derive f1 t (f2 t) /\ is_derive f2 t (f3 t) /\ Rabs (f3 t) <= M.
Definition smooth2 (f : R -> R) (x e M : R) (d1 : R) : Prop :=
  exists f1 f2 : R -> R, f1 x = d1 /\
    forall t : R, Rabs (t - x) <= e -> is_derive f t (f1 t) /\ is_derive f1 t (f2 t) /\ Rabs (f2 t) <= M.
