(** What Krylov methods need of a preconditioner, for any function on vectors. *)
From Coq Require Import Reals List.
Import ListNotations.
Local Open Scope R_scope.

Fixpoint inner (a b : list R) : R := match a, b with x :: a', y :: b' => x * y + inner a' b' | _, _ => 0 end.
Definition self_adjoint (n : nat) (f : list R -> list R) : Prop := forall a b, length a = n -> length b = n -> inner (f a) b = inner a (f b).
Definition positive (n : nat) (f : list R -> list R) : Prop := forall a, length a = n -> a <> repeat 0 n -> 0 < inner a (f a).
