(** When a data point tells two points apart. *)
From Coq Require Import Reals.
From Verif Require Import Spec.Sums.
Local Open Scope R_scope.

(** the squared Euclidean distance *)
Definition sq_apart (D : nat) (x c : nat -> R) : R := rsum (fun i => (x i - c i) * (x i - c i)) D.
(** [c] is closer than [r] to one of the points, and not equally far from both *)
Definition tells_apart (D : nat) (r : R) (c x y : nat -> R) : Prop :=
  sq_apart D x c <> sq_apart D y c /\ (sq_apart D x c < r * r \/ sq_apart D y c < r * r).
