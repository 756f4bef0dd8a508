(** Doubles and positive definite matrices. *)
From Coq Require Import Reals ZArith.
From Verif Require Import Spec.Sums.
Local Open Scope R_scope.

(** a finite double *)
Definition double (x : R) : Prop := exists m e : Z, x = IZR m * powerRZ 2 e /\ (Z.abs m < 2 ^ 53)%Z /\ (-1074 <= e)%Z.
Definition qform (n : nat) (A : nat -> nat -> R) (x : nat -> R) : R := rsum (fun i => rsum (fun j => x i * A i j * x j) n) n.
Definition pos_semidefinite (n : nat) (A : nat -> nat -> R) : Prop := forall x, 0 <= qform n A x.
Definition pos_definite (n : nat) (A : nat -> nat -> R) : Prop := forall x, (exists i, (i < n)%nat /\ x i <> 0) -> 0 < qform n A x.
