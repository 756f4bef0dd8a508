(** Distance of an approximate inverse from the inverse. *)
From mathcomp Require Import all_ssreflect all_algebra.
Set Implicit Arguments.
Unset Strict Implicit.
Unset Printing Implicit Defensive.
Import GRing.Theory Num.Theory.
Local Open Scope ring_scope.

Section S.
Variables (R : realFieldType) (n : nat).
(** squared Frobenius norm *)
Definition sqnorm (X : 'M[R]_n) : R := \sum_i \sum_j X i j ^+ 2.
(** squared residual of the equation A M = I *)
Definition residual (A M : 'M[R]_n) : R := sqnorm (A *m M - 1%:M).
Definition qform (A : 'M[R]_n) (x : 'cV[R]_n) : R := \sum_i \sum_j x i 0 * A i j * x j 0.
Definition sqlen (x : 'cV[R]_n) : R := \sum_i x i 0 ^+ 2.
(** c |x|^2 <= x^T A x and |A x|^2 <= C |x|^2 *)
Definition well_posed (A : 'M[R]_n) (c C : R) : Prop :=
  0 < c /\ (forall x, c * sqlen x <= qform A x) /\ (forall x, sqlen (A *m x) <= C * sqlen x).
End S.
