(** Specification vocabulary for Cholesky factors. *)
From mathcomp Require Import all_ssreflect all_algebra.
Set Implicit Arguments.
Unset Strict Implicit.
Unset Printing Implicit Defensive.
Import GRing.Theory Num.Theory.
Local Open Scope ring_scope.

Section CholSpec.
Variable R : rcfType.
(** L stores a Cholesky factor of A in its lower triangle: the sum over the common lower columns
    reproduces A, and the diagonal is positive.  Entries above the diagonal are irrelevant. *)
Definition is_chol n (L A : 'M[R]_n) : Prop :=
  (forall i, 0 < L i i) /\
  (forall i j, A i j = \sum_(k < n | (k <= i)%N && (k <= j)%N) L i k * L j k).
Definition posdef n (A : 'M[R]_n) : Prop := forall x : 'cV[R]_n, x != 0 -> 0 < (x^T *m A *m x) 0 0.
Definition psd n (A : 'M[R]_n) : Prop := forall x : 'cV[R]_n, 0 <= (x^T *m A *m x) 0 0.
(** the leading n x n block of an array given by its entries *)
Definition lead (KV : nat -> nat -> R) (n : nat) : 'M[R]_n := \matrix_(i, j) KV i j.
End CholSpec.

(** a logarithm: turns products of nonzero numbers into sums *)
Definition log_like (F : fieldType) (G : zmodType) (lg : F -> G) : Prop :=
  forall a b : F, a != 0 -> b != 0 -> lg (a * b) = lg a + lg b.
