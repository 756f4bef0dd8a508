(** Specification of the distance between Gaussians by couplings. *)
From mathcomp Require Import all_ssreflect all_algebra.
From Verif Require Import Spec.CholSpec.
Set Implicit Arguments.
Unset Strict Implicit.
Unset Printing Implicit Defensive.
Import GRing.Theory Num.Theory.
Local Open Scope ring_scope.

Section W2Spec.
Variable R : rcfType.
(** np.linalg.eigh: orthonormal eigenvectors of a symmetric matrix *)
Definition eigh_contract n (eigh : 'M[R]_n -> 'rV[R]_n * 'M[R]_n) : Prop :=
  forall A, A^T = A -> (eigh A).2 *m (eigh A).2^T = 1%:M /\ A = (eigh A).2 *m diag_mx (eigh A).1 *m (eigh A).2^T.
(** a symmetric matrix all of whose variances x^T A x / x^T x are at least c *)
Definition at_least n (c : R) (A : 'M[R]_n) : Prop := A^T = A /\ forall x : 'cV[R]_n, c * (x^T *m x) 0 0 <= (x^T *m A *m x) 0 0.
(** C is the covariance of X and Y in a joint distribution with covariances A of X and B of Y *)
Definition coupling n (A B C : 'M[R]_n) : Prop := psd (block_mx A C C^T B).
(** the expected squared distance of X and Y in such a distribution *)
Definition expected_sq n (ma : 'cV[R]_n) (A : 'M[R]_n) (mb : 'cV[R]_n) (B C : 'M[R]_n) : R :=
  \sum_i (ma i 0 - mb i 0) ^+ 2 + \sum_i (A i i + B i i - 2%:R * C i i).
End W2Spec.
