(** Predictions at single points of a joint Gaussian. *)
From Coq Require Import Reals List.
From mathcomp Require Import all_ssreflect all_algebra.
From Verif Require Import Spec.PosteriorSpec Proofs.RealMx.
Set Implicit Arguments.
Unset Strict Implicit.
Unset Printing Implicit Defensive.
Import GRing.Theory.
Local Open Scope ring_scope.

Section Spec.
Variables (X : Type) (kern : X -> X -> R) (m : X -> R) (n : nat) (x : 'I_n -> X) (A : 'M[R]_n) (y : 'cV[R]_n).
(** mean at z and covariance at z and w, given observations y at the points x with covariance A *)
Definition given_mean (z : X) : R := m z + \sum_i \sum_j kern z (x i) * invmx A i j * (y j 0 - m (x j)).
Definition given_cov (z w : X) : R := kern z w - \sum_i \sum_j kern z (x i) * invmx A i j * kern (x j) w.
End Spec.
