(** Regression of the means of the stations. *)
From Coq Require Import Reals List.
From mathcomp Require Import all_ssreflect all_algebra.
From Verif Require Import Model.GGMPDensity Spec.MultiGPSpec Proofs.RealMx.
Set Implicit Arguments.
Unset Strict Implicit.
Unset Printing Implicit Defensive.
Import GRing.Theory.
Local Open Scope ring_scope.

Section Spec.
Variables (P : Type) (p0 : P) (kh : P -> P -> R) (x : list P) (base vars : list R).
(** values [base] observed at [x] with variances [vars]: mean and variance at z of a Gaussian process with covariance kh and mean function m *)
Definition reg_cov : 'M[R]_(length x) :=
  \matrix_(i, j) (kh (List.nth i x p0) (List.nth j x p0) + (if i == j then List.nth i vars R0 else R0)).
Definition reg_mean (m : P -> R) (z : P) : R :=
  given_mean kh m (fun i : 'I_(length x) => List.nth i x p0) reg_cov (\col_i List.nth i base R0) z.
Definition reg_var (z : P) : R := given_cov kh (fun i : 'I_(length x) => List.nth i x p0) reg_cov z z.
Definition average (l : list R) : R := (lsum l / INR (length l))%coqR.
End Spec.
