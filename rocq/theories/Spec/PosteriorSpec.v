(** Vocabulary for predictions: covariance matrices of points, noise, derivatives along moves of the points. *)
From Coq Require Import Reals.
From mathcomp Require Import all_ssreflect all_algebra.
From Verif Require Import Proofs.RealMx Spec.CholSpec Spec.KernelSpec Spec.LikelihoodSpec.
Set Implicit Arguments.
Unset Strict Implicit.
Unset Printing Implicit Defensive.
Import GRing.Theory.
Local Open Scope ring_scope.
(** the matrix of covariances of two families of points *)
Definition gram X (k : X -> X -> R) m n (x : 'I_m -> X) (x' : 'I_n -> X) : 'M[R]_(m, n) := \matrix_(i, j) k (x i) (x' j).
Definition mean_vec X (m : X -> R) n (x : 'I_n -> X) : 'cV[R]_n := \col_i m (x i).
(** the log density of a Gaussian *)
Definition log_gauss n (y m : 'cV[R]_n) (S : 'M[R]_n) : R := (- neg_log_gauss y m S)%R.
