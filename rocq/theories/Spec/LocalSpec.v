(** Observations that have nothing to do with each other, and what a point has been measured with. *)
From Coq Require Import Reals.
From mathcomp Require Import all_ssreflect all_algebra.
From Verif Require Import Proofs.RealMx Model.Likelihood Model.Posterior Model.Observations.
Set Implicit Arguments.
Unset Strict Implicit.
Unset Printing Implicit Defensive.
Import GRing.Theory.
Local Open Scope ring_scope.

(** the kernel relates no point of the one list to a point of the other *)
Definition apart X (kern : X -> X -> R) n p (x : 'I_n -> X) (z : 'I_p -> X) : Prop := forall i j, kern (x i) (z j) = 0.
(** the sum of 1/variance over a selection of the observations *)
Definition measured_precision X (nk : noise_arg X) n c (d : obs X n c) (P : pred 'I_n) : R := \sum_(i | P i) (noise_mx (V nk d) i i)^-1.
