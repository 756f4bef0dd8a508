(** Repeated measurements and their averages. *)
From Coq Require Import Reals.
From mathcomp Require Import all_ssreflect all_algebra.
From Verif Require Import Proofs.RealMx Model.Observations.
Set Implicit Arguments.
Unset Strict Implicit.
Unset Printing Implicit Defensive.
Import GRing.Theory.
Local Open Scope ring_scope.

Section Repeat.
Variables (X : Type) (N n c : nat) (g : 'I_N -> 'I_n) (x : 'I_n -> X) (d : obs X N c).
(** measurement i was made at point g i of a list of points; each point was measured *)
Definition repeats : Prop := (forall i, o_x d i = x (g i)) /\ (forall a, exists i, g i = a).
(** the precision of all measurements at a point: the sum of 1/variance *)
Definition precision (a : 'I_n) : R := \sum_(i | g i == a) (o_nv d i 0)^-1.
(** one observation per point: the average weighted with 1/variance, its variance 1/precision *)
Definition averaged : obs X n c :=
  Obs x (\matrix_(a, j) ((\sum_(i | g i == a) o_y d i j / o_nv d i 0) / precision a)) (\col_a (precision a)^-1).
(** what the averages forget: how far the measurements at one point lie apart *)
Definition spread : R := \sum_i \sum_j (o_y d i j - o_y averaged (g i) j) ^+ 2 / o_nv d i 0.
End Repeat.
