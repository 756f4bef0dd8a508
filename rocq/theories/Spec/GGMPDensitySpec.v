(** What the numerical helpers of the GGMP are to compute. *)
From Coq Require Import Reals Lra.
From Verif Require Import Model.Prelude Spec.Sums Model.GGMPDensity.
Local Open Scope R_scope.

(** log likelihood of the mixture with weights w: sum over grid points or samples of a * log(sum over k of w_k exp(log density)) *)
Definition loglik (K : nat) (ts : list station) (w : nat -> R) : R :=
  rowsum (fun x => fst x * ln (rsum (fun k => w k * exp (snd x k)) K)) ts.
Definition total (ts : list station) : R := rowsum fst ts.
Definition simplex (K : nat) (w : nat -> R) : Prop := (forall k, (k < K)%nat -> 0 < w k) /\ rsum w K = 1.
(** how far two weight vectors are apart, added over the components *)
Definition moved (K : nat) (w w' : nat -> R) : R := rsum (fun k => Rmax (w k) (w' k) - Rmin (w k) (w' k)) K.
Definition weighted (ts : list station) : Prop := forall t x, In t ts -> In x t -> 0 <= fst x.
(** the textbook update: average posterior probability of the component *)
Definition em_update (K : nat) (ts : list station) (w : nat -> R) (k : nat) : R :=
  rowsum (fun x => fst x * (w k * exp (snd x k) / rsum (fun j => w j * exp (snd x j)) K)) ts / total ts.

(** moments of a mixture of distributions with means m and variances v *)
Definition mixture_mean (K : nat) (w m : nat -> R) : R := rsum (fun k => w k * m k) K.
Definition mixture_second (K : nat) (w m v : nat -> R) : R := rsum (fun k => w k * (v k + m k * m k)) K.
