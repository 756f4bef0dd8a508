(** Normal densities and the moments of a mixture of them. *)
From Coq Require Import Reals List.
Import ListNotations.
From Verif Require Import Spec.Sums.
Local Open Scope R_scope.

(** the density of the normal distribution with mean m and variance s *)
Definition gaussian (m s x : R) : R := exp (- ((x - m) ^ 2 / (2 * s))) / sqrt (2 * PI * s).
(** mean and variance of the mixture with weights w of distributions with means m and variances s *)
Definition mean_of_mixture (K : nat) (w m : nat -> R) : R := rsum (fun k => w k * m k) K.
Definition variance_of_mixture (K : nat) (w m s : nat -> R) : R :=
  rsum (fun k => w k * (s k + (m k - mean_of_mixture K w m) ^ 2)) K.
(** the noise of a component at station i: one value for every station, or a value for each *)
Definition noise_of (l : list R) (i : nat) : R := match l with [c] => c | _ => nth i l 0 end.
(** the variance of a new observation at station i, from the posterior variances v and the noise l; noise below 1e-9 counts as 1e-9 *)
Definition station_variance (v : nat -> nat -> R) (l : nat -> list R) (i k : nat) : R := Rmax (v i k) 0 + Rmax (noise_of (l k) i) (/ 10 ^ 9).
