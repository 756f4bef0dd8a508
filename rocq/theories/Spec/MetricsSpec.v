(** The normal distribution and the continuous ranked probability score. *)
From Coq Require Import Reals.
From Coquelicot Require Import Coquelicot.
Local Open Scope R_scope.
(** the distribution function of the standard normal distribution: its density, and its limits *)
Definition normal_pdf (z : R) : R := exp (- z ^ 2 / 2) / sqrt (2 * PI).
Definition normal_cdf (Phi : R -> R) : Prop :=
  (forall z, derivable_pt_lim Phi z (normal_pdf z)) /\
  (forall eps, 0 < eps -> exists B, forall z, z < - B -> Rabs (Phi z) < eps) /\
  (forall eps, 0 < eps -> exists B, forall z, B < z -> Rabs (Phi z - 1) < eps).
Definition quantile (Phi ppf : R -> R) : Prop := forall p, 0 < p < 1 -> Phi (ppf p) = p.
(** the score of the distribution function F for the outcome x: the integral of (F - indicator of [x, oo))^2 *)
Definition crps_of (F : R -> R) (x s : R) : Prop :=
  forall eps, 0 < eps -> exists B, forall a b, a < - B -> B < b -> a < x < b ->
    Rabs (RInt (fun y => F y ^ 2) a x + RInt (fun y => (1 - F y) ^ 2) x b - s) < eps.
