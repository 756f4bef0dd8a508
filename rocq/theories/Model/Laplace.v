(** gp_bo.py _laplace_posterior 397-435: a Gaussian approximation from the curvature of the surrogate's mean.

    Numbers are elements of a real closed field (exact arithmetic, so the test for finite entries 429 always passes and the
    inverse of a matrix with positive eigenvalues does not raise 432-434).  [mean] stands for the posterior mean of the
    surrogate, [eigvalsh] for np.linalg.eigvalsh; points are columns. *)
From mathcomp Require Import all_ssreflect all_algebra.
Set Implicit Arguments.
Unset Strict Implicit.
Unset Printing Implicit Defensive.
Import GRing.Theory Num.Theory.
Local Open Scope ring_scope.

Section Laplace.
Variables (R : rcfType) (n : nat) (eigvalsh : 'M[R]_n -> 'rV[R]_n) (mean : 'cV[R]_n -> R).
(** 411 *)
Definition step : R := (1000%:R)^-1.
(** 413-415 *)
Definition neg_mean (u : 'cV[R]_n) : R := - mean u.
(** 420-421: a vector of zeros with one entry set *)
Definition unit_step (i : 'I_n) : 'cV[R]_n := \col_k (if k == i then step else 0).
(** 422-423 *)
Definition second_difference (u : 'cV[R]_n) (i j : 'I_n) : R :=
  let ei := unit_step i in let ej := unit_step j in
  (neg_mean (u + ei + ej) - neg_mean (u + ei - ej) - neg_mean (u - ei + ej) + neg_mean (u - ei - ej)) / (4%:R * step * step).
(** 417-424: the loops run over i <= j and set both entries *)
Definition hessian (u : 'cV[R]_n) : 'M[R]_n := \matrix_(i, j) if (i <= j)%N then second_difference u i j else second_difference u j i.
(** 426-435 *)
Definition laplace_posterior (u : 'cV[R]_n) (span : 'rV[R]_n) : option 'M[R]_n * 'M[R]_n :=
  let jac := diag_mx (map_mx (fun s => 1 / s) span) in
  let hess_w := jac *m hessian u *m jac in
  let hess_w := 2%:R^-1 *: (hess_w + hess_w^T) in
  if [exists k, eigvalsh hess_w 0 k <= 0] then (None, hess_w) else (Some (invmx hess_w), hess_w).
End Laplace.
