(** gp_posterior.py: the arrangement of multi-task predictions: cartesian_product 586-606 and the reshapes of
    posterior_mean 161, posterior_mean_grad 211 and 222, posterior_covariance 264-274, posterior_covariance_grad 309-311
    and 328.

    An array is a function of the list of its indices, given together with its shape; only indices below the shape
    are meaningful.  Simplifications: the values are of any type; the squeezing of arrays with one column is left out. *)
From Coq Require Import List Arith.
Import ListNotations.

(** 586-606: for every task, all points *)
Definition cartesian_product {X Y} (x : list X) (y : list Y) : list (X * Y) :=
  flat_map (fun yj => map (fun xi => (xi, yj)) x) y.

(** numpy.reshape(..., order='F'): the elements are read and written with the first index running fastest *)
Fixpoint flatF (shape idx : list nat) : nat :=
  match shape, idx with d :: ds, i :: is => i + d * flatF ds is | _, _ => 0 end.
Fixpoint unflatF (shape : list nat) (k : nat) : list nat :=
  match shape with [] => [] | d :: ds => k mod d :: unflatF ds (k / d) end.
Definition array A := list nat -> A.
Definition reshapeF {A} (shape shape' : list nat) (a : array A) : array A := fun idx => a (unflatF shape (flatF shape' idx)).
(** a.transpose(0, 2, 1, 3) *)
Definition transpose0213 {A} (a : array A) : array A :=
  fun idx => match idx with [i; j; t; u] => a [i; t; j; u] | _ => a idx end.

Section Arrays.
Context {A : Type} (P T : nat).
(** 161 *)
Definition mean_re (flat : array A) : array A := reshapeF [P * T; 1] [P; T] flat.
(** 211, 264, 310 *)
Definition vec_re (flat : array A) : array A := reshapeF [P * T] [P; T] flat.
(** 273-274 *)
Definition cov_re (S : array A) : array A := transpose0213 (reshapeF [P * T; P * T] [P; T; P; T] S).
(** 222, 328: one column per input dimension *)
Definition grad_re (D : nat) (g : array A) : array A := reshapeF [P * T; D] [P; D; T] g.
(** 311 *)
Definition cov_grad_re (S : array A) : array A := reshapeF [P * T; P * T] [P; P; T; T] S.
End Arrays.
