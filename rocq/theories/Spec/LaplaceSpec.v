(** What the Laplace approximation is judged by: quadratic objectives and their curvature, independent of the code. *)
From mathcomp Require Import all_ssreflect all_algebra.
Set Implicit Arguments.
Unset Strict Implicit.
Unset Printing Implicit Defensive.
Import GRing.Theory Num.Theory.
Local Open Scope ring_scope.

Section LaplaceSpec.
Variable R : rcfType.
(** c + b.u + u^T H u / 2 *)
Definition quad n (c : R) (b : 'cV[R]_n) (H : 'M[R]_n) (u : 'cV[R]_n) : R := c + (b^T *m u) 0 0 + 2%:R^-1 * (u^T *m H *m u) 0 0.
(** one entry of a column moved by t *)
Definition nudge n (u : 'cV[R]_n) (i : 'I_n) (t : R) : 'cV[R]_n := \col_k (u k 0 + (if k == i then t else 0)).
(** the point of the cube that belongs to a move d in the searched coordinates *)
Definition scaled_move n (u : 'cV[R]_n) (span : 'rV[R]_n) (d : 'cV[R]_n) : 'cV[R]_n := \col_k (u k 0 + d k 0 / span 0 k).
(** the eigenvalues of a symmetric matrix, each as often as it occurs *)
Definition eigenvalues_contract n (eigvalsh : 'M[R]_n -> 'rV[R]_n) : Prop :=
  forall A, A^T = A -> exists V : 'M[R]_n, V *m V^T = 1%:M /\ A = V *m diag_mx (eigvalsh A) *m V^T.
End LaplaceSpec.
