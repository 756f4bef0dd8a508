(** Model of the dense factorization updates of /repo/fvgp/gp_lin_alg.py: cholesky_update_rank_1_numpy
    (1351-1382), cholesky_update_rank_n (1466-1477), update_Chol_factor (272-286), update_inv
    (1567-1578), update_logdet (1522-1531), calculate_Chol_solve (289-328), calculate_inv_from_chol
    (1558-1564), calculate_Chol_logdet (331-360).  No proofs here.

    Numbers are elements of a real closed field (exact arithmetic; np.sqrt is the exact root).
    CPU branches only: the GPU branches call other libraries for the same formulae.
    scipy's solve_triangular(L, b, lower=True) and cho_solve((L, True), b) read the lower triangle of L
    only; they are modelled by the inverse of that triangle.  This matters because cho_factor leaves
    unspecified values above the diagonal (calculate_Chol_factor, 245). *)
From mathcomp Require Import all_ssreflect all_algebra.
Set Implicit Arguments.
Unset Strict Implicit.
Unset Printing Implicit Defensive.
Import GRing.Theory Num.Theory.
Local Open Scope ring_scope.

Section Chol.
Variable R : rcfType.

(** the lower triangle of a matrix, which is all that scipy's lower=True routines read *)
Definition tril n (L : 'M[R]_n) : 'M[R]_n := \matrix_(i, j) (if (j <= i)%N then L i j else 0).

(** solve_triangular(L, b, lower=True) *)
Definition solve_triangular n m (L : 'M[R]_n) (b : 'M[R]_(n, m)) : 'M[R]_(n, m) := invmx (tril L) *m b.

(** gp_lin_alg.py 1351-1382; None is NonPositiveDefiniteError (1372-1373) *)
Definition rank_1 n (L : 'M[R]_n) (b : 'cV[R]_n) (c : R) : option 'M[R]_(n + 1) :=
  let v := solve_triangular L b in
  let disc := c - (v^T *m v) 0 0 in
  if disc <= 0 then None
  else Some (block_mx L 0 v^T (Num.sqrt disc)%:M).

(** size of the factor after i rank-1 steps *)
Fixpoint dim (n i : nat) : nat := if i is i'.+1 then (dim n i' + 1)%N else n.

(** np.append(b[:, i], c[0:i, i]) with b = k.T, k = KV[size:, 0:size], c = kk = KV[size:, size:]
    (1469-1476, 282-286); the array KV is given by its entries. *)
Definition new_col (n : nat) (KV : nat -> nat -> R) (i : nat) : 'cV[R]_(dim n i) :=
  \col_(r < dim n i) (if (r < n)%N then KV (n + i)%N r else KV (n + (r - n))%N (n + i)%N).

(** the loop of cholesky_update_rank_n called by update_Chol_factor *)
Fixpoint update_chol (n : nat) (L : 'M[R]_n) (KV : nat -> nat -> R) (p : nat) : option 'M[R]_(dim n p) :=
  match p as p0 return option 'M[R]_(dim n p0) with
  | 0 => Some L
  | q.+1 => match update_chol L KV q with
            | None => None
            | Some L' => rank_1 L' (new_col n KV q) (KV (n + q)%N (n + q)%N)
            end
  end.

(** cho_solve((L, True), b): two triangular solves with the lower triangle *)
Definition chol_solve n m (L : 'M[R]_n) (b : 'M[R]_(n, m)) : 'M[R]_(n, m) :=
  invmx (tril L)^T *m (invmx (tril L) *m b).
(** 1558-1564 *)
Definition inv_from_chol n (L : 'M[R]_n) : 'M[R]_n := chol_solve L 1%:M.

(** 331-336, with [lg] standing for np.log of the absolute value *)
Definition chol_logdet (G : zmodType) (lg : R -> G) n (L : 'M[R]_n) : G :=
  (\sum_(i < n) lg `|L i i|) *+ 2.
End Chol.

Section Inv.
Variable F : fieldType.

(** update_inv, 1567-1578: KV is given by its blocks [[_, _], [k, kk]] (only these two are read) *)
Definition update_inv n p (old : 'M[F]_n) (k : 'M[F]_(p, n)) (kk : 'M[F]_p) : 'M[F]_(n + p) :=
  let X := invmx (kk - k *m old *m k^T) in
  let Fm := - old *m k^T *m X in
  block_mx (old + old *m k^T *m X *m k *m old) Fm Fm^T X.

(** update_logdet, 1522-1531; [lg] is np.log of the absolute value (slogdet) *)
Definition update_logdet (G : zmodType) (lg : F -> G) n p (old_logdet : G)
  (old : 'M[F]_n) (k : 'M[F]_(p, n)) (kk : 'M[F]_p) : G :=
  old_logdet + lg (\det (kk - k *m old *m k^T)).
End Inv.
