(** Model of _block_conjugate_gradient, /repo/fvgp/gp_lin_alg.py 1024-1080, for at least two columns (a
    single column is handed to scipy's cg).  Exact arithmetic.  np.linalg.solve is a parameter that may
    fail (LinAlgError); the preconditioner is an arbitrary function. *)
From mathcomp Require Import all_ssreflect all_algebra.
Set Implicit Arguments.
Unset Strict Implicit.
Unset Printing Implicit Defensive.
Import Order.TTheory GRing.Theory Num.Theory.
Local Open Scope ring_scope.

Section BCG.
Variables (R : rcfType) (n k : nat).
Variable solve : 'M[R]_k -> 'M[R]_k -> option 'M[R]_k.
Variable precond : 'M[R]_(n, k) -> 'M[R]_(n, k).
Variables (KV : 'M[R]_n) (vec : 'M[R]_(n, k)) (tol : R).

(** np.linalg.norm(_, axis=0) *)
Definition col_norm (A : 'M[R]_(n, k)) (j : 'I_k) : R := Num.sqrt (\sum_i A i j ^+ 2).
(** 1041-1042 *)
Definition rhs_norm (j : 'I_k) : R := let v := col_norm vec j in if v == 0 then 1 else v.
(** np.max(rel_residual) <= cg_tol, 1043-1044 and 1064-1065 *)
Definition converged (res : 'M[R]_(n, k)) : bool := [forall j, col_norm res j / rhs_norm j <= tol].

(** the for loop 1054-1078: solution, carried residual, exit code *)
Fixpoint bcg_loop (fuel : nat) (X res P : 'M[R]_(n, k)) (G : 'M[R]_k) : 'M[R]_(n, k) * 'M[R]_(n, k) * nat :=
  if fuel is f.+1 then
    let AP := KV *m P in
    if solve (P^T *m AP) G is Some alpha then
      let X1 := X + P *m alpha in
      let res1 := res - AP *m alpha in
      if converged res1 then (X1, res1, 0%N) else
      let Z := precond res1 in
      let G1 := res1^T *m Z in
      if solve G G1 is Some beta then bcg_loop f X1 res1 (Z + P *m beta) G1
      else (X1, res1, 3%N)
    else (X, res, 2%N)
  else (X, res, 1%N).

Definition block_cg (x0 : option 'M[R]_(n, k)) (maxiter : option nat) : 'M[R]_(n, k) * 'M[R]_(n, k) * nat :=
  let X := if x0 is Some x then x else 0 in
  let res := vec - KV *m X in
  if converged res then (X, res, 0%N) else
  let Z := precond res in
  let iters := if maxiter is Some m then m else (10 * n)%N in
  bcg_loop (maxn iters 1) X res Z (res^T *m Z).
End BCG.
