(** gp_lin_alg.py: spai 363-383, the sparse approximate inverse.

    Simplifications: exact arithmetic in a real field; a sparse matrix is its entries; [est] is what onenormest(A A^T) returned,
    a positive number.  The quotient 0/0 of line 380 is NaN; scaling a matrix by it leaves an empty matrix empty and makes
    the result useless ([None]) otherwise: scipy's difference of two matrices stores no zeros. *)
From mathcomp Require Import all_ssreflect all_algebra.
Set Implicit Arguments.
Unset Strict Implicit.
Unset Printing Implicit Defensive.
Import GRing.Theory Num.Theory.
Local Open Scope ring_scope.

Section Spai.
Variables (R : realFieldType) (n : nat).
Implicit Types A M G : 'M[R]_n.
(** 377-379 *)
Definition gap A M : 'M[R]_n := 1%:M - A *m M.
(** (G.T @ AG).diagonal().sum(); also the squared norm of the entries *)
Definition dot (X Y : 'M[R]_n) : R := \tr (X^T *m Y).
(** one pass of the loop 376-380 *)
Definition spai_step A M : option 'M[R]_n :=
  let G := gap A M in
  let AG := A *m G in
  let d := dot AG AG in
  if d == 0 then (if G == 0 then Some M else None) else Some (M + (dot G AG / d) *: G).
Fixpoint spai_loop A (m : nat) M : option 'M[R]_n :=
  if m is m'.+1 then (if spai_step A M is Some M' then spai_loop A m' M' else None) else Some M.
Definition spai_start A (est : R) : 'M[R]_n := (2%:R / est) *: A.
Definition spai A (est : R) (m : nat) : option 'M[R]_n := spai_loop A m (spai_start A est).
End Spai.
