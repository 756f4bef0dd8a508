(** Model of the native preconditioners of /repo/fvgp/gp_lin_alg.py as operators: the incomplete
    Cholesky factorization (_build_ic0_factor 655-756), the blockwise operator
    (_build_blockwise_operator 591-601).  No proofs here.
    Exact arithmetic in a real closed field.  Block selection and the shift loop are in Precond.v. *)
From mathcomp Require Import all_ssreflect all_algebra.
Set Implicit Arguments.
Unset Strict Implicit.
Unset Printing Implicit Defensive.
Import Order.TTheory GRing.Theory Num.Theory.
Local Open Scope ring_scope.

Section IC0.
Variable R : rcfType.

(** a python dict with integer keys, in insertion order *)
Definition pdict := seq (nat * R).
Fixpoint pget (d : pdict) (k : nat) : R := if d is (k', v) :: r then (if k' == k then v else pget r k) else 0.
Fixpoint pput (d : pdict) (k : nat) (v : R) : pdict :=
  if d is (k', v') :: r then (if k' == k then (k, v) :: r else (k', v') :: pput r k v) else [:: (k, v)].
Definition pkeys (d : pdict) : seq nat := [seq p.1 | p <- d].

(** one row of sparse.tril(A + shift I) in CSR form, 677-690 *)
Fixpoint scan (i : nat) (row : seq (nat * R)) (orig : pdict) (dv : option R) : pdict * option R :=
  match row with
  | [::] => (orig, dv)
  | (c, v) :: r => if (c < i)%N then scan i r (pput orig c v) dv
                   else if c == i then scan i r orig (Some v) else scan i r orig dv
  end.

(** 699-708: the shorter dict is iterated *)
Definition coupling (comp rowj : pdict) : R :=
  if (size comp < size rowj)%N then \sum_(p <- comp) p.2 * pget rowj p.1
  else \sum_(p <- rowj) pget comp p.1 * p.2.

(** 696-708 *)
Fixpoint eliminate (js : seq nat) (orig : pdict) (rows : seq pdict) (diag : seq R) (comp : pdict) : pdict :=
  match js with
  | [::] => comp
  | j :: r => eliminate r orig rows diag
                (pput comp j ((pget orig j - coupling comp (nth [::] rows j)) / nth 0 diag j))
  end.

(** 677-714; None: a missing diagonal or a non-positive pivot was raised *)
Definition ic_row (i : nat) (row : seq (nat * R)) (rows : seq pdict) (diag : seq R) : option (pdict * R) :=
  let: (orig, dv) := scan i row [::] None in
  if dv is Some d then
    let comp := eliminate (sort leq (pkeys orig)) orig rows diag [::] in
    let s := d - \sum_(p <- comp) p.2 * p.2 in
    if s <= 0 then None else Some (comp, Num.sqrt s)
  else None.
Fixpoint ic0 (n : nat) (lower : nat -> seq (nat * R)) : option (seq pdict * seq R) :=
  if n is m.+1 then
    if ic0 m lower is Some (rows, diag) then
      if ic_row m (lower m) rows diag is Some (c, d) then Some (rcons rows c, rcons diag d) else None
    else None
  else Some ([::], [::]).

(** the csr matrix L assembled in 717-735 *)
Definition ic_matrix n (f : seq pdict * seq R) : 'M[R]_n :=
  \matrix_(i, j) (pget (nth [::] f.1 i) j + (if i == j :> nat then nth 0 f.2 i else 0)).

(** solve, 739-742; spsolve_triangular is exact *)
Definition ic_apply n (L : 'M[R]_n) (v : 'cV[R]_n) : 'cV[R]_n := invmx L^T *m (invmx L *m v).
End IC0.

Section Blockwise.
Variables (R : rcfType) (n : nat).
(** an entry of local_models: its indices and the matrix behind its factor (the local block plus the
    shift); cho_solve((c, lower), b) is the exact solution *)
Record local := Local { lk : nat; lidx : 'I_lk -> 'I_n; lmat : 'M[R]_lk }.

(** result[indices] += sol (indices are distinct in every model, see C17; for repeated indices numpy
    would keep the last contribution only) *)
Definition scatter k (idx : 'I_k -> 'I_n) (res : 'cV[R]_n) (sol : 'cV[R]_k) : 'cV[R]_n :=
  \col_j (if [pick i | idx i == j] is Some i then res j 0 + sol i 0 else res j 0).

(** matvec 592-599 *)
Definition block_matvec (models : seq local) (x : 'cV[R]_n) : 'cV[R]_n :=
  foldl (fun res m => scatter (@lidx m) res (invmx (lmat m) *m \col_i x (lidx i) 0)) 0 models.

(** local matrix of a block: A[block][:, block] (612, 634) plus the shift found by the retry loop *)
Definition block_of (A : 'M[R]_n) (shift : R) k (idx : 'I_k -> 'I_n) : local :=
  Local idx (\matrix_(i, j) A (idx i) (idx j) + shift%:M).
End Blockwise.
