(** gp_kv.py: the stored solver state of GPkv and the evaluations that bypass it.
    __init__ 144-147, _set_gp2Scale_mode 182-188, _refresh 404-423, set_KV 425-460, update_KV 462-508,
    compute_new_KVinvY 510-557, _random_logdet 559-572, compute_new_KVlogdet_KVinvY 574-632, solve 671-700, logdet 702-716;
    gp_lin_alg.py sparse LU 203-229, calculate_Chol_factor 237-269, update_Chol_factor 272-286, calculate_sparse_solve
    1294-1303, calculate_logdet 1484-1519, calculate_inv 1534-1555, update_inv 1567-1578;
    gp_marginal_likelihood.py log_likelihood_variance 182-204.

    Simplifications: exact arithmetic in a real closed field; CPU; an n x n array is given by its entries and its size;
    sparse and dense storage of a matrix are not distinguished; an attribute that the mode in force never reads is left out,
    so the attributes form a sum type.  scipy's and numpy's factorizations, the iterative solvers (with whatever
    preconditioner and starting guess they are given, Model/Krylov.v), the stochastic log-determinant and the user's
    callables are oracles; the number of earlier calls stands for the state of the random generator.  [lg] is np.log of the
    absolute value. *)
From Coq Require Import BinNums BinNat.
(** thresholds of 183-186; written before mathcomp rebinds the scope *)
Definition c10000 : N := 10000%N.
Definition c50001 : N := 50001%N.
Definition c2001 : N := 2001%N.
From mathcomp Require Import all_ssreflect all_algebra.
From Verif Require Import Model.CholUpdate.
Set Implicit Arguments.
Unset Strict Implicit.
Unset Printing Implicit Defensive.
Import GRing.Theory Num.Theory.
Local Open Scope ring_scope.

Inductive smode := Chol | CholInv | Inv | SparseCG | SparseMINRES | SparseLU | SparseMINRESpre | SparseCGpre | SparseSolve | Custom.

Section Solvers.
Variables (R : rcfType) (G : zmodType) (lg : R -> G).
(** scipy.linalg.cho_factor, np.linalg.inv, scipy.sparse.linalg.splu: None if they raise *)
Variable cho_factor : forall n, 'M[R]_n -> option 'M[R]_n.
Variable np_inv : forall n, 'M[R]_n -> option 'M[R]_n.
Variable LUt : nat -> Type.
Variable splu : forall n, 'M[R]_n -> option (LUt n).
Variable lu_solve : forall n k, LUt n -> 'M[R]_(n, k) -> 'M[R]_(n, k).
Variable lu_diag : forall n, LUt n -> 'rV[R]_n.
(** conjugate gradients, MINRES, both with preconditioner, and spsolve *)
Variable iterate : smode -> forall n k, 'M[R]_n -> 'M[R]_(n, k) -> 'M[R]_(n, k).
(** calculate_random_logdet: the estimate and its variance *)
Variable estimate : nat -> forall n, 'M[R]_n -> G * option R.
(** the callables of a user's mode *)
Variable Obj : nat -> Type.
Variable c_factor : forall n, 'M[R]_n -> Obj n.
Variable c_solve : forall n k, Obj n -> 'M[R]_(n, k) -> 'M[R]_(n, k).
Variable c_logdet : forall n, Obj n -> G.

Definition arr (f : nat -> nat -> R) (n : nat) : 'M[R]_n := \matrix_(i, j) f i j.

Inductive factor (n : nat) :=
| FChol (L : 'M[R]_n) | FCholInv (L inv : 'M[R]_n) | FInv (KV inv : 'M[R]_n) | FMat (KV : 'M[R]_n) | FLU (F : LUt n) | FObj (o : Obj n).

(** set_KV 425-460 *)
Definition set_KV (mode : smode) n (A : 'M[R]_n) : option (factor n) :=
  match mode with
  | Chol => omap (@FChol n) (cho_factor A)
  | CholInv => omap (fun L => FCholInv L (inv_from_chol L)) (cho_factor A)
  | Inv => omap (FInv A) (np_inv A)
  | SparseLU => omap (@FLU n) (splu A)
  | SparseCG | SparseMINRES | SparseMINRESpre | SparseCGpre | SparseSolve => Some (FMat A)
  | Custom => Some (FObj (c_factor A))
  end.
(** update_Chol_factor 272-286: the entries of KV past the old factor *)
Definition update_Chol_factor n (L : 'M[R]_n) (KV : nat -> nat -> R) N : option 'M[R]_N :=
  omap (fun L' => conform_mx 0 L') (update_chol L KV (N - n)).
(** update_inv 1567-1578; None: the Schur complement cannot be inverted *)
Definition update_inverse n (old : 'M[R]_n) (KV : nat -> nat -> R) N : option 'M[R]_N :=
  let p := (N - n)%N in
  let kk : 'M[R]_p := \matrix_(i, j) KV (n + i)%N (n + j)%N in
  let k : 'M[R]_(p, n) := \matrix_(i, j) KV (n + i)%N j in
  if np_inv (kk - k *m old *m k^T) is Some X then
    let Fm := - old *m k^T *m X in
    Some (conform_mx 0 (block_mx (old + old *m k^T *m X *m k *m old) Fm Fm^T X))
  else None.
(** update_KV 462-508; a factor of another mode does not occur (None) *)
Definition update_KV (mode : smode) n (s : factor n) (KV : nat -> nat -> R) N : option (factor N) :=
  let A := arr KV N in
  match mode, s with
  | Chol, FChol L => omap (@FChol N) (if (N <= n)%N then cho_factor A else update_Chol_factor L KV N)
  | CholInv, FCholInv L _ =>
      omap (fun L' => FCholInv L' (inv_from_chol L')) (if (N <= n)%N then cho_factor A else update_Chol_factor L KV N)
  | Inv, FInv _ old => omap (FInv A) (if (N <= n)%N then np_inv A else update_inverse old KV N)
  | SparseLU, FLU _ => omap (@FLU N) (splu A)
  | (SparseCG | SparseMINRES | SparseMINRESpre | SparseCGpre | SparseSolve), FMat _ => Some (FMat A)
  | Custom, FObj _ => Some (FObj (c_factor A))
  | _, _ => None
  end.

(** solve 671-700 *)
Definition solve (mode : smode) n k (s : factor n) (b : 'M[R]_(n, k)) : 'M[R]_(n, k) :=
  match s with
  | FChol L => chol_solve L b
  | FCholInv _ inv => inv *m b
  | FInv _ inv => inv *m b
  | FMat A => iterate mode A b
  | FLU F => lu_solve F b
  | FObj o => c_solve o b
  end.
(** calculate_LU_logdet 224-230; calculate_logdet 1484-1489 *)
Definition lu_logdet n (F : LUt n) : G := \sum_i lg `|lu_diag F 0 i|.
Definition slogdet n (A : 'M[R]_n) : G := lg `|\det A|.

(** the estimator's memory: last_logdet_variance 106, 570 and the number of calls so far *)
Record memory := Mem { m_var : option R; m_calls : nat }.
(** _random_logdet 559-572 *)
Definition random_logdet n (A : 'M[R]_n) (mm : memory) : G * memory :=
  let (v, s2) := estimate (m_calls mm) A in (v, Mem s2 (m_calls mm).+1).
(** logdet 702-716 *)
Definition logdet n (s : factor n) (mm : memory) : G * memory :=
  match s with
  | FChol L => (chol_logdet lg L, mm)
  | FCholInv L _ => (chol_logdet lg L, mm)
  | FInv A _ => (slogdet A, mm)
  | FLU F => (lu_logdet F, mm)
  | FMat A => random_logdet A mm
  | FObj o => (c_logdet o, mm)
  end.

(** the object at size [n]: its factor, memory, and what log_likelihood() reads, KVinvY and logdet_KV *)
Record kv k n := KVs { v_factor : factor n; v_mem : memory; v_KVinvY : 'M[R]_(n, k); v_logdet : G }.

(** _refresh 404-423 after set_KV or update_KV; [y] is y_data - m *)
Definition refresh (mode : smode) k n (y : 'M[R]_(n, k)) (mm : memory) (s : option (factor n)) : option (kv k n) :=
  if s is Some f then
    let x := solve mode f y in let (d, mm') := logdet f mm in Some (KVs f mm' x d)
  else None.
Definition kv_set (mode : smode) k n (KV : nat -> nat -> R) (y : 'M[R]_(n, k)) (mm : memory) : option (kv k n) :=
  refresh mode y mm (set_KV mode (arr KV n)).
Definition kv_append (mode : smode) k n0 n (s : kv k n0) (KV : nat -> nat -> R) (y : 'M[R]_(n, k)) : option (kv k n) :=
  refresh mode y (v_mem s) (update_KV mode (v_factor s) KV n).

(** compute_new_KVlogdet_KVinvY 574-632: each mode factorizes, solves and takes the log-determinant *)
Definition compute_new (mode : smode) k n (A : 'M[R]_n) (y : 'M[R]_(n, k)) (mm : memory) : option ('M[R]_(n, k) * G * memory) :=
  match mode with
  | Chol | CholInv => omap (fun L => (chol_solve L y, chol_logdet lg L, mm)) (cho_factor A)
  | Inv => omap (fun B => (B *m y, slogdet A, mm)) (np_inv A)
  | SparseLU => omap (fun F => (lu_solve F y, lu_logdet F, mm)) (splu A)
  | SparseCG | SparseMINRES | SparseMINRESpre | SparseCGpre | SparseSolve =>
      let x := iterate mode A y in let (d, mm') := random_logdet A mm in Some (x, d, mm')
  | Custom => let o := c_factor A in Some (c_solve o y, c_logdet o, mm)
  end.
(** compute_new_KVinvY 510-557 *)
Definition compute_new_y (mode : smode) k n (A : 'M[R]_n) (y : 'M[R]_(n, k)) : option 'M[R]_(n, k) :=
  match mode with
  | Chol | CholInv => omap (fun L => chol_solve L y) (cho_factor A)
  | Inv => omap (fun B => B *m y) (np_inv A)
  | SparseLU => omap (fun F => lu_solve F y) (splu A)
  | SparseCG | SparseMINRES | SparseMINRESpre | SparseCGpre | SparseSolve => Some (iterate mode A y)
  | Custom => Some (c_solve (c_factor A) y)
  end.

(** _set_gp2Scale_mode 182-188: [n] points, [nnz] stored entries, as binary numbers *)
Definition gp2Scale_mode (linalg_mode : option smode) (n nnz : BinNums.N) : smode :=
  let sparse_enough := N.ltb (N.mul nnz c10000) (N.mul n n) in
  if linalg_mode is Some m then m
  else if N.ltb n c50001 && sparse_enough then SparseLU
  else if N.ltb n c2001 && ~~ sparse_enough then Chol
  else SparseMINRES.
(** the mode of the object 144-146, fixed at construction, and the mode of an evaluation 520-523, 586-589 *)
Definition state_mode (gp2 : bool) (linalg_mode : option smode) (n nnz : BinNums.N) : smode :=
  if gp2 then gp2Scale_mode linalg_mode n nnz else if linalg_mode is Some m then m else Chol.
Definition eval_mode (gp2 : bool) (linalg_mode : option smode) (state : smode) (n nnz : BinNums.N) : smode :=
  if gp2 then gp2Scale_mode linalg_mode n nnz else state.

(** one evaluation log_likelihood(hyperparameters): gp_marginal_likelihood.py 129-134, 154-168 *)
Record evaluation := Ev { e_n : nat; e_nnz : BinNums.N; e_k : nat; e_A : 'M[R]_e_n; e_y : 'M[R]_(e_n, e_k) }.
Definition evaluate (gp2 : bool) (linalg_mode : option smode) (state : smode) (e : evaluation) (mm : memory) :
    option ('M[R]_(e_n e, e_k e) * G * memory) :=
  compute_new (eval_mode gp2 linalg_mode state (N.of_nat (e_n e)) (e_nnz e)) (e_A e) (e_y e) mm.
(** log_likelihood_variance 182-204 *)
Definition log_likelihood_variance (mm : memory) : option R := omap (fun v => v / 4%:R) (m_var mm).
End Solvers.
