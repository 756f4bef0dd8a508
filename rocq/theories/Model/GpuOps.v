(** The CPU and GPU branches of the dense linear algebra, /repo/fvgp/gp_lin_alg.py: calculate_Chol_factor 237-269,
    calculate_Chol_solve 289-328, calculate_Chol_logdet 331-360, cholesky_update_rank_1 1311-1348 with its numpy, torch and
    cupy versions 1351-1461, cholesky_update_rank_n 1466-1475, calculate_logdet 1484-1519, calculate_inv 1534-1555,
    calculate_inv_from_chol 1558-1564, solve 1581-1625, matmul 1629-1656, matmul3 1662-1698.  No proofs here.

    Simplifications: exact arithmetic in a real closed field; [engine] is what get_gpu_engine returned (Model/GpuEngine.v);
    conversions between arrays and tensors keep the numbers (no float32, no NaN entries); warnings are left out.  The
    factorizations and solvers of the three libraries are parameters that may raise.  Triangular solves read one triangle
    and are modelled by its inverse, as in Model/CholUpdate.v. *)
From mathcomp Require Import all_ssreflect all_algebra.
From Verif Require Import Model.CholUpdate.
Set Implicit Arguments.
Unset Strict Implicit.
Unset Printing Implicit Defensive.
Import GRing.Theory Num.Theory.
Local Open Scope ring_scope.

Inductive gpu := Torch | Cupy.
Inductive lib := Numpy | OnGpu of gpu.
(** the string compute_device *)
Inductive cdev := Cpu | Gpu | Unknown.
Inductive oexn := NonPD | LinAlg | Runtime | BadDevice | Assertion | OtherE.
Inductive out (A : Type) := Ok of A | Raise of oexn.
Arguments Raise {A}.
(** a float: finite, minus infinity or not a number *)
Inductive num (R : Type) := Fin of R | NegInf | Nan.
Arguments NegInf {R}. Arguments Nan {R}.

Section Ops.
Variable R : rcfType.
(** cho_factor(lower=True) / torch.linalg.cholesky / cp.linalg.cholesky *)
Variable lib_chol : lib -> forall n, 'M[R]_n -> out 'M[R]_n.
(** np.linalg.inv / torch.inverse / cp.linalg.inv *)
Variable lib_inv : lib -> forall n, 'M[R]_n -> out 'M[R]_n.
(** np.linalg.solve / torch.linalg.solve / cp.linalg.solve, and np.linalg.lstsq *)
Variable lib_solve : lib -> forall n m, 'M[R]_n -> 'M[R]_(n, m) -> out 'M[R]_(n, m).
Variable lstsq : forall n m, 'M[R]_n -> 'M[R]_(n, m) -> out 'M[R]_(n, m).
(** the logarithm of |det|, second result of slogdet *)
Variable lib_slogdet : lib -> forall n, 'M[R]_n -> out (num R).
(** np.log of a positive number, and the largest float *)
Variables (lg : R -> R) (big : R).
Variable engine : option gpu.

(** the library a call uses on the given device, with the fallback of the else branches *)
Definition chosen (d : cdev) : option lib :=
  match d with
  | Cpu => Some Numpy
  | Gpu => Some (if engine is Some g then OnGpu g else Numpy)
  | Unknown => None
  end.

(** 237-269; [override] is args["Chol_factor_compute_device"] *)
Definition Chol_factor (override : option cdev) (d : cdev) n (M : 'M[R]_n) : out 'M[R]_n :=
  let d := if override is Some o then o else d in
  let r := if chosen d is Some l then lib_chol l M else Raise OtherE in
  match r with
  | Raise LinAlg | Raise Runtime => Raise NonPD
  | _ => r
  end.

(** the upper triangle, which is all that upper=True / lower=False routines read *)
Definition triu n (A : 'M[R]_n) : 'M[R]_n := \matrix_(i, j) (if (i <= j)%N then A i j else 0).
(** 289-328 *)
Definition Chol_solve (override : option cdev) (d : cdev) n m (L : 'M[R]_n) (b : 'M[R]_(n, m)) : out 'M[R]_(n, m) :=
  let d := if override is Some o then o else d in
  match chosen d with
  | None => Raise OtherE
  | Some Numpy => Ok (chol_solve L b)
  | Some (OnGpu _) => let y := invmx (tril L) *m b in Ok (invmx (triu L^T) *m y)
  end.

(** np.log of any number, and sums of floats *)
Definition log_of (x : R) : num R := if x < 0 then Nan else if x == 0 then NegInf else Fin (lg x).
Definition nplus (a b : num R) : num R :=
  match a, b with
  | Nan, _ | _, Nan => Nan
  | NegInf, _ | _, NegInf => NegInf
  | Fin x, Fin y => Fin (x + y)
  end.
Definition nsum n (f : 'I_n -> num R) : num R := foldr (fun i => nplus (f i)) (Fin 0) (enum 'I_n).
(** 331-360: numpy takes the absolute value of the diagonal, the GPU branches do not *)
Definition Chol_logdet (override : option cdev) (d : cdev) n (L : 'M[R]_n) : out (num R) :=
  let d := if override is Some o then o else d in
  match chosen d with
  | None => Raise OtherE
  | Some Numpy => let s := nsum (fun i => log_of `|L i i|) in Ok (nplus s s)
  | Some (OnGpu _) => let s := nsum (fun i => log_of (L i i)) in Ok (nplus s s)
  end.

(** np.nan_to_num *)
Definition nan_to_num (x : num R) : num R := match x with Fin r => Fin r | NegInf => Fin (- big) | Nan => Fin 0 end.
(** 1484-1519 *)
Definition logdet (d : cdev) n (A : 'M[R]_n) : out (num R) :=
  match d with
  | Gpu =>
    if engine is Some g then
      if lib_slogdet (OnGpu g) A is Ok x then Ok (nan_to_num x) else lib_slogdet Numpy A
    else lib_slogdet Numpy A
  | _ => lib_slogdet Numpy A
  end.

(** 1534-1555 *)
Definition calc_inv (d : cdev) n (A : 'M[R]_n) : out 'M[R]_n :=
  if d is Gpu then lib_inv (if engine is Some g then OnGpu g else Numpy) A else lib_inv Numpy A.
(** 1558-1564; args may override the device inside calculate_Chol_solve *)
Definition inv_of_chol (override : option cdev) (d : cdev) n (L : 'M[R]_n) : out 'M[R]_n :=
  match d with
  | Cpu => Ok (chol_solve L 1%:M)
  | Gpu => Chol_solve override Gpu L 1%:M
  | Unknown => Raise OtherE
  end.

(** 1581-1625 *)
Definition np_solve n m (A : 'M[R]_n) (b : 'M[R]_(n, m)) : out 'M[R]_(n, m) :=
  match lib_solve Numpy A b with Raise LinAlg => lstsq A b | r => r end.
Definition solve (d : cdev) n m (A : 'M[R]_n) (b : 'M[R]_(n, m)) : out 'M[R]_(n, m) :=
  match d with
  | Cpu => np_solve A b
  | Gpu => if engine is Some g then lib_solve (OnGpu g) A b else np_solve A b
  | Unknown => Raise OtherE
  end.

(** cholesky_update_rank_1_torch 1385-1423 and _cupy 1426-1461: a matrix of zeros whose parts are assigned *)
Definition gpu_rank_1 n (L : 'M[R]_n) (b : 'cV[R]_n) (c : R) : out 'M[R]_(n + 1) :=
  let v := solve_triangular L b in
  let disc := c - (v^T *m v) 0 0 in
  if disc <= 0 then Raise NonPD else
  Ok (\matrix_(i, j) match split i, split j with
        | inl a, inl b => L a b
        | inl a, inr _ => 0
        | inr _, inl b => v b 0
        | inr _, inr _ => Num.sqrt disc
        end).
(** 1311-1348; the inner None is the None that is returned without an engine *)
Definition chol_rank_1 (d : cdev) n (L : 'M[R]_n) (b : 'cV[R]_n) (c : R) : out (option 'M[R]_(n + 1)) :=
  match d with
  | Cpu => if rank_1 L b c is Some L' then Ok (Some L') else Raise NonPD
  | Gpu =>
    if engine is Some _ then match gpu_rank_1 L b c with Ok L' => Ok (Some L') | Raise e => Raise e end
    else Ok None
  | Unknown => Raise OtherE
  end.

(** arrays and scipy.sparse matrices *)
Inductive mat n m := Dense of 'M[R]_(n, m) | Sparse of 'M[R]_(n, m).
Definition value n m (A : mat n m) := match A with Dense M | Sparse M => M end.
Definition is_sparse n m (A : mat n m) := if A is Sparse _ then true else false.
(** 1629-1656: the three libraries' products are the product *)
Definition matmul (d : cdev) n m p (A : mat n m) (B : mat m p) : out 'M[R]_(n, p) :=
  let d := if is_sparse A || is_sparse B then Cpu else d in
  if d is Unknown then Raise OtherE else Ok (value A *m value B).
(** 1662-1698 *)
Definition matmul3 (d : cdev) n m p q (A : mat n m) (B : mat m p) (C : mat p q) : out 'M[R]_(n, q) :=
  let d := if is_sparse A || is_sparse B || is_sparse C then Cpu else d in
  if is_sparse A then Raise Assertion else if is_sparse B then Raise Assertion else if is_sparse C then Raise Assertion else
  if d is Unknown then Raise OtherE else Ok (value A *m value B *m value C).
End Ops.
