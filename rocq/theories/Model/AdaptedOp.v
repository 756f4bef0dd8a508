(** The operator through which a preconditioner is applied.  gp_lin_alg.py _build_dtype_adapted_operator 759-780 and its
    callers: native IC(0) 750, ILU 798, ilupp 838 and 859.

    Vectors are lists of reals, two-dimensional arrays lists of columns; float64 is exact.  [solve] is the factor's solve or
    dot function.  Simplification: a cast of a number outside the range of an integer type is not modelled (the witnesses stay
    in range).  np.column_stack raises for an array without columns. *)
From Coq Require Import Reals List ZArith.
From Flocq Require Import Core.
From Verif Require Import Model.Prelude Model.DeepKernel.
Import ListNotations.
Local Open Scope R_scope.

Inductive dtype := Float64 | Float32 | IntType.
Inductive aexn := AStack.
(** np.asarray(v, dtype=...) of one number: integers are truncated toward zero *)
Definition cast (d : dtype) (x : R) : R :=
  match d with Float64 => x | Float32 => single x | IntType => IZR (Ztrunc x) end.
Inductive arr := Vec (v : list R) | Cols (c : list (list R)).

Section Op.
Variable solve : list R -> list R.
Variable factor_dtype : dtype.
Definition apply_vec (v : list R) : list R := map (cast Float64) (solve (map (cast factor_dtype) (map (cast Float64) v))).
Definition apply (a : arr) : res aexn arr :=
  match a with
  | Vec v => Ok (Vec (apply_vec v))
  | Cols [] => Err AStack
  | Cols c => Ok (Cols (map apply_vec c))
  end.
End Op.

(** 750, 838 and 859 name float64; 798 takes the dtype of K+V *)
Inductive pkind := NativeIC | ILU | Ilupp.
Definition operator (k : pkind) (kv_dtype : dtype) (solve : list R -> list R) : arr -> res aexn arr :=
  apply solve (match k with ILU => kv_dtype | NativeIC | Ilupp => Float64 end).
