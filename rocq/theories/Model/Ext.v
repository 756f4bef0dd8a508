(** IEEE-like extended numbers: exact reals with infinities and NaN.  Simplifications: no round-off, no
    overflow of finite operations, one zero. *)
From Coq Require Export Reals.
From Verif Require Import Model.Prelude.
Local Open Scope R_scope.

Inductive ext := NaN | NInf | PInf | Fin (r : R).

Definition eadd (a b : ext) : ext :=
  match a, b with
  | NaN, _ | _, NaN => NaN
  | NInf, PInf | PInf, NInf => NaN
  | NInf, _ | _, NInf => NInf
  | PInf, _ | _, PInf => PInf
  | Fin x, Fin y => Fin (x + y)
  end.
Definition eopp (a : ext) : ext := match a with NaN => NaN | NInf => PInf | PInf => NInf | Fin x => Fin (- x) end.
Definition esub (a b : ext) : ext := eadd a (eopp b).
(** a < b; false if one of them is NaN *)
Definition eltb (a b : ext) : bool :=
  match a, b with
  | NaN, _ | _, NaN => false
  | NInf, NInf => false
  | NInf, _ => true
  | _, NInf => false
  | PInf, _ => false
  | _, PInf => true
  | Fin x, Fin y => if Rlt_dec x y then true else false
  end.
(** a <= b; false if one of them is NaN *)
Definition eleb (a b : ext) : bool :=
  match a, b with
  | NaN, _ | _, NaN => false
  | NInf, _ => true
  | _, PInf => true
  | _, NInf | PInf, _ => false
  | Fin x, Fin y => if Rle_dec x y then true else false
  end.
Definition isnan (a : ext) : bool := match a with NaN => true | _ => false end.
Definition isninf (a : ext) : bool := match a with NInf => true | _ => false end.
(** np.exp *)
Definition eexp (a : ext) : ext := match a with NaN => NaN | NInf => Fin 0 | PInf => PInf | Fin x => Fin (exp x) end.
