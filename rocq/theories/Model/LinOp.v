(** Products of an operator with a block of columns in the block conjugate gradient method.
    /repo/fvgp/gp_lin_alg.py _apply_linear_operator 1006-1015, _apply_preconditioner 1018-1021.
    An operator has a method for blocks (matmat) or not, which may raise, and a product with one vector (@), which may raise.
    Simplifications: conversion to float64 is the identity; a product with one vector has the length of the vector; all
    exceptions are alike (the code catches Exception, so that KeyboardInterrupt is outside the model).  No proofs here. *)
From mathcomp Require Import all_ssreflect all_algebra.
Set Implicit Arguments.
Unset Strict Implicit.
Unset Printing Implicit Defensive.
Import GRing.Theory.
Local Open Scope ring_scope.

Section LinOp.
Variable F : ringType.
Variable n : nat.

Record operator := Operator {
  matmat : option (forall k, 'M[F]_(n, k) -> option 'M[F]_(n, k));      (* None: no such attribute, 1009 *)
  matvec : 'cV[F]_n -> option 'cV[F]_n }.

(** the list comprehension 1014-1015: the first product that raises ends it *)
Fixpoint products (op : operator) (cs : seq 'cV[F]_n) : option (seq 'cV[F]_n) :=
  if cs is c :: r then
    if matvec op c is Some p then (if products op r is Some ps then Some (p :: ps) else None) else None
  else Some [::].

(** np.column_stack 1014 *)
Definition column_stack k (cs : seq 'cV[F]_n) : 'M[F]_(n, k) := \matrix_(i, j) (nth 0 cs j) i 0.

Definition by_columns k (op : operator) (X : 'M[F]_(n, k)) : option 'M[F]_(n, k) :=
  omap (@column_stack k) (products op [seq col j X | j <- enum 'I_k]).

Definition apply_linear_operator k (op : operator) (X : 'M[F]_(n, k)) : option 'M[F]_(n, k) :=
  if (n * k == 0)%N then Some 0                                          (* 1007-1008 *)
  else match matmat op with
       | Some f => if f k X is Some Y then Some Y else by_columns op X   (* 1009-1013 *)
       | None => by_columns op X
       end.

Definition apply_preconditioner k (M : option operator) (X : 'M[F]_(n, k)) : option 'M[F]_(n, k) :=
  if M is Some op then apply_linear_operator op X else Some X.
End LinOp.
