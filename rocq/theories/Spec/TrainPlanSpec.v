(** What may be expected of a call of train(). *)
From Coq Require Import Reals List.
From Coquelicot Require Import Coquelicot.
Import ListNotations.
Local Open Scope R_scope.

(** the gradient and the Hessian, if any, belong to the objective *)
Definition belong {F Gr He : Type} (grad_of : F -> Gr -> Prop) (hess_of : F -> He -> Prop)
  (o : option F) (g : option Gr) (h : option He) : Prop :=
  forall f, o = Some f -> (forall d, g = Some d -> grad_of f d) /\ (forall d, h = Some d -> hess_of f d).
(** first and second derivatives of functions of one hyperparameter *)
Definition derivative_of (f g : R -> R) : Prop := forall x : R, is_derive f x (g x).
Definition second_derivative_of (f h : R -> R) : Prop := exists g : R -> R, derivative_of f g /\ derivative_of g h.

(** two different entries *)
Definition varies (l : list R) : Prop := exists a b, In a l /\ In b l /\ a <> b.
Definition positive_box (b : list (R * R)) : Prop := forall p, In p b -> 0 < fst p < snd p.
