(** What a caller may expect of a GP that owns its data: every prediction is that of a GP newly built from the data and
    hyperparameters handed over so far, as they were when they were handed over. *)
From Coq Require Import List.
Import ListNotations.

Inductive call (A : Type) :=
| CInit (x y n h : A) | CAppend (x y n : A) | COverwrite (x y n : A) | CSetHps (h : A) | CPredict (q result : A).
Arguments CInit {A}. Arguments CAppend {A}. Arguments COverwrite {A}. Arguments CSetHps {A}. Arguments CPredict {A}.

Section Spec.
  Context {A : Type} (join : A -> A -> A) (answer : A -> A -> A -> A -> A -> A).
  Definition note (c : option (A * A * A * A)) (e : call A) : option (A * A * A * A) :=
    match e, c with
    | CInit x y n h, _ => Some (x, y, n, h)
    | CAppend x' y' n', Some (x, y, n, h) => Some (join x x', join y y', join n n', h)
    | COverwrite x' y' n', Some (x, y, n, h) => Some (x', y', n', h)
    | CSetHps h', Some (x, y, n, h) => Some (x, y, n, h')
    | _, _ => c
    end.
  Definition given (l : list (call A)) : option (A * A * A * A) := fold_left note l None.
  Definition owns (l : list (call A)) : Prop := forall before q r after,
    l = before ++ CPredict q r :: after -> exists x y n h, given before = Some (x, y, n, h) /\ r = answer x y n h q.
End Spec.
