(** What the GGMP containers stand for and when its methods may be called. *)
From Verif Require Import Model.Prelude Model.GGMP.

(** the flat vector: weights, then the sets one after the other *)
Definition flat {X} (w : list X) (h : list (list X)) : list X := w ++ concat h.
Definition same_shape {X Y} (w : list X) (h : list (list X)) (w' : list Y) (h' : list (list Y)) : Prop :=
  length w = length w' /\ map (@length X) h = map (@length Y) h'.

(** a call has returned earlier *)
Definition succeeded (p : gcall -> Prop) (l : list (gcall * res gexn unit)) : Prop := exists c, In (c, Ok tt) l /\ p c.
Definition is_init_lik (c : gcall) := exists b, c = InitLik b.
Definition is_init_gps (c : gcall) := exists b, c = InitGPs b.
(** what the documentation requires before a call *)
Definition ready (c : gcall) (before : list (gcall * res gexn unit)) : Prop :=
  match c with
  | InitLik _ => True
  | InitGPs _ | Pairwise _ _ => succeeded is_init_lik before
  | Train _ | PostMean _ | PostVar _ => succeeded is_init_lik before /\ succeeded is_init_gps before
  end.
