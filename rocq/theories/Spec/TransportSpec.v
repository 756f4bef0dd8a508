(** What the Wasserstein distance of two densities on a grid is to measure (property C205): how far mass has to move.  Independent of
    the code: the centre of a density, a density moved by some cells, one density lying below another. *)
From Coq Require Import Reals List Lra.
Import ListNotations.
Local Open Scope R_scope.

(** evenly spaced points *)
Fixpoint even_grid (a h : R) (n : nat) : list R := match n with O => [] | S m => a :: even_grid (a + h) h m end.
Fixpoint weigh (x p : list R) : R := match x, p with a :: x', b :: p' => a * b + weigh x' p' | _, _ => 0 end.
Fixpoint sum (p : list R) : R := match p with [] => 0 | b :: p' => b + sum p' end.
(** average position of a non-negative density *)
Definition centre (x p : list R) : R := weigh x p / sum p.
(** no mass of p has to move left to become q: up to every grid point p holds at least as much as q *)
Definition to_the_right (p q : list R) : Prop := forall k, sum (firstn k q) <= sum (firstn k p).
(** the density l at the left end of a grid and the same moved by m cells *)
Definition placed (l : list R) (m k : nat) : list R := repeat 0 m ++ l ++ repeat 0 k.
