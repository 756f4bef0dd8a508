(** What distances between samples promise, independently of how they are computed. *)
From Coq Require Import Reals List Permutation.
From Verif Require Import Spec.Sums.
Import ListNotations.
Local Open Scope R_scope.

(** The average of [f] over all pairs of an element of one list and an element of the other. *)
Fixpoint add_up {X} (f : X -> R) (l : list X) : R := match l with [] => 0 | x :: r => f x + add_up f r end.
Definition average {X} (f : X -> R) (l : list X) : R := add_up f l / INR (length l).
Definition pair_average {X} (f : X -> X -> R) (a b : list X) : R := average (fun x => average (fun y => f x y) b) a.
(** The average over pairs of different positions. *)
Definition distinct_pairs_average {X} (f : X -> X -> R) (a : list X) : R :=
  (add_up (fun x => add_up (f x) a) a - add_up (fun x => f x x) a) / (INR (length a) * (INR (length a) - 1)).
(** Euclidean distance of the first [D] coordinates. *)
Definition euclid (D : nat) (x y : nat -> R) : R := sqrt (rsum (fun i => (x i - y i) ^ 2) D).
(** How far apart two distributions of points are by the averages of [f]. *)
Definition discrepancy {X} (f : X -> X -> R) (a b : list X) : R :=
  2 * pair_average f a b - pair_average f a a - pair_average f b b.
(** Two lists are samples of the same empirical distribution: one repeated some number of times is a rearrangement of the other
    repeated some number of times. *)
Definition repeated {X} (n : nat) (l : list X) : list X := concat (repeat l n).
Definition same_distribution {X} (a b : list X) : Prop :=
  exists n m, n <> 0%nat /\ m <> 0%nat /\ Permutation (repeated n a) (repeated m b).
Definition pseudo_metric {X} (d : X -> X -> R) : Prop :=
  (forall x, d x x = 0) /\ (forall x y, 0 <= d x y) /\ (forall x y, d x y = d y x) /\ (forall x y z, d x z <= d x y + d y z).
(** Two points agree if their first [D] coordinates are equal; the share of a point in a sample is the fraction of rows that agree with it. *)
Definition agree (D : nat) (x y : nat -> R) : Prop := forall i, (i < D)%nat -> x i = y i.
Definition share (D : nat) (z : nat -> R) (l : list (nat -> R)) : R :=
  average (fun x => if Req_EM_T (euclid D x z) 0 then 1 else 0) l.
(** All lists of [n] elements drawn from [l] with replacement, each as often as it can be drawn. *)
Fixpoint draws_of {X} (l : list X) (n : nat) : list (list X) :=
  match n with O => [[]] | S m => flat_map (fun x => map (cons x) (draws_of l m)) l end.
(** Squared maximum mean discrepancy of two distributions. *)
Definition mean_discrepancy {X} (k : X -> X -> R) (p q : list X) : R :=
  pair_average k p p + pair_average k q q - 2 * pair_average k p q.
