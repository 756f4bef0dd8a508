(** What covariance functions promise, independently of how they are computed. *)
From Coq Require Import Reals List.
Import ListNotations.
Local Open Scope R_scope.

Definition sum_list (l : list R) : R := fold_right Rplus 0 l.
(** The quadratic form of the covariance matrix of finitely many points, each with a weight. *)
Definition quad_form {X} (k : X -> X -> R) (l : list (R * X)) : R :=
  sum_list (map (fun p => sum_list (map (fun q => fst p * fst q * k (snd p) (snd q)) l)) l).
(** A valid covariance function: symmetric, and no finite set of points gives a negative quadratic form. *)
Definition valid_covariance {X} (k : X -> X -> R) : Prop :=
  (forall x y, k x y = k y x) /\ forall l : list (R * X), 0 <= quad_form k l.
(** A correlation profile: one at distance zero, non-negative, never increasing with the distance. *)
Definition correlation_profile (f : R -> R) : Prop :=
  f 0 = 1 /\ (forall d, 0 <= d -> 0 <= f d) /\ (forall d d', 0 <= d -> d <= d' -> f d' <= f d).
(** The vector [h] with entry [i] replaced by [t]. *)
Definition with_entry (h : nat -> R) (i : nat) (t : R) : nat -> R := fun j => if Nat.eqb j i then t else h j.
