(** The mixture a user means: weights, component densities. *)
From Coq Require Import Reals.
From Verif Require Import Model.Prelude.
Local Open Scope R_scope.

(** sum over components *)
Fixpoint sum_to (K : nat) (f : nat -> R) : R := match K with O => 0 | S k => sum_to k f + f k end.
(** density at a point of the distribution which picks component k with probability p k and then draws from density f k *)
Definition two_stage_density (K : nat) (p f : nat -> R) : R := sum_to K (fun k => p k * f k).
(** how many of the first i entries are k *)
Fixpoint occurrences (k i : nat) (c : nat -> nat) : nat :=
  match i with O => O | S j => (occurrences k j c + if (c j =? k)%nat then 1 else 0)%nat end.
(** Generator.choice returns n component numbers; Generator.multivariate_normal returns as many rows as asked for *)
Definition choice_contract (choose : list R -> nat -> list nat) : Prop :=
  forall p n, p <> [] -> length (choose p n) = n /\ forall c, In c (choose p n) -> (c < length p)%nat.
Definition normals_contract (normals : nat -> (nat -> R) -> (nat -> nat -> R) -> nat -> list (nat -> R)) : Prop :=
  forall k m A n, length (normals k m A n) = n.
