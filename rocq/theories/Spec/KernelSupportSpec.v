(** What a fixed-radius neighbour search promises: one list per query point, no repetitions, exactly the points of
    the second set within Euclidean distance one. *)
From Coq Require Import Reals List.
From Verif Require Import Spec.Sums.
Import ListNotations.
Local Open Scope R_scope.
Definition euclid (D : nat) (x y : nat -> R) : R := sqrt (rsum (fun i => (x i - y i) ^ 2) D).
Definition ball_search (query : nat -> list (nat -> R) -> list (nat -> R) -> list (list nat)) : Prop :=
  forall D z1 z2, length (query D z1 z2) = length z1 /\
    forall i, (i < length z1)%nat ->
      NoDup (nth i (query D z1 z2) []) /\
      forall j, In j (nth i (query D z1 z2) []) <->
        (j < length z2)%nat /\ euclid D (nth i z1 (fun _ => 0)) (nth j z2 (fun _ => 0)) <= 1.
