(** One component of a mixture written as two. *)
From Coq Require Import Reals List.
From Verif Require Import Model.MixtureInit Model.MixtureGP.
Import ListNotations.

Section Spec.
(** of the components 0, ..., K-1 of the first description, number j is shared between the numbers j and K of the second *)
Variables (K j : nat).
Definition origin (k : nat) : nat := if Nat.eqb k K then j else k.
Definition same_origin {A} (d : A) (l l' : list A) : Prop := length l = K /\ length l' = S K /\ forall k, (k <= K)%nat -> nth k l' d = nth (origin k) l d.
(** the two parts have the weight of the whole *)
Definition shared (w w' : list R) : Prop :=
  length w = K /\ length w' = S K /\ (forall k, (k < K)%nat -> k <> j -> nth k w' R0 = nth k w R0) /\ (nth j w' R0 + nth K w' R0 = nth j w R0)%R.
Inductive split_history : list xop -> list xop -> Prop :=
| sp_none : split_history [] []
| sp_other k h os os' : (k < K)%nat -> k <> j -> split_history os os' -> split_history (XHps k h :: os) (XHps k h :: os')
| sp_both h os os' : split_history os os' -> split_history (XHps j h :: os) (XHps j h :: XHps K h :: os')
| sp_weights w w' os os' : shared w w' -> split_history os os' -> split_history (XWeights w :: os) (XWeights w' :: os').
End Spec.
