(** The same mixture described differently. *)
From Coq Require Import Reals List.
From Verif Require Import Model.MixtureInit Model.MixtureGP Spec.MixtureGPSpec.
Import ListNotations.

Section Spec.
(** component number k of the second description is component number [s k] of the first *)
Variables (K : nat) (s : nat -> nat).
Definition relabelling : Prop := (forall k, (k < K)%nat -> (s k < K)%nat) /\ forall j k, (j < K)%nat -> (k < K)%nat -> s j = s k -> j = k.
Definition relabelled {A} (d : A) (l l' : list A) : Prop := length l = K /\ length l' = K /\ forall k, (k < K)%nat -> nth k l' d = nth (s k) l d.
Definition op_relabelled (o o' : xop) : Prop :=
  match o, o' with
  | XHps j h, XHps k h' => (k < K)%nat /\ j = s k /\ h = h'
  | XWeights w, XWeights w' => relabelled R0 w w'
  | _, _ => False
  end.
(** the second description has one more component, number K, of weight zero *)
Inductive widened : list xop -> list xop -> Prop :=
| w_none : widened [] []
| w_hps k h os os' : (k < K)%nat -> widened os os' -> widened (XHps k h :: os) (XHps k h :: os')
| w_extra h os os' : widened os os' -> widened os (XHps K h :: os')
| w_weights w os os' : length w = K -> widened os os' -> widened (XWeights w :: os) (XWeights (w ++ [R0]) :: os').
End Spec.
