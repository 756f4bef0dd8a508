(** An update under gp2Scale as the user asks for it, without the clusters its covariances are computed on. *)
From Verif Require Import Model.Prelude Model.GPState Model.Gp2Scale Model.LargeGP Spec.Gp2ScaleSpec.
From Coq Require Import Reals.

Section Spec.
  Context {P H : Type}.
  Definition request (o : lop P H) : @gop P R H :=
    match o with
    | LAppend r x y nv _ _ => GAppend r x y nv
    | LOverwrite x y nv _ => GOverwrite x y nv
    | LSetHps h _ => GSetHps h
    end.
  (** clusters that complete tasks in any order, some of them with a failure *)
  Definition any_cluster (o : lop P H) : Prop :=
    match o with LAppend _ _ _ _ cB cD => lossy cB /\ lossy cD | LOverwrite _ _ _ c | LSetHps _ c => lossy c end.
  (** clusters that complete all tasks, in any order *)
  Definition good_cluster (o : lop P H) : Prop :=
    match o with LAppend _ _ _ _ cB cD => faithful cB /\ faithful cD | LOverwrite _ _ _ c | LSetHps _ c => faithful c end.
  Definition new_points (o : lop P H) : nat :=
    match o with LAppend _ x _ _ _ _ | LOverwrite x _ _ _ => length x | LSetHps _ _ => 0 end.
  (** all points ever supplied still have 64-bit indices *)
  Definition countable (x : list P) (os : list (lop P H)) : Prop :=
    (Z.of_nat (length x + list_sum (map new_points os)) < 2 ^ 63)%Z.
End Spec.
