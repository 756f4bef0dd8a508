(** What it means for a matrix to be close to the one a cache entry was made for. *)
From Coq Require Import String QArith Qminmax Qabs.
From Verif Require Import Model.Prelude Model.KrylovCache.

(** relative change of a finite number at most m *)
Definition within (tn m : Q) (old new : option Q) : Prop :=
  forall a b, old = Some a -> new = Some b -> (Qabs (b - a) <= m * Qmax (Qmax (Qabs a) (Qabs b)) tn)%Q.
Definition finite (f : fp) : Prop := fp_trace f <> None /\ fp_fro f <> None.
Definition close_to (tn m : Q) (old new : fp) : Prop :=
  fp_shape old = fp_shape new /\ within tn m (fp_trace old) (fp_trace new) /\ within tn m (fp_fro old) (fp_fro new).
Definition lookup {V} (a : list (string * V)) (k : string) : option V := option_map snd (find (fun e => String.eqb k (fst e)) a).
Definition reused {M Op Val} (x : pevent (M:=M) (Val:=Val) * presult (Op:=Op)) : bool := match r_outcome (snd x) with Reused => true | _ => false end.
(** neither a build nor anything that empties the cache *)
Definition keeps {M Op Val} (x : pevent (M:=M) (Val:=Val) * presult (Op:=Op)) : Prop :=
  match fst x with PGet pre _ _ _ => pre = false \/ reused x = true | PPickle => False end.
