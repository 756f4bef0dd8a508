(** What a cache of station fits is to achieve. *)
From Coq Require Import Permutation Sorted.
From Verif Require Import Model.Prelude Model.GmmCache.

(** np.argsort: positions in the order of the values; which of equal values comes first is left open *)
Definition argsort_contract (argsort : list Z -> list nat) : Prop :=
  forall l, Permutation (argsort l) (seq 0 (length l)) /\ StronglySorted Z.le (map (fun i => nth i l 0%Z) (argsort l)).

Section Spec.
Context {Meta P Series F : Type} (meta_eqb : Meta -> Meta -> bool) (path_of : Meta -> P) (width : Meta -> nat) (fit : Meta -> Series -> option F) (zeros : Meta -> F).
(** the fit of a station; zeros if it fails *)
Definition direct (m : Meta) (y : Series) : F := match fit m y with Some f => f | None => zeros m end.
(** [data m id] is the series of station id in the data file that belongs to m: a cache file holds fits of these *)
Definition faithful (data : Meta -> Z -> Series) (m : Meta) (f : option (@file Meta F)) : Prop :=
  match f with
  | Some (Whole c) => meta_eqb (c_meta c) m = true /\ (c_width c = width m -> forall id r, In (id, r) (c_rows c) -> fit m (data m id) = Some r)
  | _ => True
  end.
Definition from_file (data : Meta -> Z -> Series) (m : Meta) (stations : list (Z * Series)) : Prop := forall id y, In (id, y) stations -> y = data m id.
End Spec.
