(** Changing the unit and the origin of the inputs. *)
From Coq Require Import Reals.
From Verif Require Import Model.Prelude Model.Ext.
Local Open Scope R_scope.

(** coordinate i of a point measured in another unit, from another origin *)
Definition in_unit (c t : nat -> R) (x : nat -> R) : nat -> R := fun i => c i * x i + t i.
(** the hyperparameters of the default kernel: an amplitude, then one length scale per coordinate, a length in its unit *)
Definition factor (c : nat -> R) (k : nat) : R := match k with O => 1 | S i => c i end.
Definition escaled (a : R) (e : ext) : ext := match e with Fin r => Fin (a * r) | _ => e end.
Fixpoint scaled (f : nat -> R) (h : list ext) : list ext :=
  match h with [] => [] | e :: h' => escaled (f O) e :: scaled (fun i => f (S i)) h' end.
Definition hps_in_unit (c : nat -> R) : list ext -> list ext := scaled (factor c).

(** a sampler of normal vectors that commutes with a change of units of the coordinates: covariance and mean converted, the
    same random numbers give the converted vector (true of mean + L w with the Cholesky factor L of the covariance) *)
Definition unit_free {Omega} (draw : option (nat -> nat -> R) -> Omega -> list ext -> list ext) : Prop :=
  (forall f M M' w x, (forall i, 0 < f i) -> (forall k l, M' k l = f k * f l * M k l) ->
     draw (Some M') w (scaled f x) = scaled f (draw (Some M) w x)) /\
  (forall f w x, (forall i, 0 < f i) -> draw None w (scaled f x) = scaled f (draw None w x)).
