(** The same observations with the inputs written down differently. *)
From Coq Require Import Reals.
From mathcomp Require Import all_ssreflect all_algebra.
From Verif Require Import Proofs.RealMx Model.Likelihood Model.Posterior Model.Observations.
Set Implicit Arguments.
Unset Strict Implicit.

Section Renamed.
Variables (X Y : Type) (phi : X -> Y).
Definition renamed n c (d : obs X n c) : obs Y n c := Obs (fun i => phi (o_x d i)) (o_y d) (o_nv d).
(** mean and noise function left to the default in both, or the same function of the point *)
Definition same_mean (mk : mean_arg X) (mk' : mean_arg Y) : Prop :=
  match mk, mk' with DefaultMean, DefaultMean => True | GivenMean m, GivenMean m' => forall x, m' (phi x) = m x | _, _ => False end.
Definition same_noise (nk : noise_arg X) (nk' : noise_arg Y) : Prop :=
  match nk, nk' with
  | DefaultNoise, DefaultNoise | MeasuredNoise, MeasuredNoise => True
  | NoiseFunction v, NoiseFunction v' => forall x, v' (phi x) = v x
  | _, _ => False
  end.
End Renamed.
