(** What a Gaussian process is after a history of updates: a joint Gaussian given by the stored data and hyperparameters. *)
From Coq Require Import Reals List.
From mathcomp Require Import all_ssreflect all_algebra.
From Verif Require Import Model.GPState Model.LifeCycle Spec.GPStateSpec Proofs.RealMx.
Set Implicit Arguments.
Unset Strict Implicit.
Unset Printing Implicit Defensive.
Import GRing.Theory.
Local Open Scope ring_scope.

Section Spec.
Variables (P H : Type) (p0 : P) (nz : noise_choice P H) (favg defnoise : list R -> R).
Notation data := (@dataset P R H).
Definition points (d : data) (i : 'I_(length (ds_x d))) : P := List.nth i (ds_x d) p0.
Definition targets (d : data) : 'cV[R]_(length (ds_x d)) := \col_i List.nth i (ds_y d) R0.
(** covariance of the noise of two observations *)
Definition noise_entry (d : data) (i j : nat) : R :=
  match nz with
  | Measured => if Nat.eqb i j then List.nth i (ds_nv d) R0 else R0
  | Default => if Nat.eqb i j then defnoise (ds_y d) else R0
  | Diag nu => if Nat.eqb i j then nu (List.nth i (ds_x d) p0) (ds_h d) else R0
  | Full nu => nu (List.nth i (ds_x d) p0) (List.nth j (ds_x d) p0) (ds_h d)
  end.
Definition obs_noise (d : data) : 'M[R]_(length (ds_x d)) := \matrix_(i, j) noise_entry d i j.
Definition prior_mean (mu : option (P -> H -> R)) (d : data) (x : P) : R :=
  if mu is Some f then f x (ds_h d) else favg (ds_y d).
(** a rank-n update with the default noise, whose level moves with the data: C05 *)
Definition moving_noise (o : @gop P R H) : Prop :=
  match nz, o with Default, GAppend true _ _ _ => True | _, _ => False end.
Definition symmetric_noise : Prop := match nz with Full nu => forall x y h, nu x y h = nu y x h | _ => True end.
End Spec.

Section Stored.
Variables (P H : Type) (LUt Obj : nat -> Type).
(** the data and hyperparameters the object holds *)
Definition stored (t : life P H LUt Obj) : @dataset P R H := let s := l_gp t in DS (xd s) (yd s) (nvar s) (hp s).
End Stored.
