(** What the components of a GGMP are after training. *)
From Coq Require Import Reals List.
From mathcomp Require Import all_ssreflect all_algebra.
From Verif Require Import Model.GPState Model.LifeCycle Model.GGMPDensity Model.MixtureInit Model.MixtureGP Spec.GPStateSpec Spec.LifeCycleSpec Spec.PosteriorSpec Spec.MultiGPSpec Proofs.RealMx.
Set Implicit Arguments.
Unset Strict Implicit.
Unset Printing Implicit Defensive.
Import GRing.Theory.
Local Open Scope ring_scope.

(** the hyperparameters a component starts with: the last entry is the average of its values *)
Definition recentred (h y : list R) : list R := (List.firstn (length h - 1) h ++ [:: lsum y / INR (length y)])%coqR%list.
(** what was assigned last *)
Definition last_hps (k : nat) (h : list R) (os : list xop) : list R :=
  List.fold_left (fun h o => if o is XHps j h' then (if Nat.eqb j k then h' else h) else h) os h.
Definition last_weights (w : list R) (os : list xop) : list R := List.fold_left (fun w o => if o is XWeights w' then w' else w) os w.

Section Spec.
Variables (P : Type) (p0 : P) (kf : nat -> P -> P -> list R -> R) (mf : nat -> option (P -> list R -> R)).
Variables (x : list P) (liks : list lik) (hs : list (list R)) (os : list xop).
(** component k: means of the stations observed with their variances *)
Definition comp (k : nat) : lik := List.nth k liks (Lik [::] [::] R0).
Definition comp_data (k : nat) : @dataset P R (list R) :=
  DS x (lk_mean (comp k)) (lk_var (comp k)) (last_hps k (recentred (List.nth k hs [::]) (lk_mean (comp k))) os).
Definition comp_kernel (k : nat) (a b : P) : R := kf k a b (ds_h (comp_data k)).
Definition comp_cov (k : nat) : 'M[R]_(length x) :=
  \matrix_(i, j) (comp_kernel k (List.nth i x p0) (List.nth j x p0) + (if i == j then List.nth i (lk_var (comp k)) R0 else R0)).
Definition comp_prior (k : nat) (z : P) : R := if mf k is Some f then f z (ds_h (comp_data k)) else (lsum (lk_mean (comp k)) / INR (length (lk_mean (comp k))))%coqR.
(** mean and variance of component k at z given the data, the variance with the average noise *)
Definition comp_mean (k : nat) (z : P) : R :=
  given_mean (comp_kernel k) (comp_prior k) (fun i : 'I_(length x) => List.nth i x p0) (comp_cov k) (\col_i List.nth i (lk_mean (comp k)) R0) z.
Definition comp_var (k : nat) (z : P) : R :=
  (given_cov (comp_kernel k) (fun i : 'I_(length x) => List.nth i x p0) (comp_cov k) z z + lsum (lk_var (comp k)) / INR (length x))%coqR.
End Spec.
