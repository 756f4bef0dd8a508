(** The mixture that likelihood objects describe at a station. *)
From Coq Require Import Reals List.
From Verif Require Import Model.GGMPDensity Model.MixtureInit.
Import ListNotations.
Local Open Scope R_scope.

(** the mean and the variance of component c at station i *)
Definition mean_at (c : lik) (i : nat) : R := nth i (lk_mean c) 0.
Definition var_at (c : lik) (i : nat) : R := nth i (lk_var c) 0.
Definition weights_of (l : list lik) : R := lsum (map lk_weight l).
Definition total_mean (l : list lik) (i : nat) : R := lsum (map (fun c => lk_weight c * mean_at c i) l).
(** E X^2 - (E X)^2 *)
Definition total_var (l : list lik) (i : nat) : R :=
  lsum (map (fun c => lk_weight c * (var_at c i + mean_at c i * mean_at c i)) l) - total_mean l i * total_mean l i.
