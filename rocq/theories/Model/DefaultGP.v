(** Likelihood and predictions of a GP with the default kernel as functions of its hyperparameters: gp_prior.py
    _default_kernel 376-400, then Model/Observations.v; the y and x handed to train_mcmc of Model/DefaultTraining.v.

    Simplifications: those of Model/Observations.v and Model/Kernels.v; the likelihood of hyperparameters that are not all finite
    is NaN; a division by a length scale zero is zero.  No proofs here. *)
From Coq Require Import Reals.
From mathcomp Require Import all_ssreflect all_algebra.
From Verif Require Import Proofs.RealMx Model.Ext Model.Kernels Model.MCMC Model.AdaptRun Model.Training Model.DefaultTraining Model.Likelihood Model.Posterior Model.Observations.
Set Implicit Arguments.
Unset Strict Implicit.
Unset Printing Implicit Defensive.
Local Open Scope ring_scope.

Definition kern_of (D : nat) (h : vec) (x y : point) : R := default_kernel D x y (fun k => to_r (List.nth k h NaN)).
Section Data.
Variables (D n c : nat) (mk : mean_arg point) (nk : noise_arg point) (d : obs point n c).
Definition lik_of (h : vec) : ext := if finite h is Some _ then Fin (loglik (kern_of D h) mk nk d) else NaN.
(** np.var runs over all entries of y_data *)
Definition y_list : list R := flatten [seq [seq o_y d i j | j <- enum 'I_c] | i <- enum 'I_n].
Definition x_list : list point := [seq o_x d i | i <- enum 'I_n].
(** GP(x_data, y_data, ...) then train(method="mcmc"): what the run reported and the hyperparameters the GP has afterwards *)
Definition gp_train_mcmc Omega draw init current us n_updates rnd :=
  @train_mcmc Omega draw D y_list x_list lik_of init current us n_updates rnd.
End Data.
