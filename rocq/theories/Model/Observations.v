(** Predictions and likelihood as functions of the observations, defaults included: gp_prior.py _default_mean_function 449-458;
    gp_likelihood.py 24-52, calculate_V 89-94, _default_noise_function 102-104, _measured_noise_function 106-110; then
    gp_posterior.py posterior_mean 139-182 and posterior_covariance 229-288, 554-569 (Model/Posterior.v) and
    gp_marginal_likelihood.py log_likelihood 137-179 (Model/Likelihood.v) for a GP built from these observations.

    Simplifications: those of Posterior.v and Likelihood.v (exact real arithmetic, exact solves, stored hyperparameters); kernel,
    mean and noise callables act point by point; a noise function returns variances (a 1-d array).  No proofs here. *)
From Coq Require Import Reals.
From mathcomp Require Import all_ssreflect all_algebra.
From Verif Require Import Proofs.RealMx Model.Likelihood Model.Posterior.
Set Implicit Arguments.
Unset Strict Implicit.
Unset Printing Implicit Defensive.
Import GRing.Theory.
Local Open Scope ring_scope.

(** x_data, y_data (one column per output), noise_variances *)
Record obs X n c := Obs { o_x : 'I_n -> X; o_y : 'M[R]_(n, c); o_nv : 'cV[R]_n }.
(** np.mean of a 2-d array *)
Definition np_mean n c (y : 'M[R]_(n, c)) : R := ((\sum_i \sum_j y i j) / (n * c)%:R)%R.
(** prior_mean_function: not given or given *)
Inductive mean_arg X := DefaultMean | GivenMean (m : X -> R).
(** noise_function not given and noise_variances not given or given; noise_function given *)
Inductive noise_arg X := DefaultNoise | MeasuredNoise | NoiseFunction (v : X -> R).
Arguments DefaultMean {X}. Arguments DefaultNoise {X}. Arguments MeasuredNoise {X}.

Section Observations.
Variables (X : Type) (kern : X -> X -> R) (mk : mean_arg X) (nk : noise_arg X).
Section Data.
Variables (n c : nat) (d : obs X n c).

(** 449-458: the mean of all entries of y_data *)
Definition mean_at (x : X) : R := match mk with DefaultMean => np_mean (o_y d) | GivenMean m => m x end.
(** 89-110; the default is (np.mean(abs(y_data)) / 100) ** 2 *)
Definition noise_for q (x : 'I_q -> X) : noise q :=
  match nk with
  | DefaultNoise => NDiag (const_mx ((np_mean (map_mx Rabs (o_y d)) / 100%:R) ^+ 2)%R)
  | MeasuredNoise => measured_noise_function (o_nv d) x
  | NoiseFunction v => NDiag (\col_i v (x i))
  end.
Definition V : noise n := noise_for (o_x d).

Definition predict_mean q (x_pred : 'I_q -> X) : 'M[R]_(q, c) := posterior_mean kern mean_at (o_x d) (o_y d) V x_pred.
(** v(x) and S of posterior_covariance(x_pred, add_noise=noisy) *)
Definition predict_cov q (x_pred : 'I_q -> X) (noisy : bool) : 'cV[R]_q * option 'M[R]_q :=
  posterior_covariance kern c (o_x d) noise_for None (fun k => k^T *m invmx (KVmx kern (o_x d) V) *m k) x_pred false noisy.
(** log_likelihood() *)
Definition whole_model : model n 0 :=
  Model (fun _ => Kmx kern (o_x d)) (fun _ => V) (fun _ => meanv mean_at (o_x d)) (fun _ _ => 0) (fun _ _ => NDiag 0) (fun _ _ => 0).
Definition loglik : R := log_likelihood whole_model (o_y d) 0.
End Data.
End Observations.
