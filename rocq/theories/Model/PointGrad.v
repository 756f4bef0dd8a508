(** Derivatives of predictions with respect to the prediction points: gp_prior.py _d_kernel_dx 402-409; gp_posterior.py
    posterior_mean_grad 184-226, posterior_covariance_grad 291-328 (the entries of "dv/dx"), joint_gp_prior_grad 354-383.

    Simplifications: exact real arithmetic; one prediction point, a function of the column, next to the dtype of the array it
    is in; the data points [xs], the entries [w] of the selected column of KVinvY and the matrix [inv] with which KVsolve
    multiplies are given; None stands for the UFuncTypeError of an in-place addition of a float to a view of an integer array
    (an assignment x1[:, d] = ... truncates instead, [set_item]). *)
From Coq Require Import Reals.
From Verif Require Import Spec.Sums Model.FiniteDiff.
Local Open Scope R_scope.

Section Grad.
Variable k : (nat -> R) -> (nat -> R) -> R.      (* the kernel with its hyperparameters *)
Variable m : (nat -> R) -> R.                    (* the prior mean *)
Variables (n : nat) (xs : nat -> nat -> R).

(** new_points[:, direction] += epsilon: one entry per data point *)
Definition d_kernel_dx (dt : dtype) (x : nat -> R) (d : nat) : option (nat -> R) :=
  match dt with
  | DInt => None
  | DFloat => Some (fun a => (k (set_item dt x d (x d + / 10 ^ 8)) (xs a) - k x (xs a)) / / 10 ^ 8)
  end.

Definition mean_grad (dt : dtype) (w : nat -> R) (x : nat -> R) (d : nat) : option R :=
  let x1 := set_item dt x d (x d + / 10 ^ 6) in
  let mean_der := (m x1 - m x) / / 10 ^ 6 in
  match d_kernel_dx dt x d with
  | None => None
  | Some k_g => Some (mean_der + rsum (fun a => k_g a * w a) n)
  end.

Definition var_grad (dt : dtype) (inv : nat -> nat -> R) (x : nat -> R) (d : nat) : option R :=
  let prod a := rsum (fun b => inv a b * k (xs b) x) n in
  match d_kernel_dx dt x d with
  | None => None
  | Some k_g =>
      let x1 := set_item dt x d (x d + / 10 ^ 6) in
      let kk_g := (k x1 x1 - k x x) / / 10 ^ 6 in
      Some (kk_g - 2 * rsum (fun a => k_g a * prod a) n)
  end.

(** direction=None: one entry per column of the input space; a raise ends the loop *)
Fixpoint all_directions (g : nat -> option R) (D : nat) : option (list R) :=
  match D with
  | O => Some nil
  | S D' => match all_directions g D', g D' with Some l, Some v => Some (l ++ cons v nil)%list | _, _ => None end
  end.

(** joint_gp_prior_grad: row of "dk/dx", diagonal entry of "d kappa/dx", entry of the mean *)
Definition joint_grad (dt : dtype) (x : nat -> R) (d : nat) : option ((nat -> R) * R * R) :=
  match d_kernel_dx dt x d with
  | None => None
  | Some k_g =>
      let x1 := set_item dt x d (x d + / 10 ^ 6) in
      let x2 := set_item dt x d (x d - / 10 ^ 6) in
      Some (k_g, (k x1 x1 - k x2 x2) / (2 * / 10 ^ 6), (m x1 - m x2) / (2 * / 10 ^ 6))
  end.
End Grad.
