(** Vocabulary for statements about the surrogate: derivatives of functions of several variables, expected gains,
    least squares and what is required of the library routines. *)
From Coq Require Import Reals List Lia.
From Coquelicot Require Import Coquelicot.
From Verif Require Import Model.Kernels Model.Surrogate Spec.Sums Spec.MetricsSpec.
Import ListNotations.
Local Open Scope R_scope.

(** [df] (entries below m) gives the slope of [f] at [u] in every direction [v] *)
Definition moved (u v : nat -> R) (t : R) : nat -> R := fun i => u i + t * v i.
Definition gradient_at (m : nat) (f : (nat -> R) -> R) (u df : nat -> R) : Prop :=
  forall v, derivable_pt_lim (fun t => f (moved u v t)) 0 (rsum (fun i => df i * v i) m).
(** [P] is an inverse of the matrix [K] of size n *)
Definition inverse_of (n : nat) (P K : nat -> nat -> R) : Prop :=
  forall i j, (i < n)%nat -> (j < n)%nat -> rsum (fun k => P i k * K k j) n = if Nat.eqb i j then 1 else 0.
(** the expected excess over y of a normal variable with mean m and standard deviation s is v *)
Definition expected_gain (m s y v : R) : Prop :=
  forall eps, 0 < eps -> exists B, forall b, B < b -> Rabs (RInt (fun t => (t - y) * (normal_pdf ((t - m) / s) / s)) y b - v) < eps.
(** the arithmetic mean *)
Definition mean_list (l : list R) : R := fold_right Rplus 0 l / INR (length l).
(** np.linalg.lstsq: no other coefficients leave a smaller sum of squares *)
Definition sum_squares (rows cols : nat) (A : nat -> nat -> R) (b c : nat -> R) : R :=
  rsum (fun a => (b a - rsum (fun j => A a j * c j) cols) ^ 2) rows.
Definition least_squares (lstsq : nat -> nat -> (nat -> nat -> R) -> (nat -> R) -> nat -> R) : Prop :=
  forall rows cols A b c, sum_squares rows cols A b (lstsq rows cols A b) <= sum_squares rows cols A b c.
(** the unit cube *)
Definition in_cube (D : nat) (u : nat -> R) : Prop := forall i, (i < D)%nat -> 0 <= u i <= 1.
(** scipy's minimize with L-BFGS-B on the unit cube, started inside it: a reported success is a point of the cube with its value *)
Definition box_minimizer {A} (D : nat) (x_of : A -> nat -> R) (fun_of : A -> R) (success : A -> bool)
    (minimize : ((nat -> R) -> R * (nat -> R)) -> (nat -> R) -> A) : Prop :=
  forall f u0, in_cube D u0 -> success (minimize f u0) = true ->
    in_cube D (x_of (minimize f u0)) /\ fun_of (minimize f u0) = fst (f (x_of (minimize f u0))).
(** a function of the first D coordinates *)
Definition first_coordinates {A} (D : nat) (f : (nat -> R) -> A) : Prop :=
  forall x y, (forall i, (i < D)%nat -> x i = y i) -> f x = f y.
(** a surrogate fitted to its data: the mean comes from the data, the stored matrix is the inverse of the covariance of
    the observations, which have noise variances [noise]; the hyperparameters are positive *)
Record is_fit (lstsq : nat -> nat -> (nat -> nat -> R) -> (nat -> R) -> nat -> R) (noise : nat -> R) (g : surrogate) : Prop := {
  fit_mean : s_coef g = polynomial_mean lstsq (s_dim g) (s_n g) (s_x g) (s_y g);
  fit_inv : inverse_of (s_n g) (s_inv g)
    (fun a b => surrogate_kernel (s_dim g) (s_x g a) (s_x g b) (s_hps g) + if Nat.eqb a b then noise a else 0);
  fit_hps : forall i, (i <= s_dim g)%nat -> 0 < s_hps g i }.
