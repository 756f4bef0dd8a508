(** gp_bo.py 115-523: the surrogate of the search, its analytic derivatives, its least-squares mean, the settings it is
    trained with, the acquisition and its maximizer. (The Laplace approximation 397-435 is in Model/Laplace.v.)

    Simplifications: exact real arithmetic; a point is the function giving coordinate i, next to the number [D] of
    coordinates, and hyperparameters are the function giving entry i; everything is written for one entry of the arrays
    numpy builds by broadcasting; the data are n points and n values; the least-squares solver, the sorting permutation,
    scipy's minimizer and the normal distribution function are oracles; the training of the surrogate itself is GP.train
    (Model/Training.v), the result of which enters as [s_hps] and the stored inverse [s_inv]. *)
From Coq Require Import Reals.
From Verif Require Import Model.Prelude Model.Kernels Model.BO Spec.Sums.
Local Open Scope R_scope.

(** ** The kernel and its derivatives *)
(** _surrogate_kernel 115-126 *)
Definition surrogate_kernel (D : nat) (x y : point) (hps : nat -> R) : R :=
  hps O * matern2 (aniso_distance D x y (fun i => hps (S i))) 1.
(** _surrogate_kernel_dx 132-164: entry (i, j) of the result, [x] the data point j *)
Definition surrogate_dx (D : nat) (u x : point) (hps : nat -> R) (i : nat) : R :=
  let delta k := (u k - x k) / hps (S k) in
  let r := sqrt (rsum (fun k => delta k ^ 2) D) in
  let radial := - (5 / 3) * hps O * (1 + sqrt 5 * r) * exp (- sqrt 5 * r) in
  radial * delta i / hps (S i).
(** _surrogate_kernel_grad 169-201: row [k] *)
Definition surrogate_grad (D : nat) (x y : point) (hps : nat -> R) (k : nat) : R :=
  let diff i := x i - y i in
  let r := sqrt (rsum (fun i => (diff i / hps (S i)) ^ 2) D) in
  let decay := exp (- sqrt 5 * r) in
  let common := 5 / 3 * hps O * (1 + sqrt 5 * r) * decay in
  match k with
  | O => (1 + sqrt 5 * r + 5 / 3 * r ^ 2) * decay
  | S i => if (i <? D)%nat then common * diff i ^ 2 / hps (S i) ^ 3 else 0
  end.
(** _homoscedastic_noise 299-303, _homoscedastic_noise_grad 204-210: the same for every point *)
Definition learned_noise (D : nat) (hps : nat -> R) : R := Rmax (hps (S D)) (/ 10 ^ 12).
Definition learned_noise_grad (D k : nat) : R := if (k =? S D)%nat then 1 else 0.

(** ** The mean *)
(** a row of the design matrix 284, 292: one, the coordinates, their squares *)
Definition design_row (D : nat) (x : point) (j : nat) : R :=
  match j with O => 1 | S i => if (i <? D)%nat then x i else x (i - D)%nat ^ 2 end.
Definition n_coef (D : nat) : nat := (1 + 2 * D)%nat.
(** mean_f 291-293 *)
Definition poly_mean (D : nat) (coef : nat -> R) (x : point) : R := rsum (fun j => design_row D x j * coef j) (n_coef D).
(** _polynomial_mean 265-296; np.linalg.lstsq: rows, columns, matrix, right-hand side *)
Definition lstsq_oracle := nat -> nat -> (nat -> nat -> R) -> (nat -> R) -> nat -> R.
Definition polynomial_mean (lstsq : lstsq_oracle) (D n : nat) (us : nat -> point) (ys : nat -> R) : option (nat -> R) :=
  if (n <? 2 * n_coef D)%nat then None
  else Some (lstsq n (n_coef D) (fun a => design_row D (us a)) ys).
(** _polynomial_mean_dx 213-219 *)
Definition poly_mean_dx (D : nat) (coefficients : option (nat -> R)) (u : point) (i : nat) : R :=
  match coefficients with None => 0 | Some c => c (1 + i)%nat + 2 * c (1 + D + i)%nat * u i end.

(** ** The fitted surrogate *)
Record surrogate := Sur { s_dim : nat; s_n : nat; s_x : nat -> point; s_y : nat -> R; s_hps : nat -> R;
                          s_coef : option (nat -> R); s_inv : nat -> nat -> R }.
(** the prior mean of the GP: the given function, or gp_prior.py _default_mean_function 449-458 *)
Definition prior_mean (g : surrogate) (u : point) : R :=
  match s_coef g with Some c => poly_mean (s_dim g) c u | None => rsum (s_y g) (s_n g) / INR (s_n g) end.
(** gp.kv.KVinvY: the inverse stored in mode CholInv times the centred values (gp_kv.py 682) *)
Definition kvinv_y (g : surrogate) (a : nat) : R := rsum (fun b => s_inv g a b * (s_y g b - prior_mean g (s_x g b))) (s_n g).
Definition cross (g : surrogate) (u : point) (a : nat) : R := surrogate_kernel (s_dim g) (s_x g a) u (s_hps g).
(** gp_kv.py 682: solve in mode CholInv *)
Definition kv_solve (g : surrogate) (b : nat -> R) (a : nat) : R := rsum (fun c => s_inv g a c * b c) (s_n g).
(** gp_posterior.py posterior_mean 157-160; posterior_covariance(variance_only=True) 235-244, 257-258 *)
Definition gp_mean (g : surrogate) (u : point) : R := prior_mean g u + rsum (fun a => cross g u a * kvinv_y g a) (s_n g).
Definition gp_var (g : surrogate) (u : point) : R :=
  let v := surrogate_kernel (s_dim g) u u (s_hps g) - rsum (fun a => cross g u a * kv_solve g (cross g u) a) (s_n g) in
  if Rlt_dec v 0 then 0 else v.
(** _posterior_mean_var_and_grad 222-262 *)
Definition var_floor (g : surrogate) : R := / 10 ^ 10 * Rmax (s_hps g O) tiny.
Definition post (g : surrogate) (u : point) : R * R * (nat -> R) * (nat -> R) :=
  let k := cross g u in
  let dk i a := surrogate_dx (s_dim g) u (s_x g a) (s_hps g) i in
  let alpha := kv_solve g k in
  let prior := match s_coef g with None => 0 | Some c => poly_mean (s_dim g) c u end in
  let mean := prior + rsum (fun a => k a * kvinv_y g a) (s_n g) in
  let d_mean i := poly_mean_dx (s_dim g) (s_coef g) u i + rsum (fun a => dk i a * kvinv_y g a) (s_n g) in
  let var := s_hps g O - rsum (fun a => k a * alpha a) (s_n g) in
  let d_var i := - 2 * rsum (fun a => dk i a * alpha a) (s_n g) in
  if Rle_dec var (var_floor g) then (mean, var_floor g, d_mean, fun _ => 0) else (mean, var, d_mean, d_var).

(** ** The settings of the surrogate's training, _fit_surrogate 306-394 *)
(** np.mean, np.var *)
Definition mean_of (f : nat -> R) (n : nat) : R := rsum f n / INR n.
Definition var_of (f : nat -> R) (n : nat) : R := rsum (fun a => (f a - mean_of f n) ^ 2) n / INR n.
Record settings := Settings { f_coef : option (nat -> R); f_scale : R; f_count : nat; f_init : nat -> R;
                              f_lo : nat -> R; f_hi : nat -> R; f_noise : option (nat -> R) }.
Definition fit_settings (lstsq : lstsq_oracle) (D n : nat) (us : nat -> point) (ys : nat -> R) (vs : option (nat -> R)) : settings :=
  let coef := polynomial_mean lstsq D n us ys in
  let residual a := match coef with Some c => ys a - poly_mean D c (us a) | None => ys a - mean_of ys n end in
  let s0 := var_of residual n in
  let scale := if Rle_dec s0 0 then (if Req_EM_T (var_of ys n) 0 then 1 else var_of ys n) else s0 in
  let nugget := Rmax (/ 10 ^ 7 * scale) (/ 10 ^ 12) in
  let init k := match k with O => scale | S i => if (i <? D)%nat then 3 / 10 else Rmax (/ 10 ^ 4 * scale) nugget end in
  let lo k := match k with O => / 10 ^ 4 * scale + / 10 ^ 12 | S i => if (i <? D)%nat then / 10 ^ 2 else nugget end in
  let hi k := match k with O => 10 ^ 2 * scale + / 10 ^ 9 | S i => if (i <? D)%nat then 2 else Rmax scale (10 * nugget) end in
  match vs with
  | Some v => Settings coef scale (1 + D) init lo hi (Some (fun a => Rmax (v a) nugget))
  | None => Settings coef scale (2 + D) init lo hi None
  end.

(** ** The acquisition *)
Section Acquisition.
Variable Phi : R -> R.                       (* scipy.stats.norm.cdf *)
Definition pdf (z : R) : R := exp (- z ^ 2 / 2) / sqrt (2 * PI).
Definition ei (imp std : R) : R := imp * Phi (imp / std) + std * pdf (imp / std).
(** _noisy_expected_improvement 441-456, one candidate *)
Definition nei (g : surrogate) (samples : list R) (u : point) : R :=
  let std := sqrt (Rmax (gp_var g u) (/ 10 ^ 12)) in
  Rmax (rmean (map (fun y => ei (gp_mean g u - y) std) samples)) 0.
(** _nei_value_and_grad 460-488 *)
Definition nei_grad (g : surrogate) (samples : list R) (u : point) : R * (nat -> R) :=
  let '(mean, var, d_mean, d_var) := post g u in
  let std := sqrt var in
  let value := rmean (map (fun y => ei (mean - y) std) samples) in
  let c := rmean (map (fun y => Phi ((mean - y) / std)) samples) in
  let p := rmean (map (fun y => pdf ((mean - y) / std)) samples) in
  if Rle_dec value 0 then (0, fun _ => 0) else (value, fun i => c * d_mean i + p * (d_var i / (2 * std))).
End Acquisition.

(** ** _maximize_acquisition 491-523 *)
Record opt_result := Opt { o_success : bool; o_x : point; o_fun : R }.
Inductive acq_err := ENoStart.
Section Maximize.
Variable argsort : list R -> list nat.
Variable minimize : (point -> R * (nat -> R)) -> point -> opt_result.   (* scipy.optimize.minimize, L-BFGS-B on the unit cube *)
Variables (acq : point -> R) (acq_grad : point -> R * (nat -> R)).
Definition rmaximum (l : list R) : R := match l with [] => 0 | a :: t => fold_left Rmax t a end.
Definition objective_of (z : point) : R * (nat -> R) := let (v, d) := acq_grad z in (- v, fun i => - d i).
Definition climb (best : point * R) (u0 : point) : point * R :=
  let r := minimize objective_of u0 in
  if o_success r && rltb (snd best) (- o_fun r) then (fun i => clip (o_x r i), - o_fun r) else best.
Definition maximize_acquisition (raw : list point) (n_restarts : nat) : res acq_err (point * R) :=
  let vals := map acq raw in
  let starts := map (nthp raw) (firstn n_restarts (argsort (map Ropp vals))) in
  match starts with
  | [] => Err ENoStart                       (* starts[0] of an empty array *)
  | s0 :: _ => Ok (fold_left climb starts (s0, rmaximum vals))
  end.
End Maximize.
