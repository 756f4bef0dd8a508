(** gp_posterior.py: _cross_solve_product 120-136, posterior_mean 139-182, posterior_mean_grad 184-226,
    posterior_covariance 229-288, posterior_covariance_grad 290-331, joint_gp_prior 334-355, joint_gp_prior_grad 356-383,
    entropy 387-390, gp_entropy 393-415, gp_entropy_grad 418-423, kl_div 427-441, gp_kl_div 444-457,
    mutual_information 460-461, gp_mutual_information 464-477, gp_total_correlation 480-496,
    gp_relative_information_entropy(_set) 499-526, posterior_probability 529-552, add_noise 554-569;
    gp_likelihood.py: _measured_noise_function 106-110; gp_prior.py: compute_covariances 217-225, _d_kernel_dx 402-409.

    Simplifications: exact real arithmetic; predictions with the stored hyperparameters (hyperparameters=None), which are
    therefore left out of the signatures; sparse and dense matrices are the same; [numpy.linalg] inverses, solutions and
    log|det| are the mathematical ones; the warnings are left out; the finite differences of kernel and mean in the input
    are functions [dk], [dkk], [dm] given to the model.  The product space of points and tasks is handled in TaskArray.v;
    here a prediction point is a point of that space. *)
From Coq Require Import Reals ZArith.
From mathcomp Require Import all_ssreflect all_algebra.
From Verif Require Import Proofs.RealMx Model.Likelihood.
Set Implicit Arguments.
Unset Strict Implicit.
Unset Printing Implicit Defensive.
Import GRing.Theory Num.Theory.
Local Open Scope ring_scope.

(** calculate_logdet, gp_lin_alg.py 1484-1490: log|det A| *)
Definition logdet n (A : 'M[R]_n) : R := ln (Rabs (\det A)).

Section Chunks.
Variables (n q : nat) (solve : forall m, 'M[R]_(n, m) -> 'M[R]_(n, m)).
(** k[:, s:e] *)
Definition slice (k : 'M[R]_(n, q)) (s e : nat) : 'M[R]_(n, e - s) :=
  \matrix_(i, j) if insub (s + j)%N is Some j' then k i j' else 0.
(** product[:, s:e] = B *)
Definition set_slice m (product : 'M[R]_q) (s e : nat) (B : 'M[R]_(q, m)) : 'M[R]_q :=
  \matrix_(i, j) if (s <= j)%N && (j < e)%N then (if insub (j - s)%N is Some j' then B i j' else 0) else product i j.
(** range(0, n_pred, step) for step >= 1 *)
Definition starts (step : nat) : seq nat := [seq x <- [seq (i * step)%N | i <- iota 0 q] | (x < q)%N].
(** 120-136; [garbage] is what np.empty returned *)
Definition cross_solve_product (chunk : option Z) (gp2Scale : bool) (batch_size : Z) (garbage : 'M[R]_q) (k : 'M[R]_(n, q)) : 'M[R]_q :=
  let chunk_size := if chunk is Some z then z else if gp2Scale then batch_size else Z.of_nat q in
  let step := Z.to_nat (Z.max 1 (Z.min chunk_size (Z.of_nat q))) in
  foldl (fun product start =>
           let e := minn (start + step) q in
           set_slice product start e (k^T *m solve (slice k start e))) garbage (starts step).
End Chunks.

(** gp_likelihood.py 106-110: the noise of a batch of points from stored noise variances *)
Definition measured_noise_function n (noise_variances : 'cV[R]_n) X q (x : 'I_q -> X) : noise q :=
  NDiag (\col_i if q == n then (if insub (i : nat) is Some i' then noise_variances i' 0 else 0)
                else (\sum_j noise_variances j 0) / n%:R).

Section Posterior.
Variables (X : Type) (kern : X -> X -> R) (mean : X -> R).
Definition kmat m n (x1 : 'I_m -> X) (x2 : 'I_n -> X) : 'M[R]_(m, n) := \matrix_(i, j) kern (x1 i) (x2 j).
Definition meanv n (x : 'I_n -> X) : 'cV[R]_n := \col_i mean (x i).

Variables (n c : nat) (x_data : 'I_n -> X) (y_data : 'M[R]_(n, c)) (V : noise n).
Definition Kmx : 'M[R]_n := kmat x_data x_data.
Definition KVmx : 'M[R]_n := Kmx + noise_mx V.
Definition KVinvYp : 'M[R]_(n, c) := invmx KVmx *m \matrix_(i, j) (y_data i j - mean (x_data i)).

(** 139-182 *)
Definition posterior_mean q (x_pred : 'I_q -> X) : 'M[R]_(q, c) :=
  let k := kmat x_data x_pred in
  let A := k^T *m KVinvYp in
  \matrix_(i, j) (mean (x_pred i) + A i j).

(** 554-569; [noise_at] is calculate_V *)
Variable noise_at : forall q, ('I_q -> X) -> noise q.
Definition add_noise q (x_pred : 'I_q -> X) (v : 'cV[R]_q) (Sg : option 'M[R]_q) : 'cV[R]_q * option 'M[R]_q :=
  match noise_at x_pred with
  | NDiag d => (v + d, if Sg is Some S0 then Some (S0 + diag_mx d^T) else None)
  | NFull N => (v + \col_i N i i, if Sg is Some S0 then Some (S0 + N) else None)
  end.

(** 229-288: v_flat and S_flat; [KVinv] is the stored inverse, [product] is _cross_solve_product *)
Definition fill_diagonal q (S : 'M[R]_q) (v : 'cV[R]_q) : 'M[R]_q := \matrix_(i, j) if i == j then v i 0 else S i j.
Definition posterior_covariance (KVinv : option 'M[R]_n) q (product : 'M[R]_(n, q) -> 'M[R]_q) (x_pred : 'I_q -> X)
    (variance_only noisy : bool) : 'cV[R]_q * option 'M[R]_q :=
  let k := kmat x_data x_pred in
  let kk := kmat x_pred x_pred in
  let direct := let S := kk - product k in (\col_i S i i, Some S) in
  let '(v, Sg) := match KVinv with
    | Some KVi => if variance_only && (c == 1%N)
                  then (\col_i (kk i i - \sum_j \sum_l k j i * KVi j l * k l i), None) else direct
    | None => direct end in
  let '(v, Sg) := if [exists i, v i 0 < 0]
    then let v := \col_i (if v i 0 < 0 then 0 else v i 0) in
         (v, if variance_only then Sg else if Sg is Some S0 then Some (fill_diagonal S0 v) else None)
    else (v, Sg) in
  if noisy then add_noise x_pred v Sg else (v, Sg).

(** 184-226 and 290-331, before the reshaping: [dk x x'] is the finite difference of the kernel in its first argument
    along the direction, [dkk x x'] the one with both arguments moved, [dm] the one of the mean *)
Variables (dk dkk : X -> X -> R) (dm : X -> R).
Definition posterior_mean_grad q (x_pred : 'I_q -> X) (component : 'I_c) : 'cV[R]_q :=
  let k_g : 'M[R]_(q, n) := \matrix_(i, j) dk (x_pred i) (x_data j) in
  \col_i (dm (x_pred i) + (k_g *m col component KVinvYp) i 0).
Definition posterior_covariance_grad q (x_pred : 'I_q -> X) : 'cV[R]_q * 'M[R]_q :=
  let k := kmat x_data x_pred in
  let k_covariance_prod := invmx KVmx *m k in
  let k_g : 'M[R]_(n, q) := (\matrix_(i, j) dk (x_pred i) (x_data j))^T in
  let kk_g : 'M[R]_q := \matrix_(i, j) dkk (x_pred i) (x_pred j) in
  let dSdx := kk_g - (2%:R *: (k_g^T *m k_covariance_prod)) in
  (\col_i dSdx i i, dSdx).

(** 334-423; [jit] is 1e-9 *)
Variable jit : R.
Definition jittered q (A : 'M[R]_q) : 'M[R]_q := A + jit%:M.
Definition joint_gp_prior q (x_pred : 'I_q -> X) : 'cV[R]_(n + q) * 'M[R]_(n + q) :=
  let k := kmat x_data x_pred in
  (col_mx (meanv x_data) (meanv x_pred),
   jittered (block_mx (jittered Kmx) k k^T (kmat x_pred x_pred))).
Definition joint_gp_prior_grad q (x_pred : 'I_q -> X) : 'M[R]_(n + q) :=
  let k_g : 'M[R]_(n, q) := (\matrix_(i, j) dk (x_pred i) (x_data j))^T in
  let kk_g : 'M[R]_q := \matrix_(i, j) dkk (x_pred i) (x_pred j) in
  block_mx 0 k_g k_g^T kk_g.
Definition entropy q (S : 'M[R]_q) : R :=
  (q%:R / 2%:R + q%:R / 2%:R * ln (2%:R * PI)%R + 1 / 2%:R * logdet S)%R.
Definition gp_entropy q (x_pred : 'I_q -> X) : R := entropy (joint_gp_prior x_pred).2.
Definition gp_entropy_grad q (x_pred : 'I_q -> X) : R :=
  (1 / 2%:R * \tr (invmx (joint_gp_prior x_pred).2 *m joint_gp_prior_grad x_pred))%R.

(** 427-441 *)
Definition kl_div q (mu1 mu2 : 'cV[R]_q) (S1 S2 : 'M[R]_q) : R :=
  (let x1 := invmx S2 *m S1 in
   let mu := mu2 - mu1 in
   let x2 := invmx S2 *m mu in
   let kld := 1 / 2%:R * (\tr x1 + (x2^T *m mu) 0 0 - q%:R + (logdet S2 - logdet S1)) in
   Rabs kld)%R.
(** 460-496 *)
Definition mutual_information q r s (joint : 'M[R]_q) (m1 : 'M[R]_r) (m2 : 'M[R]_s) : R :=
  (entropy m1 + entropy m2 - entropy joint)%R.
Definition pred_cov q (x_pred : 'I_q -> X) (noisy : bool) : 'M[R]_q :=
  let kk := jittered (kmat x_pred x_pred) in
  if noisy then (if (add_noise x_pred (\col_i kk i i) (Some kk)).2 is Some S0 then S0 else kk) else kk.
Definition joint_cov q (x_pred : 'I_q -> X) (noisy : bool) : 'M[R]_(n + q) :=
  let k := kmat x_data x_pred in block_mx (jittered Kmx) k k^T (pred_cov x_pred noisy).
Definition gp_mutual_information q (x_pred : 'I_q -> X) (noisy : bool) : R :=
  mutual_information (joint_cov x_pred noisy) (pred_cov x_pred noisy) (jittered Kmx).
Definition gp_total_correlation q (x_pred : 'I_q -> X) (noisy : bool) : R :=
  let k := kmat x_data x_pred in
  let kk := pred_cov x_pred noisy in
  let prod_covariance := block_mx (jittered Kmx) (0 *: k) (0 *: k^T) (\matrix_(i, j) (kk i j * (1%:M : 'M_q) i j)) in
  kl_div 0 0 (joint_cov x_pred noisy) prod_covariance.
End Posterior.

Section PosteriorOne.
Variables (X : Type) (kern : X -> X -> R) (mean : X -> R).
Variables (n : nat) (x_data : 'I_n -> X) (y_data : 'cV[R]_n) (V : noise n).
Variable noise_at : forall q, ('I_q -> X) -> noise q.
Variable jit : R.
(** S_flat of a call that wants the covariance, with the exact product *)
Definition post_S q (x_pred : 'I_q -> X) (noisy : bool) : 'M[R]_q :=
  if (posterior_covariance kern 1 x_data noise_at None
        (fun k => k^T *m invmx (KVmx kern x_data V) *m k) x_pred false noisy).2 is Some S0 then S0 else 0.
(** 444-457 *)
Definition gp_kl_div q (x_pred : 'I_q -> X) (comp_mean : 'cV[R]_q) (comp_cov : 'M[R]_q) : R :=
  kl_div (posterior_mean kern mean x_data y_data V x_pred) comp_mean (jittered jit (post_S x_pred false)) (jittered jit comp_cov).
(** 499-526 *)
Definition gp_relative_information_entropy q (x_pred : 'I_q -> X) (noisy : bool) : R :=
  kl_div (meanv mean x_pred) (posterior_mean kern mean x_data y_data V x_pred)
    (jittered jit (kmat kern x_pred x_pred)) (jittered jit (post_S x_pred noisy)).
Definition gp_relative_information_entropy_set q (x_pred : 'I_q -> X) (noisy : bool) : 'cV[R]_q :=
  \col_i gp_relative_information_entropy (fun _ : 'I_1 => x_pred i) noisy.
(** 529-552; m(x)_flat of a single prediction point is squeezed to a zero-dimensional array, which matmul rejects *)
Definition posterior_probability q (x_pred : 'I_q -> X) (comp_mean : 'cV[R]_q) (comp_cov : 'M[R]_q)
    : option ('cV[R]_q * 'M[R]_q * R) :=
  let gp_mean := posterior_mean kern mean x_data y_data V x_pred in
  let gp_cov := post_S x_pred true in
  let gp_cov_inv := invmx gp_cov in
  let comp_cov_inv := invmx comp_cov in
  let cov := invmx (gp_cov_inv + comp_cov_inv) in
  if q == 1%N then None else
  let mu := cov *m gp_cov_inv *m gp_mean + cov *m comp_cov_inv *m comp_mean in
  let a := gp_mean^T *m gp_cov_inv + comp_mean^T *m comp_cov_inv in
  let b := gp_cov_inv *m gp_mean + comp_cov_inv *m comp_mean in
  let C : R := (1 / 2%:R * ((a *m cov *m b) 0 0
      - ((gp_mean^T *m gp_cov_inv *m gp_mean) 0 0 + (comp_mean^T *m comp_cov_inv *m comp_mean) 0 0)))%R in
  let ln_p : R := ((C + 1 / 2%:R * logdet cov) - (q%:R / 2%:R * ln (2%:R * PI)%R + 1 / 2%:R * (logdet gp_cov + logdet comp_cov)))%R in
  Some (mu, cov, exp ln_p).
End PosteriorOne.
