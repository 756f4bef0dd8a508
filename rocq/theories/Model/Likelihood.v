(** gp_marginal_likelihood.py: log_likelihood 137-179, neg_log_likelihood 212-222, neg_log_likelihood_gradient 224-309,
    neg_log_likelihood_hessian 312-336; gp_likelihood.py: calculate_V_grad 96-99 (the two shapes of a noise gradient).

    Simplifications: exact real arithmetic; the solver returns the solution of the linear system and the log-determinant
    is the logarithm of the determinant (LinalgCfg.v, CholUpdate.v say when); kernel, noise, mean and their gradients are
    functions of the hyperparameters with values at the data points; the gp2Scale refusal 243 and the re-raised
    exceptions of failing gradient callables are left out. *)
From Coq Require Import Reals.
From mathcomp Require Import all_ssreflect all_algebra.
From Verif Require Import Proofs.RealMx.
Set Implicit Arguments.
Unset Strict Implicit.
Unset Printing Implicit Defensive.
Import GRing.Theory.
Local Open Scope ring_scope.

Section Likelihood.
Variables n c p : nat.           (* data points, columns of y, hyperparameters *)
Implicit Types h : 'rV[R]_p.

(** what a noise function returns: one variance per point, or a matrix *)
Inductive noise := NDiag (v : 'cV[R]_n) | NFull (V : 'M[R]_n).
(** addKV, the noise added to the kernel matrix *)
Definition noise_mx (N : noise) : 'M[R]_n := match N with NDiag v => diag_mx v^T | NFull V => V end.

Record model := Model {
  kern : 'rV[R]_p -> 'M[R]_n; noisef : 'rV[R]_p -> noise; meanf : 'rV[R]_p -> 'cV[R]_n;
  dkern : 'rV[R]_p -> 'I_p -> 'M[R]_n; dnoise : 'rV[R]_p -> 'I_p -> noise; dmean : 'rV[R]_p -> 'I_p -> 'cV[R]_n }.
Variables (g : model) (y : 'M[R]_(n, c)).

Definition KV h : 'M[R]_n := kern g h + noise_mx (noisef g h).
Definition y_mean h : 'M[R]_(n, c) := \matrix_(i, j) (y i j - meanf g h i 0).
Definition KVinvY h : 'M[R]_(n, c) := invmx (KV h) *m y_mean h.

(** 137-179 *)
Definition log_likelihood h : R :=
  (let l1 := (\sum_i \sum_j y_mean h i j * KVinvY h i j) / c%:R in
   - (1 / 2%:R) * (l1 + ln (\det (KV h)) + n%:R * ln (2%:R * PI)%R))%R.
Definition neg_log_likelihood h : R := (- log_likelihood h)%R.

(** 224-309; the two values of ram_economy evaluate the same expression, once from an array computed up front 266-281
    and once per direction 290-304 *)
Definition dK_dH h (i : 'I_p) : 'M[R]_n := dkern g h i + noise_mx (dnoise g h i).
Definition neg_log_likelihood_gradient h (component : 'I_c) : 'rV[R]_p :=
  let b := col component (KVinvY h) in
  let bbT := b *m b^T in
  \row_i
    (let dL_dHm := (- (dmean g h i)^T *m b) 0 0 in
     let matr := invmx (KV h) *m dK_dH h i in
     let dL_dH := if dL_dHm == 0
                  then - (1 / 2%:R) * ((\sum_k \sum_l bbT k l * dK_dH h i l k) - \tr matr)
                  else 0 in
     dL_dH + dL_dHm).

(** 312-336, for a given gradient function; None stands for hyperparameters=None, whose length is asked for *)
Definition neg_log_likelihood_hessian (grad : 'rV[R]_p -> 'rV[R]_p) (eps : R) (oh : option 'rV[R]_p) : option 'M[R]_p :=
  if oh is Some h then
    let d2 : 'M[R]_p := \matrix_(i, j)
      if (i <= j)%N then (grad (h + eps *: delta_mx 0 i) 0 j - grad h 0 j) / eps else 0 in
    Some (d2 + d2^T - diag_mx (\row_i d2 i i))
  else None.
End Likelihood.
