(** gp.py __init__ 483-560, set_hyperparameters 684-687, update_gp_data 689-749 with what they drive: gp_prior.py, gp_likelihood.py,
    gp_kv.py _refresh 404-423 (GPState.v, Solvers.v); then gp_posterior.py posterior_mean 139-182, posterior_covariance 229-288,
    _cross_solve_product 120-136 and gp_marginal_likelihood.py log_likelihood 137-179 at the stored state (Posterior.v).

    The object as a whole: data, hyperparameters, prior, noise and the solver state of the mode in force, which predictions and
    log_likelihood() read.  Simplifications: those of GPState.v, Solvers.v and Posterior.v; exact real arithmetic; one column
    of y; kernel, mean and noise callables act point by point; no gp2Scale; the product space of tasks is handled in
    TaskArray.v. *)
From Coq Require Import Reals List ZArith.
From mathcomp Require Import all_ssreflect all_algebra.
From Verif Require Import Model.Prelude Model.GPState Model.Likelihood Model.Solvers Model.Posterior Proofs.RealMx.
Set Implicit Arguments.
Unset Strict Implicit.
Unset Printing Implicit Defensive.
Import GRing.Theory Num.Theory.
Local Open Scope ring_scope.

Section LifeCycle.
Variables P H : Type.
(** the user's callables, point by point; None: the default mean *)
Variables (k : P -> P -> H -> R) (mu : option (P -> H -> R)).
Inductive noise_choice := Measured | Default | Diag (nu : P -> H -> R) | Full (nu : P -> P -> H -> R).
Variable nz : noise_choice.
(** np.mean and the default noise level, gp_likelihood.py 103 *)
Variables favg defnoise : list R -> R.

Definition kernel_call (xs ys : list P) (h : H) : list (list R) := List.map (fun x => List.map (fun y => k x y h) ys) xs.
Definition mean_call : option (list P -> H -> list R) :=
  omap (fun (f : P -> H -> R) (xs : list P) h => List.map (fun x => f x h) xs) mu.
Definition noise_call : @noise_model P R H :=
  match nz with
  | Measured => NoiseMeasured
  | Default => NoiseDefault
  | Diag nu => NoiseFun (fun xs h => VDiag (List.map (fun x => nu x h) xs))
  | Full nu => NoiseFun (fun xs h => VFull (List.map (fun x => List.map (fun y => nu x y h) xs) xs))
  end.
(** data, prior and noise; which matrix is factored is kept by the solver below, so the flag of GPState.v is idle *)
Notation gpst := (@gp P R H).
Definition g_build := GPState.build R0 Rplus kernel_call mean_call favg defnoise noise_call false.
Definition g_step := GPState.gstep R0 Rplus kernel_call mean_call favg defnoise noise_call false.

(** the solver state, Solvers.v *)
Variable cho_factor np_inv : forall n, 'M[R]_n -> option 'M[R]_n.
Variable LUt : nat -> Type.
Variable splu : forall n, 'M[R]_n -> option (LUt n).
Variable lu_solve : forall n k, LUt n -> 'M[R]_(n, k) -> 'M[R]_(n, k).
Variable lu_diag : forall n, LUt n -> 'rV[R]_n.
Variable iterate : smode -> forall n k, 'M[R]_n -> 'M[R]_(n, k) -> 'M[R]_(n, k).
Variable estimate : nat -> forall n, 'M[R]_n -> R * option R.
Variable Obj : nat -> Type.
Variable c_factor : forall n, 'M[R]_n -> Obj n.
Variable c_solve : forall n k, Obj n -> 'M[R]_(n, k) -> 'M[R]_(n, k).
Variable c_logdet : forall n, Obj n -> R.
Variable mode : smode.
(** np.log of an absolute value *)
Definition lnabs (a : R) : R := ln (Rabs a).
Notation kvt n := (@kv R_rcfType R_zmodType LUt Obj 1 n).

Record life := Life { l_gp : gpst; l_kv : kvt (length (xd l_gp)) }.

(** y_data - m, gp_kv.py 404-423 *)
Definition resid (s : gpst) : 'cV[R]_(length (xd s)) := \col_i (List.nth i (yd s) R0 - List.nth i (pm s) R0).
Definition install (s : gpst) (f : (nat -> nat -> R) -> 'cV[R]_(length (xd s)) -> option (kvt (length (xd s)))) : option life :=
  if addKV R0 Rplus (pK s) (pV s) is Some KV then omap (@Life s) (f (mget R0 KV) (resid s)) else None.
Definition set_from (s : gpst) (mm : memory R_rcfType) : option life :=
  @install s (fun KV y => kv_set lnabs cho_factor np_inv splu lu_solve lu_diag iterate estimate c_factor c_solve c_logdet mode KV y mm).
Definition append_from (t : life) (s : gpst) : option life :=
  @install s (fun KV y => kv_append lnabs cho_factor np_inv splu lu_solve lu_diag iterate estimate c_factor c_solve c_logdet mode (l_kv t) KV y).

(** GP(...) *)
Definition l_build (x : list P) (y nv : list R) (h : H) : option life :=
  if g_build x y nv h is Some s then set_from s (Mem None 0) else None.
(** update_gp_data and set_hyperparameters: a rank-n update is used when appending and asked for, gp.py 733-749 *)
Definition l_step (t : life) (o : @gop P R H) : option life :=
  if g_step (l_gp t) o is Some s then
    match o with
    | GAppend true _ _ _ => append_from t s
    | _ => set_from s (v_mem (l_kv t))
    end
  else None.
Fixpoint l_steps (t : life) (os : list (@gop P R H)) : option life :=
  if os is o :: r then (if l_step t o is Some t' then l_steps t' r else None) else Some t.

Section Read.
Variables (p0 : P) (t : life).
Let s := l_gp t.
Let n := length (xd s).
Definition x_at (i : 'I_n) : P := List.nth i (xd s) p0.
Definition kern_now (a b : P) : R := k a b (hp s).
Definition mean_now (a : P) : R := if mu is Some f then f a (hp s) else favg (yd s).
(** log_likelihood(), gp_marginal_likelihood.py 154-179 *)
Definition l_loglik : R :=
  (- (1 / 2%:R) * ((\sum_i resid s i 0 * v_KVinvY (l_kv t) i 0) + v_logdet (l_kv t) + n%:R * ln (2%:R * PI)%R))%R.
(** posterior_mean(x_pred) *)
Definition l_mean q (xp : 'I_q -> P) : 'cV[R]_q :=
  \col_i (mean_now (xp i) + ((kmat kern_now x_at xp)^T *m v_KVinvY (l_kv t)) i 0).
(** self.KVinv: the modes that store an inverse *)
Definition stored_inverse : option 'M[R]_n :=
  match v_factor (l_kv t) with FCholInv _ B | FInv _ B => Some B | _ => None end.
(** posterior_covariance(x_pred, variance_only); [garbage] is what np.empty returned *)
Definition l_cov q (garbage : 'M[R]_q) (xp : 'I_q -> P) (variance_only : bool) : 'cV[R]_q * option 'M[R]_q :=
  posterior_covariance kern_now 1 x_at (fun q _ => NDiag (0 : 'cV[R]_q)) stored_inverse
    (cross_solve_product (fun m (b : 'M[R]_(n, m)) => solve lu_solve iterate c_solve mode (v_factor (l_kv t)) b) None false Z0 garbage)
    xp variance_only false.
End Read.
End LifeCycle.
