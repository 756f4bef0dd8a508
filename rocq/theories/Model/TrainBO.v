(** GP.train(method="bo") as a whole, over the GP of LifeCycle.v: /repo/fvgp/gp.py train 1018-1036 (starting point), 1038-1067
    (the negative log likelihood as objective, the estimator's noise reading), 1090-1111 (the run, then set_hyperparameters);
    gp_training.py 53-54 and the dispatch to bayesian_optimize of gp_bo.py (BO.v).

    Simplifications: those of LifeCycle.v, BO.v and Training.v; synchronous training with the default objective; the objective at
    some hyperparameters is evaluated as set_hyperparameters with them would leave it (that the likelihood recomputed for given
    hyperparameters and the stored one agree is C129); a likelihood that cannot be computed raises; the exact modes report no
    noise.  The surrogate is an oracle.  No proofs here. *)
From Coq Require Import Reals List ZArith.
From mathcomp Require Import all_ssreflect all_algebra.
From Verif Require Import Model.Prelude Model.Ext Model.GPState Model.Likelihood Model.Solvers Model.Posterior Model.LifeCycle Model.BO Model.Training Proofs.RealMx.
Set Implicit Arguments.
Unset Strict Implicit.
Unset Printing Implicit Defensive.

Section TrainBO.
Variable P : Type.
Notation H := (list R).
Variables (k : P -> P -> H -> R) (mu : option (P -> H -> R)) (nz : noise_choice P H) (favg defnoise : list R -> R).
Variable cho_factor np_inv : forall n, 'M[R]_n -> option 'M[R]_n.
Variable LUt : nat -> Type.
Variable splu : forall n, 'M[R]_n -> option (LUt n).
Variable lu_solve : forall n k, LUt n -> 'M[R]_(n, k) -> 'M[R]_(n, k).
Variable lu_diag : forall n, LUt n -> 'rV[R]_n.
Variable iterate : smode -> forall n k, 'M[R]_n -> 'M[R]_(n, k) -> 'M[R]_(n, k).
Variable estimate : nat -> forall n, 'M[R]_n -> R * option R.
Variable Obj : nat -> Type.
Variable c_factor : forall n, 'M[R]_n -> Obj n.
Variable c_solve : forall n k, Obj n -> 'M[R]_(n, k) -> 'M[R]_(n, k).
Variable c_logdet : forall n, Obj n -> R.
Variable mode : smode.
Notation lifet := (life P H LUt Obj).
Definition set_hps_to (t : lifet) (h : H) : option lifet :=
  l_step k mu nz favg defnoise cho_factor np_inv splu lu_solve lu_diag iterate estimate c_factor c_solve c_logdet mode t (@GSetHps P R H h).

(** neg_log_likelihood, gp_marginal_likelihood.py 207-222 *)
Definition neg_lik (t : lifet) (h : H) : option R := omap (fun t' => Ropp (l_loglik t')) (set_hps_to t h).
(** _LogAffineTransform of the bounds; [ls] the requested log scales *)
Definition bo_dims (bounds : list (R * R)) (ls : nat -> option bool) : list dimt :=
  List.map (fun p => make_dim (fst (snd p)) (snd (snd p)) (ls (fst p))) (List.combine (List.seq 0 (length bounds)) bounds).
(** the hyperparameters in force if they lie in the bounds, a random vector otherwise; [us] the draws *)
Definition bo_start (t : lifet) (bounds : list (R * R)) (us : nat -> R) : option H :=
  match start_point None (List.map Fin (hp (l_gp t))) (List.map (fun b => (Fin (fst b), Fin (snd b))) bounds) us with
  | Ok x => Some (List.map to_r x) | Err _ => None end.
Definition train_bo G fit acquire pm sobol (c : bo_cfg) (t : lifet) (bounds : list (R * R)) (ls : nat -> option bool) (us : nat -> R) : option lifet :=
  if bo_start t bounds us is Some init then
    match bayesian_optimize c (bo_dims bounds ls) (fun _ h => option_map Fin (neg_lik t h)) (Some (fun _ _ => None)) None (fun _ => false) G fit acquire pm sobol init with
    | Ok (info, _) => set_hps_to t (i_x info)
    | Err _ => None
    end
  else None.
End TrainBO.
