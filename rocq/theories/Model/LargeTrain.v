(** A GP under gp2Scale over its whole life: updates and guarded trainings in any order, on clusters that may lose tasks.
    /repo/fvgp/gp.py train 1088-1116 with the guard _reject_if_not_improved 1144-1168, on the state of LargeGP.v.
    What the optimizer returns is arbitrary (None: it raised, for instance because a likelihood evaluation lost a task); its
    evaluations of the likelihood compute covariances of their own (gp_marginal_likelihood.py 70-72, gp_prior.py 185-198) and
    leave the state alone.  Each set_hyperparameters meets a cluster of its own.
    Simplifications: those of LargeGP.v; exact modes, whose likelihood has no variance, so that the tolerance of the guard is 0;
    an exception ends the session.  No proofs here. *)
From Coq Require Import Reals List ZArith.
From mathcomp Require Import all_ssreflect all_algebra.
From Verif Require Import Model.Prelude Model.GPState Model.Likelihood Model.Solvers Model.Posterior Model.Gp2Scale Model.LifeCycle Model.LargeGP Proofs.RealMx.
Set Implicit Arguments.
Unset Strict Implicit.
Unset Printing Implicit Defensive.

Section Large.
Variables P H : Type.
Variable kernel : list P -> list P -> H -> res cexn (@kout R).
Variables (batch_size : Z) (dist : distribution) (isz : R -> bool).
Variables (mu : option (P -> H -> R)) (nz : noise_choice P H) (favg defnoise : list R -> R).
Variable cho_factor np_inv : forall n, 'M[R]_n -> option 'M[R]_n.
Variable LUt : nat -> Type.
Variable splu : forall n, 'M[R]_n -> option (LUt n).
Variable lu_solve : forall n k, LUt n -> 'M[R]_(n, k) -> 'M[R]_(n, k).
Variable lu_diag : forall n, LUt n -> 'rV[R]_n.
Variable iterate : smode -> forall n k, 'M[R]_n -> 'M[R]_(n, k) -> 'M[R]_(n, k).
Variable estimate : nat -> forall n, 'M[R]_n -> R * option R.
Variable Obj : nat -> Type.
Variable c_factor : forall n, 'M[R]_n -> Obj n.
Variable c_solve : forall n k, Obj n -> 'M[R]_(n, k) -> 'M[R]_(n, k).
Variable c_logdet : forall n, Obj n -> R.
Variable mode : smode.
Notation larget := (large P H LUt Obj).
Notation cl := (@cluster_t R).
Notation gnext := (g_next kernel batch_size dist isz mu nz favg defnoise cho_factor np_inv splu lu_solve lu_diag iterate estimate c_factor c_solve c_logdet mode).

Inductive ltop :=
| LTUpdate (o : lop P H)
| LTTrain (result : option H) (c c' : cl).     (* clusters of the installation and of the rollback *)

Definition lt_step (t : larget) (o : ltop) : option larget :=
  match o with
  | LTUpdate o => gnext t o
  | LTTrain None _ _ => None
  | LTTrain (Some h) c c' =>
      if gnext t (LSetHps P h c) is Some t1 then
        if Rle_dec (g_loglik t) (g_loglik t1) then Some t1 else gnext t1 (LSetHps P (hp (l_gp (g_life t))) c')
      else None
  end.
Fixpoint lt_session (t : larget) (os : list ltop) : option larget :=
  if os is o :: r then (if lt_step t o is Some t' then lt_session t' r else None) else Some t.
End Large.
