(** A GP over its whole life: data updates and calls of train() in any order.  /repo/fvgp/gp.py train 1075-1116 with the guard
    _reject_if_not_improved 1144-1168 (methods local, hgdl, adam and callables) and method="bo" (TrainBO.v); updates as in
    LifeCycle.v.

    Simplifications: those of LifeCycle.v and TrainBO.v; exact modes, whose likelihood has no variance, so that the tolerance of
    the guard is 0; what an optimizer returns is arbitrary; an exception ends the session.  No proofs here. *)
From Coq Require Import Reals List ZArith.
From mathcomp Require Import all_ssreflect all_algebra.
From Verif Require Import Model.Prelude Model.Ext Model.GPState Model.Likelihood Model.Solvers Model.Posterior Model.LifeCycle Model.BO Model.Training Model.TrainBO Proofs.RealMx.
Set Implicit Arguments.
Unset Strict Implicit.
Unset Printing Implicit Defensive.

(** the surrogate of one BO run *)
Record surrogate := Surrogate {
  su_type : Type; su_fit : list ev -> option su_type; su_acquire : su_type -> list ev -> option (list R * ext);
  su_mean : su_type -> list (list R) -> option (list R); su_design : nat -> list R }.

Section Session.
Variable P : Type.
Notation H := (list R).
Inductive sop :=
| SUpdate (o : @gop P R H)
| SGuarded (result : option H)      (** what the optimizer returned; None: it raised *)
| SBO (c : bo_cfg) (bounds : list (R * R)) (ls : nat -> option bool) (us : nat -> R) (s : surrogate).

Variables (k : P -> P -> H -> R) (mu : option (P -> H -> R)) (nz : noise_choice P H) (favg defnoise : list R -> R).
Variable cho_factor np_inv : forall n, 'M[R]_n -> option 'M[R]_n.
Variable LUt : nat -> Type.
Variable splu : forall n, 'M[R]_n -> option (LUt n).
Variable lu_solve : forall n k, LUt n -> 'M[R]_(n, k) -> 'M[R]_(n, k).
Variable lu_diag : forall n, LUt n -> 'rV[R]_n.
Variable iterate : smode -> forall n k, 'M[R]_n -> 'M[R]_(n, k) -> 'M[R]_(n, k).
Variable estimate : nat -> forall n, 'M[R]_n -> R * option R.
Variable Obj : nat -> Type.
Variable c_factor : forall n, 'M[R]_n -> Obj n.
Variable c_solve : forall n k, Obj n -> 'M[R]_(n, k) -> 'M[R]_(n, k).
Variable c_logdet : forall n, Obj n -> R.
Variable mode : smode.
Notation lifet := (life P H LUt Obj).
Notation set_hps := (set_hps_to k mu nz favg defnoise cho_factor np_inv splu lu_solve lu_diag iterate estimate c_factor c_solve c_logdet mode).

Definition train_guarded (t : lifet) (result : option H) : option lifet :=
  if result is Some h then
    if set_hps t h is Some t1 then
      if Rle_dec (l_loglik t) (l_loglik t1) then Some t1 else set_hps t1 (hp (l_gp t))
    else None
  else None.
Definition s_step (t : lifet) (s : sop) : option lifet :=
  match s with
  | SUpdate o => l_step k mu nz favg defnoise cho_factor np_inv splu lu_solve lu_diag iterate estimate c_factor c_solve c_logdet mode t o
  | SGuarded r => train_guarded t r
  | SBO c bounds ls us su => train_bo k mu nz favg defnoise cho_factor np_inv splu lu_solve lu_diag iterate estimate c_factor c_solve c_logdet mode
      (@su_fit su) (@su_acquire su) (@su_mean su) (su_design su) c t bounds ls us
  end.
Fixpoint session (t : lifet) (ss : list sop) : option lifet :=
  if ss is s :: r then (if s_step t s is Some t' then session t' r else None) else Some t.
End Session.
Arguments SGuarded {P}. Arguments SBO {P}.
