(** A multi-task GP over its whole life: updates and calls of train() in any order.  /repo/fvgp/fvgp.py class fvGP 5-671 does not
    redefine train; /repo/fvgp/gp.py train 1075-1116 acts on the single-task state (TrainSession.v), the multi-task arrays of
    fvgp.py stay as they are; updates as in MultiGP.v.

    Simplifications: those of MultiGP.v and TrainSession.v.  No proofs here. *)
From Coq Require Import Reals List ZArith.
From mathcomp Require Import all_ssreflect all_algebra.
From Verif Require Import Model.Prelude Model.Ext Model.Data Model.FvGP Model.GPState Model.Likelihood Model.Solvers Model.Posterior Model.LifeCycle Model.MultiGP Model.BO Model.Training Model.TrainBO Model.TrainSession Proofs.RealMx.
Set Implicit Arguments.
Unset Strict Implicit.
Unset Printing Implicit Defensive.

(** a call of train: one of the guarded methods with what its optimizer returned (None: it raised), or method="bo" *)
Inductive training :=
| TGuarded (result : option (list R))
| TBO (c : bo_cfg) (bounds : list (R * R)) (ls : nat -> option bool) (us : nat -> R) (s : surrogate).

Section Multi.
Variable Pt : Type.
Notation H := (list R).
Notation P := (list value + Pt * nat)%type.
Inductive mtop := MTUpdate (o : mop Pt H) | MTTrain (s : training).
Definition as_sop (s : training) : sop P := match s with TGuarded r => SGuarded r | TBO c b ls us su => SBO c b ls us su end.

Variables (k : P -> P -> H -> R) (mu : option (P -> H -> R)) (nz : noise_choice P H) (favg defnoise : list R -> R).
Variable cho_factor np_inv : forall n, 'M[R]_n -> option 'M[R]_n.
Variable LUt : nat -> Type.
Variable splu : forall n, 'M[R]_n -> option (LUt n).
Variable lu_solve : forall n k, LUt n -> 'M[R]_(n, k) -> 'M[R]_(n, k).
Variable lu_diag : forall n, LUt n -> 'rV[R]_n.
Variable iterate : smode -> forall n k, 'M[R]_n -> 'M[R]_(n, k) -> 'M[R]_(n, k).
Variable estimate : nat -> forall n, 'M[R]_n -> R * option R.
Variable Obj : nat -> Type.
Variable c_factor : forall n, 'M[R]_n -> Obj n.
Variable c_solve : forall n k, Obj n -> 'M[R]_(n, k) -> 'M[R]_(n, k).
Variable c_logdet : forall n, Obj n -> R.
Variable mode : smode.
Notation multit := (multi Pt H LUt Obj).

Definition mt_step (t : multit) (o : mtop) : option multit :=
  match o with
  | MTUpdate o => m_next k mu nz favg defnoise cho_factor np_inv splu lu_solve lu_diag iterate estimate c_factor c_solve c_logdet mode t o
  | MTTrain s => omap (Multi (m_f t))
      (s_step k mu nz favg defnoise cho_factor np_inv splu lu_solve lu_diag iterate estimate c_factor c_solve c_logdet mode (m_life t) (as_sop s))
  end.
Fixpoint mt_session (t : multit) (os : list mtop) : option multit :=
  if os is o :: r then (if mt_step t o is Some t' then mt_session t' r else None) else Some t.
End Multi.
Arguments MTTrain {Pt}.
