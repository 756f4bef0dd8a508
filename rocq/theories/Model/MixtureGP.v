(** A GGMP as a whole.  /repo/fvgp/ggmp.py: initGPs 383-395 and 430-446 (one GP for each component, built from the means and
    variances of its likelihood object, the last hyperparameter replaced by the mean of the values), what train does to the
    components and weights (637-640, 663-664, 689-690), posterior_mean 719-724, posterior_variance 761-778, over the GP of LifeCycle.v.

    Simplifications: those of LifeCycle.v; no component is fitted with gp2Scale; all components use the same solver mode, as
    gp_init_kwargs is common to them; a call that raises ends the history; which hyperparameters and weights training finds is
    left open: training is any sequence of assignments of them. *)
From Coq Require Import Reals List ZArith.
From mathcomp Require Import all_ssreflect all_algebra.
From Verif Require Import Model.Prelude Model.GPState Model.Likelihood Model.Solvers Model.Posterior Model.LifeCycle Model.GGMPDensity Model.MixtureInit Proofs.RealMx.
Set Implicit Arguments.
Unset Strict Implicit.
Unset Printing Implicit Defensive.
Import GRing.Theory Num.Theory.
Local Open Scope ring_scope.

Section Mixture.
Variable P : Type.
Notation H := (list R).
(** gp_kernel_functions and gp_mean_functions, None: the default mean of a GP; by default constant_mean 35-37 *)
Variables (kf : nat -> P -> P -> H -> R) (mf : nat -> option (P -> H -> R)) (defnoise : list R -> R).
(** np.mean *)
Notation favg := GGMPDensity.mean.
Variable cho_factor np_inv : forall n, 'M[R]_n -> option 'M[R]_n.
Variable LUt : nat -> Type.
Variable splu : forall n, 'M[R]_n -> option (LUt n).
Variable lu_solve : forall n k, LUt n -> 'M[R]_(n, k) -> 'M[R]_(n, k).
Variable lu_diag : forall n, LUt n -> 'rV[R]_n.
Variable iterate : smode -> forall n k, 'M[R]_n -> 'M[R]_(n, k) -> 'M[R]_(n, k).
Variable estimate : nat -> forall n, 'M[R]_n -> R * option R.
Variable Obj : nat -> Type.
Variable c_factor : forall n, 'M[R]_n -> Obj n.
Variable c_solve : forall n k, Obj n -> 'M[R]_(n, k) -> 'M[R]_(n, k).
Variable c_logdet : forall n, Obj n -> R.
Variable mode : smode.
Notation nz := (@Measured P H).
Notation lbuild k := (l_build (kf k) (mf k) nz favg defnoise cho_factor np_inv splu lu_solve lu_diag iterate estimate c_factor c_solve c_logdet mode).
Notation lstep k := (l_step (kf k) (mf k) nz favg defnoise cho_factor np_inv splu lu_solve lu_diag iterate estimate c_factor c_solve c_logdet mode).
Notation lifet := (life P H LUt Obj).

Definition constant_mean (_ : P) (h : H) : R := List.last h R0.
(** init_hps[-1] = y.mean(); an empty array raises *)
Definition with_mean (h y : list R) : option H := if h is [::] then None else Some (List.removelast h ++ [:: favg y])%list.
(** gp_likelihood.py 20-22: all noise variances must be positive; gp_data.py: as many values and variances as points *)
Definition accepted (x : list P) (c : lik) : bool :=
  [&& (length (lk_mean c) =? length x)%nat, (length (lk_var c) =? length x)%nat & List.forallb (fun v => if Rlt_dec R0 v then true else false) (lk_var c)].
Definition component_gp (x : list P) (k : nat) (c : lik) (h : H) : option lifet :=
  if accepted x c then (if with_mean h (lk_mean c) is Some h' then lbuild k x (lk_mean c) (lk_var c) h' else None) else None.
(** 430: components k, k+1, ... *)
Fixpoint make_gps (x : list P) (k : nat) (cs : list lik) (hs : list H) {struct cs} : option (list lifet) :=
  match cs with
  | [::] => Some [::]
  | c :: cs' =>
      match hs with
      | [::] => None
      | h :: hs' => if component_gp x k c h is Some g then omap (cons g) (make_gps x k.+1 cs' hs') else None
      end
  end.
Record mixture := Mixture { x_liks : list lik; x_gps : list lifet }.
Definition init_gps (x : list P) (liks : list lik) (hs : list H) : option mixture := omap (Mixture liks) (make_gps x 0 liks hs).

(** what training does, one assignment at a time *)
Inductive xop := XHps (k : nat) (h : H) | XWeights (w : list R).
Fixpoint set_at {A} (l : list A) (k : nat) (a : A) {struct l} : list A :=
  match l with [::] => [::] | b :: r => if k is k'.+1 then b :: set_at r k' a else a :: r end.
Definition set_weights (l : list lik) (w : list R) : option (list lik) :=
  if (length l =? length w)%nat then Some (List.map (fun z => Lik (lk_mean z.1) (lk_var z.1) z.2) (List.combine l w)) else None.
Definition x_next (t : mixture) (o : xop) : option mixture :=
  match o with
  | XHps k h =>
      if List.nth_error (x_gps t) k is Some g then
        (if lstep k g (@GSetHps P R H h) is Some g' then Some (Mixture (x_liks t) (set_at (x_gps t) k g')) else None)
      else None
  | XWeights w => omap (fun l => Mixture l (x_gps t)) (set_weights (x_liks t) w)
  end.
Fixpoint x_run (t : mixture) (os : list xop) : option mixture :=
  if os is o :: r then (if x_next t o is Some t' then x_run t' r else None) else Some t.

Section Read.
Variables (p0 : P) (t : mixture) (q : nat) (xp : 'I_q -> P) (garbage : 'M[R]_q).
Let K := length (x_liks t).
Definition x_weight (k : nat) : R := if List.nth_error (x_liks t) k is Some c then lk_weight c else R0.
Definition x_noise (k : nat) : list R := if List.nth_error (x_liks t) k is Some c then lk_var c else [::].
Definition gp_mean (i : 'I_q) (k : nat) : R := if List.nth_error (x_gps t) k is Some g then l_mean (kf k) (mf k) favg p0 g xp i 0 else R0.
Definition gp_var (i : 'I_q) (k : nat) : R :=
  if List.nth_error (x_gps t) k is Some g then (l_cov (kf k) lu_solve iterate c_solve mode p0 g garbage xp true).1 i 0 else R0.
Definition x_mean (i : 'I_q) : R := mix_mean K x_weight (gp_mean i).
Definition x_var (i : 'I_q) : R := mix_var K x_weight (gp_mean i) (gp_var i) x_noise.
End Read.
End Mixture.
