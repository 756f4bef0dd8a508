(** A GP object under gp2Scale as a whole.  gp.py __init__ 483-560, set_hyperparameters 684-687, update_gp_data 689-749;
    gp_prior.py augment_state_data 158-166, update_state_data 168-179, update_state_hyperparameters 181-183,
    compute_data_cross_covariance 200-215, compute_covariances 217-225; gp_kv.py addKV 640-669 (sparse branch 644-657), _refresh
    404-423; gp_posterior.py _dense 100-103, _dense_K 105-118, _cross_solve_product 120-136, posterior_mean 139-182, posterior_covariance 229-288.

    The covariance of the data is the sparse matrix the cluster assembles (Gp2Scale.v); K+V and the solver state are those of
    LifeCycle.v, computed from its entries.  Each call that computes covariances meets a cluster of its own, given with the call.
    Simplifications: those of Gp2Scale.v and LifeCycle.v (except that gp2Scale is on); the mode is fixed (the automatic choice
    is LinalgMode.v); sparse matrices enter the solver through their entries; an operation that raises ends the history (C58 is
    about what happens afterwards); V is one-dimensional or sparse, so the assertion of line 649 holds. *)
From Coq Require Import Reals List ZArith.
From mathcomp Require Import all_ssreflect all_algebra.
From Verif Require Import Model.Prelude Model.GPState Model.Likelihood Model.Solvers Model.Posterior Model.Gp2Scale Model.LifeCycle Proofs.RealMx.
Set Implicit Arguments.
Unset Strict Implicit.
Unset Printing Implicit Defensive.
Import GRing.Theory Num.Theory.
Local Open Scope ring_scope.

(** toarray(): triplets at the same place add up *)
Definition at_entry (m : @spm R) (i j : nat) : R :=
  List.fold_right Rplus R0 (List.map (@td R) (List.filter (fun t => Z.eqb (tr t) (Z.of_nat i) && Z.eqb (tc t) (Z.of_nat j)) (ents m))).
Definition toarray (m : @spm R) : list (list R) :=
  List.map (fun i => List.map (fun j => at_entry m i j) (List.seq 0 (nc m))) (List.seq 0 (nr m)).
(** the array as an n x q matrix; numpy raises for operands of other shapes *)
Definition as_mx n q (a : list (list R)) : 'M[R]_(n, q) := \matrix_(i, j) mget R0 a i j.

Section Large.
Variables P H : Type.
Variable kernel : list P -> list P -> H -> res cexn (@kout R).
Variables (batch_size : Z) (dist : distribution) (isz : R -> bool).
Variables (mu : option (P -> H -> R)) (nz : noise_choice P H) (favg defnoise : list R -> R).
Variable cho_factor np_inv : forall n, 'M[R]_n -> option 'M[R]_n.
Variable LUt : nat -> Type.
Variable splu : forall n, 'M[R]_n -> option (LUt n).
Variable lu_solve : forall n k, LUt n -> 'M[R]_(n, k) -> 'M[R]_(n, k).
Variable lu_diag : forall n, LUt n -> 'rV[R]_n.
Variable iterate : smode -> forall n k, 'M[R]_n -> 'M[R]_(n, k) -> 'M[R]_(n, k).
Variable estimate : nat -> forall n, 'M[R]_n -> R * option R.
Variable Obj : nat -> Type.
Variable c_factor : forall n, 'M[R]_n -> Obj n.
Variable c_solve : forall n k, Obj n -> 'M[R]_(n, k) -> 'M[R]_(n, k).
Variable c_logdet : forall n, Obj n -> R.
Variable mode : smode.
Notation lifet := (life P H LUt Obj).
Notation gpst := (@gp P R H).
Notation pst := (@pstate P H R).
Notation cl := (@cluster_t R).
Notation setf := (set_from cho_factor np_inv splu lu_solve lu_diag iterate estimate c_factor c_solve c_logdet mode).
Notation appf := (append_from cho_factor np_inv splu lu_solve lu_diag iterate estimate c_factor c_solve c_logdet mode).

Record large := Large { g_p : pst; g_life : lifet }.

Inductive lop :=
| LAppend (rank_n : bool) (x : list P) (y nv : list R) (cB cD : cl)
| LOverwrite (x : list P) (y nv : list R) (c : cl)
| LSetHps (h : H) (c : cl).

(** what the prior is asked to do, gp.py 684-687, 739-749 *)
Definition prior_op (o : lop) : @pop P H R :=
  match o with
  | LAppend _ x _ _ cB cD => PAppend x cB cD
  | LOverwrite x _ _ c => POverwrite x c
  | LSetHps h c => PSetHps h c
  end.

(** mean, noise and K+V next to the covariance [p] holds *)
Definition derived (rank_n : bool) (p : pst) (y nv m : list R) (old : list (list R)) : option gpst :=
  GPState.refresh R0 Rplus false rank_n
    (GP (px p) y nv (ph p) m (toarray (pcov p)) (noise_of favg defnoise (noise_call nz) (px p) y nv (ph p)) old).
Definition g_after (s : gpst) (p : pst) (o : lop) : option gpst :=
  match o with
  | LAppend r x y nv _ _ =>
      let y' := (yd s ++ y)%list in
      derived r p y' (nvar s ++ nv)%list
        (match mean_call mu with None => default_mean favg y' (px p) | Some f => (pm s ++ f x (ph p))%list end) (factored s)
  | LOverwrite x y nv _ => derived false p y nv (mean_of (mean_call mu) favg (px p) y (ph p)) (factored s)
  | LSetHps h _ => derived false p (yd s) (nvar s) (mean_of (mean_call mu) favg (px p) (yd s) (ph p)) (factored s)
  end.

(** GP(..., gp2Scale=True) *)
Definition g_start (c : cl) (x : list P) (y nv : list R) (h : H) : option large :=
  match pinit isz kernel batch_size dist c x h with
  | (p, Ok _) =>
      if derived false p y nv (mean_of (mean_call mu) favg x y h) [::] is Some s
      then omap (Large p) (setf s (Mem None 0)) else None
  | (_, Err _) => None
  end.
Definition g_next (t : large) (o : lop) : option large :=
  match pstep isz kernel batch_size dist (g_p t) (prior_op o) with
  | (p, Ok _) =>
      if g_after (l_gp (g_life t)) p o is Some s then
        omap (Large p) (match o with
                        | LAppend true _ _ _ _ _ => appf (g_life t) s
                        | _ => setf s (v_mem (l_kv (g_life t)))
                        end)
      else None
  | (_, Err _) => None
  end.
Fixpoint g_run (t : large) (os : list lop) : option large :=
  if os is o :: r then (if g_next t o is Some t' then g_run t' r else None) else Some t.

Section Read.
Variables (t : large).
Let s := l_gp (g_life t).
Let n := length (xd s).
(** k = cross_covariance(x_pred): through the cluster with the persistent scatter of the data, 200-215 *)
Definition cross (c : cl) (xp : list P) : option 'M[R]_(n, length xp) :=
  match gp2scale_cov isz kernel batch_size dist c (pnext (g_p t)) (xd s) xp (hp s) false (Some (pfut (g_p t))) None with
  | (_, (_, Ok K)) => Some (as_mx n (length xp) (toarray K))
  | _ => None
  end.
(** kk = compute_covariances(x_pred, x_pred): on the client *)
Definition own (xp : list P) : option 'M[R]_(length xp) :=
  match kernel xp xp (hp s) with
  | Ok (KDense _ rows) => Some (as_mx _ _ rows)
  | Ok (KSparse m) => Some (as_mx _ _ (toarray m))
  | Err _ => None
  end.
Definition mean_at (a : P) : R := if mu is Some f then f a (hp s) else favg (yd s).
(** log_likelihood() reads the stored state *)
Definition g_loglik : R := l_loglik (g_life t).
(** posterior_mean(x_pred) *)
Definition g_mean (c : cl) (xp : list P) : option 'cV[R]_(length xp) :=
  omap (fun k : 'M[R]_(n, length xp) => \col_i (match List.nth_error xp i with Some a => mean_at a | None => 0 end + (k^T *m v_KVinvY (l_kv (g_life t))) i 0)) (cross c xp).
(** posterior_covariance(x_pred, variance_only); the product is formed in chunks of batch_size columns; [garbage] is what
    np.empty returned *)
Definition g_cov (c : cl) (xp : list P) (garbage : 'M[R]_(length xp)) (variance_only : bool)
    : option ('cV[R]_(length xp) * option 'M[R]_(length xp)) :=
  match cross c xp, own xp with
  | Some k, Some kk =>
      let product := cross_solve_product (fun m (b : 'M[R]_(n, m)) => solve lu_solve iterate c_solve mode (v_factor (l_kv (g_life t))) b)
                       None true batch_size garbage k in
      let direct := let S := kk - product in (\col_i S i i, Some S) in
      let '(v, Sg) := match stored_inverse (g_life t) with
        | Some KVi => if variance_only then (\col_i (kk i i - \sum_j \sum_l k j i * KVi j l * k l i), None) else direct
        | None => direct end in
      Some (if [exists i, v i 0 < 0]
            then let v := \col_i (if v i 0 < 0 then 0 else v i 0) in
                 (v, if variance_only then Sg else if Sg is Some S0 then Some (fill_diagonal S0 v) else None)
            else (v, Sg))
  | _, _ => None
  end.
End Read.
End Large.
