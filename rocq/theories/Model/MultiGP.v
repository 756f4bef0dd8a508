(** A multi-task GP as a whole.  fvgp.py __init__ 501-534 and update_gp_data 595-623 (FvGP.v) over gp.py __init__ 483-560,
    set_hyperparameters 684-687, update_gp_data 739-749 (LifeCycle.v), which read the data object: gp_prior.py 158-179 and
    256-299 the attributes x_new, x_data and y_data; gp_posterior.py posterior_mean 151-170 and posterior_covariance 229-288
    with cartesian_product 586-606 and the reshapes (TaskArray.v).

    Entries of arrays are real numbers or NaN.  A point of the single-task GP is a row with the task appended, or an object with
    its task.  Simplifications: those of FvGP.v and LifeCycle.v; a call that raises ends the history (C48 is about what
    happens afterwards); predictions are made for integer tasks, x_out=None meaning all of them. *)
From Coq Require Import Reals List ZArith.
From mathcomp Require Import all_ssreflect all_algebra.
From Verif Require Import Model.Prelude Model.Data Model.FvGP Model.GPState Model.Likelihood Model.Solvers Model.Posterior Model.LifeCycle Model.TaskArray Proofs.RealMx.
Set Implicit Arguments.
Unset Strict Implicit.
Unset Printing Implicit Defensive.
Import GRing.Theory Num.Theory.
Local Open Scope ring_scope.

Definition value := option R.
Definition vnan (v : value) : bool := if v is Some _ then false else true.
Definition vtask (i : nat) : value := Some (INR i).
Definition num (v : value) : R := if v is Some r then r else R0.

Section Multi.
Variables Pt H : Type.
Notation P := (list value + Pt * nat)%type.
Variables (k : P -> P -> H -> R) (mu : option (P -> H -> R)) (nz : noise_choice P H) (favg defnoise : list R -> R).
Variable cho_factor np_inv : forall n, 'M[R]_n -> option 'M[R]_n.
Variable LUt : nat -> Type.
Variable splu : forall n, 'M[R]_n -> option (LUt n).
Variable lu_solve : forall n k, LUt n -> 'M[R]_(n, k) -> 'M[R]_(n, k).
Variable lu_diag : forall n, LUt n -> 'rV[R]_n.
Variable iterate : smode -> forall n k, 'M[R]_n -> 'M[R]_(n, k) -> 'M[R]_(n, k).
Variable estimate : nat -> forall n, 'M[R]_n -> R * option R.
Variable Obj : nat -> Type.
Variable c_factor : forall n, 'M[R]_n -> Obj n.
Variable c_solve : forall n k, Obj n -> 'M[R]_(n, k) -> 'M[R]_(n, k).
Variable c_logdet : forall n, Obj n -> R.
Variable mode : smode.
Notation lbuild := (l_build k mu nz favg defnoise cho_factor np_inv splu lu_solve lu_diag iterate estimate c_factor c_solve c_logdet mode).
Notation lstep := (l_step k mu nz favg defnoise cho_factor np_inv splu lu_solve lu_diag iterate estimate c_factor c_solve c_logdet mode).
Notation lifet := (life P H LUt Obj).
Notation gd := (gdata value (Pt * nat)).

(** attributes of the data object as the rest of the code reads them *)
Definition pts (x : sx value (Pt * nat)) : list P := match x with SMat m => List.map inl (rows m) | SLst l => List.map inr l end.
Definition vals (y : mat value) : list R := List.map (fun r => num (List.hd None r)) (rows y).
Definition noises (n : option (list value)) : list R := if n is Some l then List.map num l else [::].

Record multi := Multi { m_f : fstate value Pt; m_life : lifet }.
Inductive mop := MUpdate (rank_n : bool) (o : fop value Pt) | MSetHps (h : H).

Definition m_start (x : fx value Pt) (y : fy value) (nv : fn value) (h : H) : option multi :=
  match fv_init vnan vtask x y nv with
  | Ok s => let d := f_data s in omap (Multi s) (lbuild (pts (g_x d)) (vals (g_y d)) (noises (g_noise d)) h)
  | Err _ => None
  end.
(** what the base class does with the data object after its update; a rank-n update needs append=True, gp.py 733-737 *)
Definition base_op (rank_n append : bool) (d : gd) : @gop P R H :=
  if append then
    @GAppend P R H rank_n (if g_xnew d is Some x then pts x else [::]) (if g_ynew d is Some y then vals y else [::]) (noises (g_noisenew d))
  else @GOverwrite P R H (pts (g_x d)) (vals (g_y d)) (noises (g_noise d)).
Definition m_next (t : multi) (o : mop) : option multi :=
  match o with
  | MUpdate rank_n o =>
      match fv_update vnan vtask (m_f t) o with
      | (s, Ok _) => omap (Multi s) (lstep (m_life t) (base_op rank_n (p_append o) (f_data s)))
      | (_, Err _) => None
      end
  | MSetHps h => omap (Multi (m_f t)) (lstep (m_life t) (@GSetHps P R H h))
  end.
Fixpoint m_run (t : multi) (os : list mop) : option multi :=
  if os is o :: r then (if m_next t o is Some t' then m_run t' r else None) else Some t.

Section Read.
Variables (p0 : P) (t : multi) (xp : list (list value + Pt)) (x_out : option (list nat)).
(** x_out = np.arange(0, output_num) unless given *)
Definition outs : list nat := if x_out is Some l then l else List.seq 0 (f_k (m_f t)).
(** np.append(x[i], y[j]) or [x[i], y[j]] *)
Definition with_task (z : (list value + Pt) * nat) : P :=
  match fst z with inl r => inl (r ++ [:: vtask (snd z)])%list | inr o => inr (o, snd z) end.
Definition flat_points : list P := List.map with_task (cartesian_product xp outs).
Let q := length flat_points.
Definition flat_at (i : 'I_q) : P := List.nth i flat_points p0.
Definition entry1 (v : 'cV[R]_q) (i : nat) : R := if insub i is Some a then v a 0 else R0.
Definition entry2 (C : 'M[R]_q) (i j : nat) : R := if (insub i, insub j) is (Some a, Some b) then C a b else R0.
(** m(x) *)
Definition m_mean : array R :=
  mean_re (length xp) (length outs) (fun idx => entry1 (l_mean k mu favg p0 (m_life t) flat_at) (List.hd 0%nat idx)).
(** v(x) and S *)
Definition m_cov (garbage : 'M[R]_q) (variance_only : bool) : array R * option (array R) :=
  let '(v, C) := l_cov k lu_solve iterate c_solve mode p0 (m_life t) garbage flat_at variance_only in
  (vec_re (length xp) (length outs) (fun idx => entry1 v (List.hd 0%nat idx)),
   omap (fun C => cov_re (length xp) (length outs) (fun idx => entry2 C (List.hd 0%nat idx) (List.nth 1 idx 0%nat))) C).
End Read.
End Multi.
