(** set_args and what reads args afterwards.  /repo/fvgp/gp.py: args 617-623, set_args 650-669, set_hyperparameters
    672-687, update_gp_data 689-749; gp_prior.py: compute_covariances 217-224, compute_mean 226-234; gp_likelihood.py 89-94;
    gp_posterior.py: posterior_mean 139-182, posterior_covariance 231-262; gp_kv.py: __init__ 113-118, _build 342.  No proofs here.

    The state of the GP is that of GPState.v; the callables of the user take args as a further argument.  args is one
    reference shared by all components (data.args), read when a callable is called.  One output column, no x_out. *)
From Coq Require Import String.
From Verif Require Import Model.Prelude Model.GPState Model.LinalgCfg.

Section SetArgs.
  Context {P F H A : Type} (f0 : F) (fadd fsub fmul : F -> F -> F) (fneg : F -> bool).
  Variable kernel : A -> list P -> list P -> H -> list (list F).
  Variable user_mean : option (A -> list P -> H -> list F).
  Variable favg defnoise : list F -> F.
  Variable noise : A -> @noise_model P F H.
  Variable rank_mode : bool.
  (** KVsolve for one right-hand side *)
  Variable solve : list (list F) -> list F -> list F.

  Definition mean_with (a : A) : option (list P -> H -> list F) := match user_mean with Some f => Some (f a) | None => None end.
  Definition build_with (a : A) := build f0 fadd (kernel a) (mean_with a) favg defnoise (noise a) rank_mode.

  Inductive aop := ASet (a : A) | AOp (o : @gop P F H).
  (** set_args only replaces the reference *)
  Definition astep (s : A * @gp P F H) (o : aop) : option (A * @gp P F H) :=
    match o with
    | ASet a => Some (a, snd s)
    | AOp o => match gstep f0 fadd (kernel (fst s)) (mean_with (fst s)) favg defnoise (noise (fst s)) rank_mode (snd s) o with
               | Some t => Some (fst s, t) | None => None end
    end.
  Fixpoint asteps (s : A * @gp P F H) (os : list aop) : option (A * @gp P F H) :=
    match os with [] => Some s | o :: r => match astep s o with Some s' => asteps s' r | None => None end end.

  Fixpoint vdot (a b : list F) : F := match a, b with x :: a', y :: b' => fadd (fmul x y) (vdot a' b') | _, _ => f0 end.
  Definition vzip (f : F -> F -> F) (a b : list F) : list F := map (fun p => f (fst p) (snd p)) (combine a b).

  (** mean from K+V, the mean on the data, and hyperparameters *)
  Definition mean_from (a : A) (s : @gp P F H) (kv : list (list F)) (m : list F) (h : H) (xp : list P) : list F :=
    let w := solve kv (vzip fsub (yd s) m) in
    let k := kernel a (xd s) xp h in                                                                          (* 156 *)
    vzip fadd (mean_of (mean_with a) favg xp (yd s) h) (map (fun c => vdot c w) (transpose f0 (length xp) k)).   (* 157-159 *)
  (** posterior_mean; without hyperparameters the cached solution is used (135-149) *)
  Definition posterior_mean (st : A * @gp P F H) (xp : list P) (h : option H) : option (list F) :=
    let '(a, s) := st in
    match h with
    | None => Some (mean_from a s (factored s) (pm s) (hp s) xp)
    | Some h => match addKV f0 fadd (kernel a (xd s) (xd s) h) (noise_of favg defnoise (noise a) (xd s) (yd s) (nvar s) h) with
                | Some kv => Some (mean_from a s kv (mean_of (mean_with a) favg (xd s) (yd s) h) h xp)
                | None => None end
    end.
  (** the variances of posterior_covariance before and after clipping, 237-262 *)
  Definition raw_variance (st : A * @gp P F H) (xp : list P) : list F :=
    let '(a, s) := st in
    let kk := kernel a xp xp (hp s) in
    let cols := transpose f0 (length xp) (kernel a (xd s) xp (hp s)) in
    map (fun p => fsub (mget f0 kk (fst p) (fst p)) (vdot (snd p) (solve (factored s) (snd p)))) (combine (seq 0 (length xp)) cols).
  Definition posterior_variance (st : A * @gp P F H) (xp : list P) : list F := map (fun v => if fneg v then f0 else v) (raw_variance st xp).
End SetArgs.

(** The preconditioner of a GP over its life: GPkv.__init__ resolves the mode and stores the resolved args, set_args replaces
    them, and each build reads the type (gp_lin_alg.py calculate_sparse_preconditioner 899-902). *)
Section Precond.
  Variable pystr : aval -> string.
  Definition kv_state := (string * dict)%type.                        (* mode, data.args *)
  Definition kv_init (mode : string) (args : dict) : res lexn kv_state :=
    match resolve pystr mode (Some 0) [args] with
    | (h, Ok (m, i)) => Ok (m, hget h i)
    | (_, Err e) => Err e end.
  Definition kv_set_args (s : kv_state) (args : dict) : kv_state := (fst s, args).
  Definition precond_used (s : kv_state) : res lexn string :=
    match normalize_type (to_str pystr (match dget (snd s) "sparse_preconditioner_type" with Some v => v | None => VStr "ilu" end)) with
    | Some t => Ok t | None => Err EUnknownType end.
End Precond.
