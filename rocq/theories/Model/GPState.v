(** Model of the derived state of a GP (prior mean m, prior covariance K, noise V, factorization of
    K+V) under data updates and hyperparameter changes:
    /repo/fvgp/gp_prior.py 158-299, gp_likelihood.py 85-110, gp_kv.py 393-508 and 636-669,
    gp.py 672-749.  No proofs here.

    Simplifications: dense, non-gp2Scale path (the gp2Scale assembly is in Gp2Scale.v); one output
    column; argument checking is in Data.v, so updates here carry well-typed data.  Numbers are an
    arbitrary type [F] with an addition; np.mean and the default noise level are parameters.
    The kernel, mean and noise callables are black boxes on whole point sets, as in the code.
    A Cholesky factor or inverse is represented by the matrix it factors/inverts ("factored"): the
    algebraic fact that the rank-n update of a factor of A is a factor of A bordered by the new rows
    is C06/C07 (CholUpdate.v). *)
From Verif Require Import Model.Prelude.

Section GPState.
  Context {P F H : Type} (f0 : F) (fadd : F -> F -> F).
  Definition matrix := list (list F).

  (** callables supplied by the user (gp_prior.py 217-234, gp_likelihood.py 89-94) *)
  Variable kernel : list P -> list P -> H -> matrix.
  (** prior mean: None = default, i.e. the mean of all y (gp_prior.py 449-458) *)
  Variable user_mean : option (list P -> H -> list F).
  Variable favg : list F -> F.        (* np.mean *)
  Variable defnoise : list F -> F.    (* (np.mean(abs(y))/100)**2, gp_likelihood.py 103 *)

  Inductive noise_value := VDiag (l : list F) | VFull (m : matrix).
  Inductive noise_model :=
  | NoiseFun (f : list P -> H -> noise_value)   (* user noise function *)
  | NoiseMeasured                                (* measured variances, stored with the data *)
  | NoiseDefault.
  Variable noise : noise_model.

  (** linear algebra mode: [true] for Chol, CholInv and Inv, which update their factorization by
      blocks; [false] for the modes that take the new K+V as a whole (gp_kv.py 485-506). *)
  Variable rank_mode : bool.

  Record gp := GP { xd : list P; yd : list F; nvar : list F; hp : H;
                    pm : list F; pK : matrix; pV : noise_value; factored : matrix }.

  (** gp_prior.py 449-458 *)
  Definition default_mean (y : list F) (x : list P) : list F := map (fun _ => favg y) x.
  Definition mean_of (x : list P) (y : list F) (h : H) : list F :=
    match user_mean with None => default_mean y x | Some f => f x h end.

  (** gp_likelihood.py 89-110 on the training set *)
  Definition noise_of (x : list P) (y nv : list F) (h : H) : noise_value :=
    match noise with
    | NoiseFun f => f x h
    | NoiseMeasured => if Nat.eqb (length x) (length nv) then VDiag nv                 (* 107-108 *)
                       else VDiag (map (fun _ => favg nv) x)                            (* 110 *)
    | NoiseDefault => VDiag (map (fun _ => defnoise y) x)                               (* 103 *)
    end.

  (** entries, rows, blocks *)
  Definition mget (m : matrix) (i j : nat) : F := nth j (nth i m []) f0.
  Definition transpose (c : nat) (m : matrix) : matrix :=
    map (fun j => map (fun r => nth j r f0) m) (seq 0 c).
  Fixpoint hcat (a b : matrix) : matrix :=
    match a, b with r :: a', q :: b' => (r ++ q) :: hcat a' b' | _, _ => [] end.
  (** np.block([[a, b], [c, d]]) *)
  Definition block (a b c d : matrix) : matrix := hcat a b ++ hcat c d.

  (** GPkv.addKV, gp_kv.py 640-669, dense branch: 1-d V goes on the diagonal, 2-d V is added.
      None: numpy raises on a shape mismatch. (A V of length one would broadcast; not modelled, it
      only arises for noise functions that ignore their argument's length.) *)
  Definition set_diag (K : matrix) (v : list F) : matrix :=
    map (fun p => let '(i, r) := p in
           map (fun q => let '(j, e) := q in if Nat.eqb i j then fadd e (nth i v f0) else e)
               (combine (seq 0 (length r)) r))
        (combine (seq 0 (length K)) K).
  Fixpoint madd (a b : matrix) : matrix :=
    match a, b with
    | r :: a', q :: b' => map (fun p => fadd (fst p) (snd p)) (combine r q) :: madd a' b'
    | _, _ => [] end.
  Definition addKV (K : matrix) (v : noise_value) : option matrix :=
    match v with
    | VDiag l => if Nat.eqb (length l) (length K) then Some (set_diag K l) else None
    | VFull m => if Nat.eqb (length m) (length K) then Some (madd K m) else None
    end.

  (** lower-left and lower-right blocks of KV below row [size] (gp_lin_alg.py 272-286, 1567-1578) *)
  Definition low_left (size : nat) (kv : matrix) : matrix := map (firstn size) (skipn size kv).
  Definition low_right (size : nat) (kv : matrix) : matrix := map (skipn size) (skipn size kv).
  (** the matrix whose factor the rank-n update computes: old factored block, new rows, their
      transpose above *)
  Definition bordered (old kv : matrix) : matrix :=
    let size := length old in
    block old (transpose size (low_left size kv)) (low_left size kv) (low_right size kv).

  (** GPkv.set_KV / update_KV, gp_kv.py 425-508, as to which matrix ends up factored *)
  Definition set_KV (kv : matrix) : matrix := kv.
  Definition update_KV (old kv : matrix) : matrix :=
    if rank_mode then
      if Nat.leb (length kv) (length old) then kv      (* 465-466, 472-473, 481-482 *)
      else bordered old kv                             (* 468, 475, 484 *)
    else kv.

  (** _refresh, gp_kv.py 404-417 (the solves that follow read this factorization) *)
  Definition refresh (rank_n : bool) (s : gp) : option gp :=
    match addKV (pK s) (pV s) with
    | None => None
    | Some kv => Some (GP (xd s) (yd s) (nvar s) (hp s) (pm s) (pK s) (pV s)
                          (if rank_n then update_KV (factored s) kv else set_KV kv))
    end.

  (** a GP constructed from scratch: GPprior.__init__ 99, GPlikelihood.__init__ 52, GPkv.__init__ 147 *)
  Definition build (x : list P) (y nv : list F) (h : H) : option gp :=
    refresh false (GP x y nv h (mean_of x y h) (kernel x x h) (noise_of x y nv h) []).

  (** update_gp_data(append=True): data (gp_data.py 104-115), then _update_prior
      (gp_prior.py 256-299), likelihood.update_state, kv.update_state_data(rank_n_update)
      (gp.py 739-749) *)
  Definition gp_append (rank_n : bool) (s : gp) (x : list P) (y nv : list F) : option gp :=
    let x' := xd s ++ x in
    let y' := yd s ++ y in
    let nv' := nvar s ++ nv in
    let m' := match user_mean with
              | None => default_mean y' x'                     (* 260 *)
              | Some f => pm s ++ f x (hp s)                   (* 261, 292-294 *)
              end in
    let k := kernel (xd s) x (hp s) in                         (* 284 *)
    let kk := kernel x x (hp s) in                             (* 285 *)
    let K' := block (pK s) k (transpose (length x) k) kk in    (* 286-289 *)
    refresh rank_n (GP x' y' nv' (hp s) m' K' (noise_of x' y' nv' (hp s)) (factored s)).

  (** update_gp_data(append=False): everything recomputed (gp_prior.py 169-179); a requested rank-n
      update is overridden (gp.py 733-737) *)
  Definition gp_overwrite (s : gp) (x : list P) (y nv : list F) : option gp :=
    refresh false (GP x y nv (hp s) (mean_of x y (hp s)) (kernel x x (hp s)) (noise_of x y nv (hp s)) (factored s)).

  (** set_hyperparameters, gp.py 684-687 *)
  Definition gp_set_hps (s : gp) (h : H) : option gp :=
    refresh false (GP (xd s) (yd s) (nvar s) h (mean_of (xd s) (yd s) h) (kernel (xd s) (xd s) h)
                      (noise_of (xd s) (yd s) (nvar s) h) (factored s)).

  Inductive gop :=
  | GAppend (rank_n : bool) (x : list P) (y nv : list F)
  | GOverwrite (x : list P) (y nv : list F)
  | GSetHps (h : H).

  Definition gstep (s : gp) (o : gop) : option gp :=
    match o with
    | GAppend r x y nv => gp_append r s x y nv
    | GOverwrite x y nv => gp_overwrite s x y nv
    | GSetHps h => gp_set_hps s h
    end.

  Fixpoint gsteps (s : gp) (os : list gop) : option gp :=
    match os with [] => Some s | o :: r => match gstep s o with Some s' => gsteps s' r | None => None end end.
End GPState.
