(** Model of the linear-algebra configuration: the args dictionary, mode and preconditioner names,
    the automatic choice of solver, the temporary settings of a training run, the preconditioner
    cache and the warm start.  /repo/fvgp/gp_lin_alg.py 65-66, 397-427, 474-505; /repo/fvgp/gp_kv.py
    19-85, 105-113, 182-388, 517-518, 582-583; /repo/fvgp/gp_marginal_likelihood.py 91-133.
    No proofs here.

    Numbers are exact rationals: no rounding, no NaN, no infinity (np.inf, the distance of
    incomparable fingerprints, is [None]).  Strings are ASCII.  int() and float() of a string raise
    (python would parse a numeral). *)
From Coq Require Import String Ascii QArith.
From Verif Require Import Model.Prelude.
Local Open Scope nat_scope.
Local Open Scope string_scope.

(** * values and dictionaries *)
Inductive aval := VNone | VBool (b : bool) | VInt (z : Z) | VFloat (q : Q) | VStr (s : string) | VObj (n : nat).
(** python ==; numbers and booleans compare by value *)
Definition num (v : aval) : option Q :=
  match v with
  | VBool b => Some (if b then 1 else 0)%Q | VInt z => Some (inject_Z z) | VFloat q => Some q | _ => None end.
Definition aeqb (a b : aval) : bool :=
  match num a, num b with
  | Some x, Some y => Qeq_bool x y
  | None, None => match a, b with
                  | VNone, VNone => true | VStr s, VStr t => String.eqb s t | VObj m, VObj n => Nat.eqb m n
                  | _, _ => false end
  | _, _ => false
  end.

(** a dict keeps the order of insertion; keys are distinct *)
Definition dict := list (string * aval).
Fixpoint dget (d : dict) (k : string) : option aval :=
  match d with [] => None | (j, v) :: r => if String.eqb j k then Some v else dget r k end.
Fixpoint dset (d : dict) (k : string) (v : aval) : dict :=
  match d with [] => [(k, v)] | (j, w) :: r => if String.eqb j k then (j, v) :: r else (j, w) :: dset r k v end.
Fixpoint dpop (d : dict) (k : string) : dict :=
  match d with [] => [] | (j, w) :: r => if String.eqb j k then r else (j, w) :: dpop r k end.

(** * strings *)
Definition lower_char (c : ascii) : ascii :=
  let n := nat_of_ascii c in if Nat.leb 65 n && Nat.leb n 90 then ascii_of_nat (n + 32) else c.
Fixpoint lower (s : string) : string :=
  match s with EmptyString => EmptyString | String c r => String (lower_char c) (lower r) end.
(** s[len(p):] if s.startswith(p) *)
Fixpoint strip (p s : string) : option string :=
  match p, s with
  | EmptyString, _ => Some s
  | String a p', String b s' => if Ascii.eqb a b then strip p' s' else None
  | _, _ => None
  end.
Definition starts_with (s p : string) : bool := match strip p s with Some _ => true | None => false end.

(** normalize_sparse_preconditioner_type, gp_lin_alg.py 397-427; None is ValueError *)
Definition aliases : list (string * string) :=
  [("ilu", "ilu"); ("ic", "ichol"); ("ichol", "ichol"); ("incomplete_cholesky", "ichol"); ("ichol0", "ichol0");
   ("native_ic", "native_incomplete_cholesky"); ("native_ichol", "native_incomplete_cholesky");
   ("legacy_ic", "native_incomplete_cholesky"); ("legacy_ichol", "native_incomplete_cholesky");
   ("native_incomplete_cholesky", "native_incomplete_cholesky");
   ("legacy_incomplete_cholesky", "native_incomplete_cholesky");
   ("block_jacobi", "block_jacobi"); ("blockjacobi", "block_jacobi");
   ("schwarz", "additive_schwarz"); ("additive_schwarz", "additive_schwarz"); ("amg", "amg")].
Fixpoint assoc (l : list (string * string)) (k : string) : option string :=
  match l with [] => None | (j, v) :: r => if String.eqb j k then Some v else assoc r k end.
Definition normalize_type (s : string) : option string := assoc aliases (lower s).

(** * mode resolution, gp_lin_alg.py 474-505.
    [heap]: the dictionaries that exist, by identity; [args] the identity of the caller's dictionary
    (None: the caller passed None).  [pystr] is python's str() of a value that is not a string. *)
Definition heap := list dict.
Definition hget (h : heap) (i : nat) : dict := nth i h [].
Fixpoint hset (h : heap) (i : nat) (d : dict) : heap :=
  match h, i with [], _ => [] | _ :: r, 0 => d :: r | e :: r, S j => e :: hset r j d end.
Inductive lexn := EUnknownType | EConflict | EType | EZeroDiv | ESolve | EWarning | EBody.

Section Resolve.
  Variable pystr : aval -> string.
  Definition to_str (v : aval) : string := match v with VStr s => s | _ => pystr v end.
  Definition prefixes : list (string * string) := [("sparsecgpre_", "sparseCGpre"); ("sparseminrespre_", "sparseMINRESpre")].

  (** the for loop 488-504; [a] is the copied dictionary *)
  Fixpoint resolve_loop (ps : list (string * string)) (mode_lower : string) (h : heap) (a : nat)
    : heap * res lexn (option string) :=
    match ps with
    | [] => (h, Ok None)
    | (prefix, canonical) :: r =>
        match strip prefix mode_lower with
        | None => resolve_loop r mode_lower h a
        | Some rest =>
            match normalize_type rest with
            | None => (h, Err EUnknownType)
            | Some inferred =>
                let explicit := match dget (hget h a) "sparse_preconditioner_type" with
                                | Some VNone => None | o => o end in
                match explicit with
                | None => (hset h a (dset (hget h a) "sparse_preconditioner_type" (VStr inferred)), Ok (Some canonical))
                | Some v =>
                    match normalize_type (to_str v) with
                    | None => (h, Err EUnknownType)
                    | Some e => if negb (String.eqb e inferred) then (h, Err EConflict)
                                else (hset h a (dset (hget h a) "sparse_preconditioner_type" (VStr inferred)), Ok (Some canonical))
                    end
                end
            end
        end
    end.
  (** returns the heap, and the mode with the identity of the returned dictionary *)
  Definition resolve (mode : string) (args : option nat) (h : heap) : heap * res lexn (string * nat) :=
    let a := length h in
    let h1 := (h ++ [match args with None => [] | Some i => hget h i end])%list in      (* dict(_normalize_args(args)) *)
    match resolve_loop prefixes (lower mode) h1 a with
    | (h2, Ok None) => (h2, Ok (mode, a))
    | (h2, Ok (Some m)) => (h2, Ok (m, a))
    | (h2, Err e) => (h2, Err e)
    end.
End Resolve.

(** * automatic solver, gp_kv.py 182-188; nnz / n^2 against 0.0001 *)
Inductive smode := MUser (n : nat) | MSparseLU | MChol | MMinres.
Definition auto_mode (user : option nat) (n : N) (nnz : N) : res lexn smode :=
  if N.eqb n 0 then Err EZeroDiv else                                    (* float division by zero *)
  let sparse := (nnz * 10000 <? n * n)%N in
  match user with
  | Some m => Ok (MUser m)
  | None => Ok (if (n <? 50001)%N && sparse then MSparseLU
                else if (n <? 2001)%N && negb sparse then MChol else MMinres)
  end.

(** * sequential_linalg_state, gp_kv.py 29-85.  The body of the with statement is any function of
    the dictionary (it may change it and may raise); [warn_raises]: warnings configured as errors. *)
Definition state_defaults : list (string * aval) :=
  [("sparse_krylov_warm_start", VBool false); ("sparse_preconditioner_refresh_interval", VInt 1)].
Definition sequential_state {A} (method : string) (warn_raises : bool) (args : dict)
    (body : dict -> dict * res lexn A) : dict * res lexn A :=
  if String.eqb method "mcmc" then body args else
  let overridden := filter (fun p => match dget args (fst p) with Some v => negb (aeqb v (snd p)) | None => false end) state_defaults in
  if negb (match overridden with [] => true | _ => false end) && warn_raises then (args, Err EWarning) else
  let saved := map (fun p => (fst p, dget args (fst p))) state_defaults in
  let args1 := fold_left (fun d p => dset d (fst p) (snd p)) state_defaults args in
  let '(args2, r) := body args1 in
  (fold_left (fun d p => match snd p with Some v => dset d (fst p) v | None => dpop d (fst p) end) saved args2, r).

(** * the preconditioner cache, gp_kv.py 193-388 *)
Definition fprint := ((nat * nat) * Z * Q * Q)%type.       (* shape, nnz, trace, Frobenius norm *)
Definition fshape (f : fprint) : nat * nat := fst (fst (fst f)).
Definition ftrace (f : fprint) : Q := snd (fst f).
Definition ffro (f : fprint) : Q := snd f.
Definition shape_eqb (a b : nat * nat) : bool := Nat.eqb (fst a) (fst b) && Nat.eqb (snd a) (snd b).


Definition qabs (a : Q) : Q := if Qle_bool 0 a then a else (- a)%Q.
Definition qmax (a b : Q) : Q := if Qle_bool a b then b else a.
(** |new - old| / max(|old|, |new|, 1e-300), 249-251 *)
Definition rel (old new : Q) : Q :=
  (qabs (new - old) / qmax (qmax (qabs old) (qabs new)) (1 # Pos.pow 10 300))%Q.
(** _fingerprint_drift 241-252; None is np.inf *)
Definition fdrift (old new : option fprint) : option Q :=
  match old, new with
  | Some o, Some n => if negb (shape_eqb (fshape o) (fshape n)) then None
                      else Some (qmax (qmax 0 (rel (ftrace o) (ftrace n))) (rel (ffro o) (ffro n)))
  | _, _ => None
  end.
(** drift > limit *)
Definition exceeds (d : option Q) (limit : Q) : bool :=
  match d with None => true | Some q => negb (Qle_bool q limit) end.

(** int() and float() of a setting *)
Definition trunc (q : Q) : Z := Z.quot (Qnum q) (Zpos (Qden q)).
Definition to_int (v : aval) : res lexn Z :=
  match v with VBool b => Ok (if b then 1 else 0)%Z | VInt z => Ok z | VFloat q => Ok (trunc q) | _ => Err EType end.
Definition to_float (v : aval) : res lexn Q := match num v with Some q => Ok q | None => Err EType end.

(** 193-207 *)
Definition refresh_interval (args : dict) : res lexn (option Z) :=
  match dget args "sparse_preconditioner_refresh_interval" with
  | None | Some VNone => Ok None
  | Some v => match to_int v with Ok z => Ok (Some (Z.max 1 z)) | Err e => Err e end
  end.
(** 285 *)
Definition max_drift (args : dict) : res lexn Q :=
  match dget args "sparse_preconditioner_max_matrix_drift" with None => Ok (1 # 10) | Some v => to_float v end.
(** _preconditioner_signature 209-213: the settings whose name starts with sparse_preconditioner_,
    sorted by name (names are distinct, so the values are never compared by the sort) *)
Definition relevant (k : string) : bool := starts_with k "sparse_preconditioner_".
Fixpoint sins (p : string * aval) (l : dict) : dict :=
  match l with [] => [p] | q :: r => match String.compare (fst p) (fst q) with Gt => q :: sins p r | _ => p :: l end end.
Definition signature (args : dict) : dict := fold_right sins [] (filter (fun p => relevant (fst p)) args).
Fixpoint sig_eqb (a b : dict) : bool :=
  match a, b with
  | [], [] => true
  | (j, v) :: a', (k, w) :: b' => String.eqb j k && aeqb v w && sig_eqb a' b'
  | _, _ => false
  end.

Section Cache.
  (** matrices, preconditioner operators, solutions *)
  Context {M Op X : Type}.
  Variable mshape : M -> nat * nat.
  Variable fingerprint : M -> option fprint.               (* matrix_fingerprint 215-239; None: raised inside *)
  Variable build : dict -> M -> option Op.                 (* calculate_sparse_preconditioner; None: raised *)
  Variable preconditioned : bool.                          (* self.mode in _PRECONDITIONED_MODES *)

  Record cache := Cache { c_op : option Op; c_sig : dict; c_shape : option (nat * nat);
                          c_fp : option fprint; c_count : nat }.
  (** _reset_sparse_preconditioner 310-317, also the state after __init__ *)
  Definition empty_cache : cache := Cache None [] None None 0.

  (** _can_reuse_sparse_preconditioner 319-337.  (The signature None of an empty cache is []; it is
      never looked at because the operator is tested first.) *)
  Definition can_reuse (args : dict) (c : cache) (kv : M) : res lexn bool :=
    if negb preconditioned then Ok false else
    match c_op c with None => Ok false | Some _ =>
    match c_shape c with
    | None => Ok false
    | Some sh => if negb (shape_eqb sh (mshape kv)) then Ok false else
    if negb (sig_eqb (c_sig c) (signature args)) then Ok false else
    match refresh_interval args with
    | Err e => Err e
    | Ok interval =>
      if match interval with Some i => Z.leb (i - 1) (Z.of_nat (c_count c)) | None => false end then Ok false else
      match max_drift args with
      | Err e => Err e
      | Ok lim => Ok (negb (exceeds (fdrift (c_fp c) (fingerprint kv)) lim))
      end
    end end end.

  (** _get_or_refresh_preconditioner 355-388 *)
  Definition get_or_refresh (args : dict) (force : bool) (c : cache) (kv : M) : cache * res lexn (option Op) :=
    if negb preconditioned then (c, Ok None) else
    let fresh :=
      match build args kv with
      | None => (empty_cache, Ok None)                                                    (* 377-379 *)
      | Some op => (Cache (Some op) (signature args) (Some (mshape kv)) (fingerprint kv) 0, Ok (Some op))
      end in
    if force then fresh else
    match can_reuse args c kv with
    | Err e => (c, Err e)
    | Ok true => (Cache (c_op c) (c_sig c) (c_shape c) (c_fp c) (S (c_count c)), Ok (c_op c))
    | Ok false => fresh
    end.

  (** a session: each call comes with the settings in force at that moment *)
  Record pcall := PCall { p_args : dict; p_force : bool; p_kv : M }.
  Fixpoint psession (c : cache) (l : list pcall) : cache * list (pcall * res lexn (option Op)) :=
    match l with
    | [] => (c, [])
    | q :: r => let '(c1, x) := get_or_refresh (p_args q) (p_force q) c (p_kv q) in
                let '(c2, xs) := psession c1 r in (c2, (q, x) :: xs)
    end.

  (** * warm starts: GPMarginalDensity.compute_new_KVlogdet_KVinvY (gp_marginal_likelihood.py
      91-133) through GPkv.compute_new_KVlogdet_KVinvY (gp_kv.py 574-583); the number of outputs does
      not change, so only the row count decides whether a guess fits.  [solve] is the iterative
      solver of the mode in use, which may raise. *)
  Variable solve : M -> option X -> res lexn X.
  Variable xrows : X -> nat.
  Variable truthy : aval -> bool.
  Record warm := Warm { w_fp : option fprint; w_last : option X; w_committed : option X }.
  Definition enabled (args : dict) : bool :=
    match dget args "sparse_krylov_warm_start" with None => false | Some v => truthy v end.
  (** _iterative_initial_guess 95-116 *)
  Definition initial_guess (args : dict) (w : warm) (n : nat) : option X :=
    if enabled args then
      match w_last w with
      | Some x => if Nat.eqb (xrows x) n then Some x
                  else match w_committed w with Some y => if Nat.eqb (xrows y) n then Some y else None | None => None end
      | None => match w_committed w with Some y => if Nat.eqb (xrows y) n then Some y else None | None => None end
      end
    else None.
  (** _validated_warm_start 287-308 *)
  Definition validated (args : dict) (w : warm) (kv : M) (x0 : option X) : res lexn (option X) :=
    match x0 with
    | None => Ok None
    | Some _ =>
        match w_fp w with
        | None => Ok x0
        | Some _ => match max_drift args with
                    | Err e => Err e
                    | Ok lim => Ok (if exceeds (fdrift (w_fp w) (fingerprint kv)) lim then None else x0)
                    end
        end
    end.
  (** one likelihood evaluation at hyperparameters with matrix [kv]; also returns the guess used *)
  Definition evaluate (args : dict) (w : warm) (kv : M) : warm * option X * res lexn X :=
    match validated args w kv (initial_guess args w (fst (mshape kv))) with
    | Err e => (w, None, Err e)
    | Ok x0 =>
        let w1 := Warm (fingerprint kv) (w_last w) (w_committed w) in
        match solve kv x0 with
        | Err e => (w1, x0, Err e)
        | Ok x => (Warm (w_fp w1) (if enabled args then Some x else w_last w1) (w_committed w1), x0, Ok x)
        end
    end.
  Fixpoint evaluations (w : warm) (l : list (dict * M)) : warm * list (M * option X * res lexn X) :=
    match l with
    | [] => (w, [])
    | (args, kv) :: r => let '(w1, g, x) := evaluate args w kv in
                         let '(w2, o) := evaluations w1 r in (w2, (kv, g, x) :: o)
    end.
End Cache.
