(** Model of the two caches of the preconditioned and warm-started Krylov modes.  /repo/fvgp/gp_kv.py: refresh interval 195-207,
    signature 209-213, fingerprints and drift 215-257, maximal drift 285, _validated_warm_start 287-308, preconditioner cache
    310-388, use of both in compute_new_KVinvY 510-557 and compute_new_KVlogdet_KVinvY 574-583, set_KV and update_KV 425-508;
    /repo/fvgp/gp_marginal_likelihood.py 92-134; /repo/fvgp/gp_posterior.py 40-41; __getstate__ gp_kv.py 735-736.

    Simplifications: the values in args are of a type with decidable equality; trace and Frobenius norm are rational or not finite (None: nan or an
    infinity; with such a value the quotient in the drift is nan); the column count of solutions is left out; a fingerprint is always computed (the code gives None if that raised); building a preconditioner and solving are
    oracles.  Solutions carry the matrix they were computed for, which the code does not store.  No proofs here. *)
From Coq Require Import String QArith Qminmax Qabs.
From Verif Require Import Model.Prelude.
Local Open Scope string_scope.

(** ** fingerprints, 215-257 *)
Record fp := FP { fp_shape : nat * nat; fp_nnz : nat; fp_trace : option Q; fp_fro : option Q }.
(** abs(new - old) / max(abs(old), abs(new), tn) where tn is 1e-300; None: nan *)
Definition rel_change (tn : Q) (old new : option Q) : option Q :=
  match old, new with
  | Some a, Some b => Some (Qabs (b - a) / Qmax (Qmax (Qabs a) (Qabs b)) tn)%Q
  | _, _ => None
  end.
(** python's max(drift, x), which keeps drift if x is nan *)
Definition pymax (d : Q) (x : option Q) : Q := match x with Some q => if Qle_bool q d then d else q | None => d end.
(** None: inf *)
Definition drift (tn : Q) (old new : option fp) : option Q :=
  match old, new with
  | Some a, Some b =>
      if negb ((fst (fp_shape a) =? fst (fp_shape b)) && (snd (fp_shape a) =? snd (fp_shape b)))%nat then None
      else Some (pymax (pymax 0%Q (rel_change tn (fp_trace a) (fp_trace b))) (rel_change tn (fp_fro a) (fp_fro b)))
  | _, _ => None
  end.
Definition exceeds (d : option Q) (m : Q) : bool := match d with None => true | Some q => negb (Qle_bool q m) end.

Section Cache.
Context {M Op Val : Type} (val_eqb : Val -> Val -> bool).
Context (fingerprint : M -> fp) (tn : Q).
Definition args := list (string * Val).
Context (build : args -> M -> option Op).                       (* calculate_sparse_preconditioner; None: it raised *)
Context (interval : args -> option Z) (max_drift : args -> Q).   (* 195-207, 285: read from args *)

(** 209-213 *)
Definition prefix_ := "sparse_preconditioner_".
Fixpoint insert (e : string * Val) (l : list (string * Val)) : list (string * Val) :=
  match l with [] => [e] | x :: r => if String.leb (fst e) (fst x) then e :: l else x :: insert e r end.
Definition signature (a : args) : list (string * Val) := fold_right insert [] (filter (fun e => prefix prefix_ (fst e)) a).
Fixpoint sig_eqb (a b : list (string * Val)) : bool :=
  match a, b with
  | [], [] => true
  | (k, v) :: a', (k', v') :: b' => String.eqb k k' && val_eqb v v' && sig_eqb a' b'
  | _, _ => false
  end.

Record pcache := PC { p_op : option Op; p_sig : option (list (string * Val)); p_shape : option (nat * nat); p_fp : option fp; p_count : Z }.
Definition empty_cache : pcache := PC None None None None 0.       (* 310-317 *)

(** 319-337; [pre]: the mode is a preconditioned one *)
Definition can_reuse (pre : bool) (a : args) (c : pcache) (kv : M) : bool :=
  if negb pre then false else
  match p_op c with None => false | Some _ =>
  if negb (match p_shape c with Some s => (fst s =? fst (fp_shape (fingerprint kv))) && (snd s =? snd (fp_shape (fingerprint kv))) | None => false end)%nat then false else
  if negb (match p_sig c with Some s => sig_eqb s (signature a) | None => false end) then false else
  if (match interval a with Some i => Z.leb (i - 1) (p_count c) | None => false end) then false else
  if exceeds (drift tn (p_fp c) (Some (fingerprint kv))) (max_drift a) then false else true
  end.
Inductive outcome := Reused | Built | NoPre.
(** 355-388 *)
Definition get_or_refresh (pre : bool) (a : args) (force : bool) (c : pcache) (kv : M) : pcache * option Op * outcome :=
  if negb pre then (c, None, NoPre)
  else if negb force && can_reuse pre a c kv then
    (PC (p_op c) (p_sig c) (p_shape c) (p_fp c) (p_count c + 1), p_op c, Reused)
  else match build a kv with
       | None => (empty_cache, None, NoPre)
       | Some op => (PC (Some op) (Some (signature a)) (Some (fp_shape (fingerprint kv))) (Some (fingerprint kv)) 0, Some op, Built)
       end.
(** 735-736 *)
Definition unpickled (c : pcache) : pcache := PC None (p_sig c) (p_shape c) (p_fp c) (p_count c).

Inductive pevent := PGet (pre : bool) (a : args) (force : bool) (kv : M) | PPickle.
Record presult := PResult { r_op : option Op; r_outcome : outcome }.
Definition pstep (c : pcache) (e : pevent) : pcache * presult :=
  match e with
  | PGet pre a force kv => let '(c', op, o) := get_or_refresh pre a force c kv in (c', PResult op o)
  | PPickle => (unpickled c, PResult None NoPre)
  end.
Fixpoint prun (c : pcache) (es : list pevent) : pcache * list (pevent * presult) :=
  match es with
  | [] => (c, [])
  | e :: r => let '(c1, x) := pstep c e in let '(c2, l) := prun c1 r in (c2, (e, x) :: l)
  end.

(** ** warm starts *)
Record sol := Sol { s_for : M; s_rows : nat }.                    (* a solution, with the matrix it belongs to *)
Record wstate := WS { w_ws : option sol; w_committed : option sol; w_fp : option fp }.   (* _warm_start_KVinvY, kv.KVinvY, Warm_start_fingerprint *)
Definition rows_of (kv : M) : nat := fst (fp_shape (fingerprint kv)).
Context (warm_enabled : args -> bool).
(** _iterative_initial_guess *)
Definition initial_guess (a : args) (w : wstate) (rows : nat) : option sol :=
  if negb (warm_enabled a) then None else
  match w_ws w with
  | Some s => if Nat.eqb (s_rows s) rows then Some s
              else match w_committed w with Some s' => if Nat.eqb (s_rows s') rows then Some s' else None | None => None end
  | None => match w_committed w with Some s' => if Nat.eqb (s_rows s') rows then Some s' else None | None => None end
  end.
(** _validated_warm_start *)
Definition validated (a : args) (w : wstate) (kv : M) (x0 : option sol) : option sol :=
  match x0 with
  | None => None
  | Some s => match w_fp w with
              | None => Some s
              | Some f => if exceeds (drift tn (Some f) (Some (fingerprint kv))) (max_drift a) then None else Some s
              end
  end.
Inductive wevent :=
| WEval (a : args) (kv : M)            (* the marginal likelihood or its gradient at other hyperparameters: compute_new_KV... of GPMarginalLikelihood *)
| WPosterior (a : args) (kv : M)       (* a posterior at other hyperparameters: compute_new_KVinvY of GPposterior, which passes no x0 (gp_posterior.py 40-41) *)
| WCommit (kv : M).                    (* hyperparameters or data set: the committed solution is recomputed *)
Definition wstep (w : wstate) (e : wevent) : wstate * option sol :=
  match e with
  | WEval a kv =>
      let x0 := validated a w kv (initial_guess a w (rows_of kv)) in
      (WS (if warm_enabled a then Some (Sol kv (rows_of kv)) else w_ws w) (w_committed w) (Some (fingerprint kv)), x0)
  | WPosterior a kv => (WS (w_ws w) (w_committed w) (Some (fingerprint kv)), None)
  | WCommit kv => (WS (w_ws w) (Some (Sol kv (rows_of kv))) (w_fp w), None)
  end.
Fixpoint wrun (w : wstate) (es : list wevent) : wstate * list (wevent * option sol) :=
  match es with
  | [] => (w, [])
  | e :: r => let '(w1, x) := wstep w e in let '(w2, l) := wrun w1 r in (w2, (e, x) :: l)
  end.
Definition w_start : wstate := WS None None None.
End Cache.
