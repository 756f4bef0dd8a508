(** Which arrays a GP shares with its caller.  gp_data.py 25, 37-39 (construction), 93-115 (update); gp_training.py 18;
    gp.py 576-645 (properties), 672-687 (set_hyperparameters), 739-749, 1093-1117 (train), 1297-1308 (get_prior_pdf);
    gp_prior.py 158-183, 248-299; gp_likelihood.py 85-108; gp_kv.py 404-417; gp_posterior.py 142-165 (posterior_mean).

    An array is an address in a heap; a variable of the calling program is bound to an address.  GPdata keeps the arrays it is given
    (a 1-d y is kept as a reshaped view of the same memory), GPtraining keeps the hyperparameter array, the measured variances are
    returned as V as they are, and the properties hand out what is stored.  np.vstack, np.append, np.block, arithmetic and the
    kernel, mean and noise functions make new arrays.

    Simplifications: Euclidean inputs and measured noise variances; no task axis; user callables return new arrays and do not
    write to their arguments; an array is written as a whole; a write keeps the shape (not checked).  Exceptions are not modelled.
    The factorization of K+V, the solved right-hand side and the log-determinant are one value [W] which is not reachable from
    outside.  No proofs here. *)
From Verif Require Import Model.Prelude Spec.SharingSpec.

Section Sharing.
  Context {A W : Type} (dummy : A).
  (** np.vstack / np.append *)
  Variable join : A -> A -> A.
  (** kernel(x, x, h) and np.block([[K, k(xo, xn)], [k.T, k(xn, xn)]]) *)
  Variable kern : A -> A -> A.
  Variable kern_block : A -> A -> A -> A -> A.
  (** prior mean on x (y is read by the default mean), and its extension *)
  Variable mean : A -> A -> A -> A.
  Variable mean_append : A -> A -> A -> A -> A -> A.
  (** set_KV / update_KV followed by the solve: K, m, V, y *)
  Variable factor : A -> A -> A -> A -> W.
  Variable refactor : W -> A -> A -> A -> A -> W.
  (** posterior mean at q from x_data, y_data, hyperparameters and the cached solve *)
  Variable post : A -> A -> A -> W -> A -> A.

  Definition addr := nat.
  Definition heap := list A.
  Definition rd (hp : heap) (a : addr) : A := nth a hp dummy.
  Fixpoint wr (hp : heap) (a : addr) (v : A) : heap :=
    match hp, a with
    | [], _ => []
    | _ :: r, O => v :: r
    | b :: r, S a' => b :: wr r a' v
    end.

  (** the arrays held by the object *)
  Record obj := Obj { ox : addr; oy : addr; on : addr; oh : addr; oK : addr; om : addr; oW : W }.
  Definition held (o : obj) : list addr := [ox o; oy o; on o; oh o; oK o; om o].

  (** the calling program; variables are numbered in the order in which they are bound *)
  Definition var := nat.
  Inductive op :=
  | New (v : A)                       (* v = np.array(...) *)
  | Write (x : var) (v : A)           (* x[...] = v *)
  | Init (x y n h : var)              (* GP(x, y, noise_variances=n, init_hyperparameters=h) *)
  | Append (x y n : var) (rank_n : bool)
  | Overwrite (x y n : var)
  | SetHps (h : var)
  | Train (v : A)                     (* v is what the optimizer returns; the caller receives the array *)
  | GetX | GetY | GetN | GetH | GetK | GetM
  | Predict (q : var).                (* posterior_mean(q)["m(x)"] *)

  Record st := St { hp : heap; env : list addr; gp : option obj }.
  Definition loc (s : st) (x : var) : addr := nth x (env s) 0.
  Definition val (s : st) (x : var) : A := rd (hp s) (loc s x).
  (** bind a new variable to a new array *)
  Definition alloc (s : st) (v : A) : st := St (hp s ++ [v]) (env s ++ [length (hp s)]) (gp s).

  (** GPprior.__init__ / update_state_*, likelihood.update_state, GPkv._refresh(False): [x y n h] are addresses *)
  Definition rebuild (s : st) (x y n h : addr) : st :=
    let r := rd (hp s) in
    let K := kern (r x) (r h) in
    let m := mean (r x) (r y) (r h) in
    let k := length (hp s) in
    St (hp s ++ [K; m]) (env s) (Some (Obj x y n h k (S k) (factor K m (r n) (r y)))).

  (** update(append=True), augment_state_data, _refresh *)
  Definition extend (s : st) (o : obj) (x y n : addr) (rank_n : bool) : st :=
    let r := rd (hp s) in
    let X := join (r (ox o)) (r x) in
    let Y := join (r (oy o)) (r y) in
    let N := join (r (on o)) (r n) in
    let K := kern_block (r (oK o)) (r (ox o)) (r x) (r (oh o)) in
    let m := mean_append (r (om o)) (r x) X Y (r (oh o)) in
    let k := length (hp s) in
    St (hp s ++ [X; Y; N; K; m]) (env s)
       (Some (Obj k (1 + k) (2 + k) (oh o) (3 + k) (4 + k) (if rank_n then refactor (oW o) K m N Y else factor K m N Y))).

  (** a property: the caller's new variable is the stored array itself *)
  Definition share (s : st) (f : obj -> addr) : st :=
    match gp s with Some o => St (hp s) (env s ++ [f o]) (gp s) | None => s end.

  Definition exec (s : st) (c : op) : st :=
    match c with
    | New v => alloc s v
    | Write x v => St (wr (hp s) (loc s x) v) (env s) (gp s)
    | Init x y n h => rebuild s (loc s x) (loc s y) (loc s n) (loc s h)
    | Append x y n rk => match gp s with Some o => extend s o (loc s x) (loc s y) (loc s n) rk | None => s end
    | Overwrite x y n => match gp s with Some o => rebuild s (loc s x) (loc s y) (loc s n) (oh o) | None => s end
    | SetHps h => match gp s with Some o => rebuild s (ox o) (oy o) (on o) (loc s h) | None => s end
    | Train v => match gp s with
                 | Some o => let s' := alloc s v in rebuild s' (ox o) (oy o) (on o) (length (hp s))
                 | None => s end
    | GetX => share s ox | GetY => share s oy | GetN => share s on
    | GetH => share s oh | GetK => share s oK | GetM => share s om
    | Predict q => match gp s with
                   | Some o => alloc s (post (rd (hp s) (ox o)) (rd (hp s) (oy o)) (rd (hp s) (oh o)) (oW o) (val s q))
                   | None => s end
    end.

  (** what happened, as contents at the time of the call *)
  Definition emit (s : st) (c : op) : list (call A) :=
    match c, gp s with
    | Init x y n h, _ => [CInit (val s x) (val s y) (val s n) (val s h)]
    | Append x y n _, Some _ => [CAppend (val s x) (val s y) (val s n)]
    | Overwrite x y n, Some _ => [COverwrite (val s x) (val s y) (val s n)]
    | SetHps h, Some _ => [CSetHps (val s h)]
    | Train v, Some _ => [CSetHps v]
    | Predict q, Some _ => [CPredict (val s q) (let s' := exec s c in rd (hp s') (last (env s') 0))]
    | _, _ => []
    end.
  Fixpoint events (s : st) (p : list op) : list (call A) :=
    match p with [] => [] | c :: r => emit s c ++ events (exec s c) r end.
  Definition run (s : st) (p : list op) : st := fold_left exec p s.
  Definition start : st := St [] [] None.
End Sharing.
