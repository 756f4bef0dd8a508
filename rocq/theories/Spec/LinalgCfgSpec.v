(** Specification vocabulary for the linear-algebra configuration. *)
From Coq Require Import String Ascii QArith Qabs Qminmax.
From Verif Require Import Model.Prelude Model.LinalgCfg.
Local Open Scope string_scope.
Local Open Scope nat_scope.

Definition keys (d : dict) : list string := map fst d.
(** a dict has distinct keys *)
Definition proper (d : dict) : Prop := NoDup (keys d).
(** python equality of an optional setting *)
Definition same_setting (a b : option aval) : Prop :=
  match a, b with Some v, Some w => aeqb v w = true | None, None => True | _, _ => False end.
(** ASCII case-insensitive equality *)
Definition same_ci (a b : string) : Prop := lower a = lower b.

(** the two strings differ at most by the capitalization of letters of the first *)
Definition capital_of (a b : ascii) : Prop :=
  65 <= nat_of_ascii a <= 90 /\ nat_of_ascii b = nat_of_ascii a + 32.
Fixpoint written_as (s name : string) : Prop :=
  match s, name with
  | EmptyString, EmptyString => True
  | String a s', String b n' => (a = b \/ capital_of a b) /\ written_as s' n'
  | _, _ => False
  end.
(** documented names of each preconditioner *)
Definition documented (t : string) : list string :=
  if String.eqb t "ilu" then ["ilu"]
  else if String.eqb t "ichol" then ["ichol"; "ic"; "incomplete_cholesky"]
  else if String.eqb t "ichol0" then ["ichol0"]
  else if String.eqb t "native_incomplete_cholesky"
       then ["native_ic"; "native_ichol"; "native_incomplete_cholesky"; "legacy_ic"; "legacy_ichol"; "legacy_incomplete_cholesky"]
  else if String.eqb t "block_jacobi" then ["block_jacobi"; "blockjacobi"]
  else if String.eqb t "additive_schwarz" then ["additive_schwarz"; "schwarz"]
  else if String.eqb t "amg" then ["amg"]
  else [].

(** the relative change of a number is at most [lim]: |new - old| <= lim max(|old|, |new|, 1e-300) *)
Definition changed_by_at_most (lim old new : Q) : Prop :=
  (Qabs (new - old) <= lim * Qmax (Qmax (Qabs old) (Qabs new)) (1 # Pos.pow 10 300))%Q.
(** two fingerprints of matrices of the same shape whose trace and Frobenius norm differ little *)
Definition close_fingerprints (lim : Q) (a b : option fprint) : Prop :=
  exists shape nnz_a nnz_b trace_a trace_b fro_a fro_b, a = Some (shape, nnz_a, trace_a, fro_a) /\ b = Some (shape, nnz_b, trace_b, fro_b) /\
    changed_by_at_most lim trace_a trace_b /\ changed_by_at_most lim fro_a fro_b.

(** the dict holds [v] under [k] *)
Definition holds (d : dict) (k : string) (v : aval) : Prop := exists a b, d = (a ++ (k, v) :: b)%list /\ ~ In k (keys a).
(** booleans, integers and floats as numbers *)
Definition has_value (v : aval) (q : Q) : Prop :=
  (v = VBool false /\ q = 0%Q) \/ (v = VBool true /\ q = 1%Q) \/ (exists z, v = VInt z /\ q = inject_Z z) \/ v = VFloat q.
(** the number without its fractional part *)
Definition whole_part (q : Q) (z : Z) : Prop :=
  if Qlt_le_dec q 0 then (inject_Z z - 1 < q <= inject_Z z)%Q else (inject_Z z <= q < inject_Z z + 1)%Q.
(** how much a matrix may drift before its preconditioner is rebuilt: ten percent unless set *)
Definition drift_limit (d : dict) (lim : Q) : Prop :=
  let k := "sparse_preconditioner_max_matrix_drift" in
  (~ In k (keys d) /\ lim = (1 # 10)%Q) \/ exists v, holds d k v /\ has_value v lim.
(** after how many uses it is rebuilt in any case *)
Definition rebuilt_every (d : dict) (i : Z) : Prop :=
  exists v q z, holds d "sparse_preconditioner_refresh_interval" v /\ has_value v q /\ whole_part q z /\ i = Z.max 1 z.

Section Hist.
  Context {M Op : Type}.
  Definition entry := (@pcall M * res lexn (option Op))%type.
  (** how many calls of a stretch of the log returned normally *)
  Definition served (l : list entry) : nat := List.length (filter (fun e => is_ok (snd e)) l).
End Hist.
