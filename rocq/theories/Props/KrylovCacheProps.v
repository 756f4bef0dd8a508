(** C87, C88: what the caches of the Krylov modes hand out. *)
From Coq Require Import String QArith Qminmax Qabs Lqa.
From Verif Require Import Model.Prelude Model.KrylovCache Spec.KrylovCacheSpec Proofs.KrylovCacheP.
Local Open Scope list_scope.

Section Props.
Context {M Op Val : Type} (val_eqb : Val -> Val -> bool) (VE : forall a b, val_eqb a b = true <-> a = b).
Context (fingerprint : M -> fp) (tn : Q) (T : (0 < tn)%Q).
Context (build : args (Val:=Val) -> M -> option Op) (interval : args (Val:=Val) -> option Z) (max_drift : args (Val:=Val) -> Q).

(** C87: whatever happened before, a preconditioner that is handed out was either built now, for this matrix and these arguments, or it is the
    last one built; then no pickling and no other build came in between, every setting of preconditioners was the same, the trace and the norm of the
    matrix are within the allowed drift, and it has not been reused more often than the interval allows. *)
Theorem preconditioner_fresh : forall es c log, prun val_eqb fingerprint tn build interval max_drift empty_cache es = (c, log) ->
  forall l1 pre a force kv op o l2, log = l1 ++ (PGet pre a force kv, PResult (Some op) o) :: l2 -> NoDup (map fst a) ->
  pre = true /\
  ((o = Built /\ build a kv = Some op) \/
   (o = Reused /\ force = false /\ exists l0 a0 f0 kv0 lm,
      l1 = l0 ++ (PGet true a0 f0 kv0, PResult (Some op) Built) :: lm /\ build a0 kv0 = Some op /\ Forall keeps lm /\
      (NoDup (map fst a0) -> forall k, prefix "sparse_preconditioner_" k = true -> lookup a0 k = lookup a k) /\
      close_to tn (max_drift a) (fingerprint kv0) (fingerprint kv) /\
      (forall i, interval a = Some i -> (Z.of_nat (List.length (filter reused lm)) + 1 <= i - 1)%Z))).
Proof.
intros es c log R l1 pre a force kv op o l2 E N.
assert (G0 : good fingerprint tn build interval max_drift []) by (intros [|? ?]; discriminate).
destruct (run_good val_eqb VE fingerprint tn T build interval max_drift es empty_cache [] c log Logic.I G0 R) as [_ G].
destruct (G l1 pre a force kv op o l2 E) as (P & [H|(H1 & H2 & l0 & a0 & f0 & kv0 & lm & H3 & H4 & H5 & H6 & H7 & H8)]); (split; [exact P|]); [left; exact H|right].
split; [exact H1|]. split; [exact H2|]. exists l0, a0, f0, kv0, lm. split; [exact H3|]. split; [exact H4|]. split; [exact H5|]. split; [|split; [exact H7|exact H8]].
intros N0. eapply signature_lookup; eassumption.
Qed.

(** C87: and for an unchanged matrix and unchanged arguments it is built once, as long as the interval allows *)
Theorem preconditioner_built_once : forall a kv op, build a kv = Some op -> (0 <= max_drift a)%Q -> forall n c, (forall i, interval a = Some i -> (Z.of_nat n <= i - 1)%Z) ->
  snd (prun val_eqb fingerprint tn build interval max_drift c (PGet true a true kv :: repeat (PGet true a false kv) n)) =
  (PGet true a true kv, PResult (Some op) Built) :: repeat (PGet true a false kv, PResult (Some op) Reused) n.
Proof. exact (build_then_reuse val_eqb VE fingerprint tn T build interval max_drift). Qed.

Context (warm_enabled : args (Val:=Val) -> bool).
(** C88, the part that holds: while only the marginal likelihood is evaluated, with warm starts enabled, and hyperparameters or data are set, every
    starting guess after the first evaluation was computed for a matrix within the allowed drift.  Missing: the first evaluation, and runs in which a
    posterior is evaluated at other hyperparameters. *)
Theorem warm_start_near_partial : forall es w log, Forall (ml_only warm_enabled) es -> wrun fingerprint tn max_drift warm_enabled w_start es = (w, log) ->
  forall l1 a kv s l2, log = l1 ++ (WEval a kv, Some s) :: l2 -> (exists a0 kv0 x0, In (WEval a0 kv0, x0) l1) ->
  close_to tn (max_drift a) (fingerprint (s_for s)) (fingerprint kv).
Proof.
intros es w log F R l1 a kv s l2 E H. destruct (wrun_inv fingerprint tn T max_drift warm_enabled es w_start w log eq_refl F R) as [_ C]. exact (C l1 a kv s l2 E (or_intror H)).
Qed.
End Props.
Print Assumptions preconditioner_fresh.
Print Assumptions preconditioner_built_once.
Print Assumptions warm_start_near_partial.

(** ** Examples: diagonal matrices of order two, given with their Frobenius norm; a preconditioner is the diagonal *)
Definition dmat := (Q * Q * Q)%type.
Definition dfp (m : dmat) : fp := let '(a, b, f) := m in FP (2, 2)%nat 2 (Some (a + b)%Q) (Some f).
Definition dbuild (a : args (Val:=Z)) (m : dmat) : option (Q * Q) := let '(a, b, f) := m in Some (a, b).
Definition dinterval (a : args (Val:=Z)) : option Z := lookup a "sparse_preconditioner_refresh_interval".
Definition ddrift (a : args (Val:=Z)) : Q := (1 # 10)%Q.
Definition dtn : Q := (1 # 1000000)%Q.
Definition drun es := map (fun x => snd x) (snd (prun Z.eqb dfp dtn dbuild dinterval ddrift empty_cache es)).
Definition i3 : args (Val:=Z) := [("sparse_preconditioner_refresh_interval"%string, 3%Z); ("other"%string, 1%Z)].
Definition m34 : dmat := (3, 4, 5)%Q.
Definition m43 : dmat := (4, 3, 5)%Q.
Definition m68 : dmat := (6, 8, 10)%Q.
(** an unrelated argument may change; a setting of preconditioners, the matrix and pickling lead to a new build; with interval 3 there are two reuses *)
Example ex_reuse : drun [PGet true i3 false m34; PGet true (tl i3 ++ [hd ("a"%string, 0%Z) i3]) false m34; PGet true i3 false m34; PGet true i3 false m34; PPickle; PGet true i3 false m34; PGet true i3 false m68; PGet true [] false m68]
  = [PResult (Some (3, 4)%Q) Built; PResult (Some (3, 4)%Q) Reused; PResult (Some (3, 4)%Q) Reused; PResult (Some (3, 4)%Q) Built; PResult None NoPre;
     PResult (Some (3, 4)%Q) Built; PResult (Some (6, 8)%Q) Built; PResult (Some (6, 8)%Q) Built].
Proof. vm_compute. reflexivity. Qed.
(** the drift does not tell diag(3,4) from diag(4,3) *)
Example ex_same_drift : drun [PGet true [] false m34; PGet true [] false m43] = [PResult (Some (3, 4)%Q) Built; PResult (Some (3, 4)%Q) Reused].
Proof. vm_compute. reflexivity. Qed.
(** nor does it see a matrix with an infinite entry *)
Example ex_nonfinite : drift dtn (Some (FP (2, 2)%nat 2 (Some 7%Q) (Some 5%Q))) (Some (FP (2, 2)%nat 2 None None)) = Some 0%Q.
Proof. reflexivity. Qed.

Definition dwrun es := map snd (snd (wrun dfp dtn ddrift (fun _ : args (Val:=Z) => true) w_start es)).
(** a near guess is used, a far one dropped, and the one after that is near again *)
Example ex_warm : dwrun [WEval [] m34; WEval [] m43; WEval [] m68; WEval [] m68] = [None; Some (Sol m34 2); None; Some (Sol m68 2)].
Proof. vm_compute. reflexivity. Qed.

Lemma far : ~ close_to dtn (1 # 10) (dfp m34) (dfp m68).
Proof. intros [_ [H _]]. specialize (H _ _ eq_refl eq_refl). vm_compute in H. apply H. reflexivity. Qed.
(** C88 fails at the first evaluation: the solution of the committed hyperparameters is used, however far they are *)
Theorem warm_start_first_refuted : ~ (forall (es : list (wevent (M:=dmat) (Val:=Z))) w log, wrun dfp dtn ddrift (fun _ => true) w_start es = (w, log) ->
  forall a kv s, In (WEval a kv, Some s) log -> close_to dtn (ddrift a) (dfp (s_for s)) (dfp kv)).
Proof.
intros H. refine (far (H [WCommit m34; WEval [] m68] _ _ eq_refl [] m68 (Sol m34 2) _)). right. left. reflexivity.
Qed.
(** C88 fails later too: a posterior at other hyperparameters moves the fingerprint but not the stored solution *)
Theorem warm_start_posterior_refuted : ~ (forall (es : list (wevent (M:=dmat) (Val:=Z))) w log, wrun dfp dtn ddrift (fun _ => true) w_start es = (w, log) ->
  forall l1 a kv s l2, log = l1 ++ (WEval a kv, Some s) :: l2 -> (exists a0 kv0 x0, In (WEval a0 kv0, x0) l1) -> close_to dtn (ddrift a) (dfp (s_for s)) (dfp kv)).
Proof.
intros H. refine (far (H [WEval [] m34; WPosterior [] m68; WEval [] m68] _ _ eq_refl [(WEval [] m34, None); (WPosterior [] m68, None)] [] m68 (Sol m34 2) [] eq_refl _)).
exists [], m34, None. left. reflexivity.
Qed.
Print Assumptions warm_start_first_refuted.
Print Assumptions warm_start_posterior_refuted.
