(** Property C147: documented options have their documented effect. *)
From Coq Require Import String QArith Lia.
From Verif Require Import Model.Prelude Model.LinalgCfg Model.SolverOpts.
Local Open Scope nat_scope.
Local Open Scope string_scope.

(** The documentation of args, gp.py 297-389: each key with its default value.  [doc d k v]: the value the user gave for k, or v *)
Definition given (d : dict) (k : string) : Prop := dget d k <> None.
Definition doc (d : dict) (k : string) (v w : aval) : Prop := (given d k -> dget d k = Some w) /\ (~ given d k -> w = v).
(** [z] is [q] with the digits after the point dropped *)
Definition toward_zero (q : Q) (z : Z) : Prop := ((0 <= q -> inject_Z z <= q /\ q < inject_Z (z + 1)) /\ (q <= 0 -> q <= inject_Z z /\ inject_Z (z - 1) < q))%Q.
(** a setting that counts as false in Python *)
Definition counts_as_false (v : aval) : Prop := v = VNone \/ v = VBool false \/ v = VInt 0 \/ v = VStr "" \/ exists q, v = VFloat q /\ (q == 0)%Q.
(** an iteration limit: the solver's own key, else the common one, else none; None means none; int() of a float drops the fraction,
    a string without digits is refused *)
Definition limit_of (v : option aval) (r : res lexn (option Z)) : Prop :=
  match v with
  | None | Some VNone => r = Ok None
  | Some (VInt z) => r = Ok (Some z)
  | Some (VBool b) => r = Ok (Some (if b then 1 else 0)%Z)
  | Some (VFloat q) => exists z, r = Ok (Some z) /\ toward_zero q z
  | Some (VStr s) => (forall i a, String.get i s = Some a -> ~ 48 <= Ascii.nat_of_ascii a <= 57) -> exists e, r = Err e
  | Some (VObj _) => True end.
Definition doc_limit (d : dict) (own : string) (r : res lexn (option Z)) : Prop :=
  (given d own -> limit_of (dget d own) r) /\ (~ given d own -> limit_of (dget d "sparse_krylov_maxiter") r).

Lemma docE d k v : doc d k v (get d k v).
Proof. unfold doc, given, get. destruct (dget d k); split; try tauto; try congruence; intros []; congruence. Qed.
Lemma trunc_toward q : toward_zero q (trunc q).
Proof.
  destruct q as [n d]. unfold toward_zero, trunc, Qle, Qlt, inject_Z. cbn [Qnum Qden].
  pose proof (Z.quot_rem' n (Zpos d)) as E. pose proof (Z.rem_bound_pos n (Zpos d)) as B1. pose proof (Z.rem_bound_pos (- n) (Zpos d)) as B2.
  rewrite (Z.rem_opp_l n (Zpos d)) in B2 by lia.
  split; intros H; [assert (0 <= n)%Z by lia; specialize (B1 H0 eq_refl)|assert (0 <= - n)%Z by lia; specialize (B2 H0 eq_refl)]; nia.
Qed.
Lemma limitE v : limit_of (Some v) (as_limit v).
Proof. unfold limit_of, as_limit. destruct v; simpl; eauto. eexists. split; [reflexivity|]. apply trunc_toward. Qed.
Lemma falsy v : counts_as_false v -> truthy v = false.
Proof. intros [->|[->|[->|[->|(q & -> & E)]]]]; try reflexivity. cbn. apply Qeq_bool_iff in E. now rewrite E. Qed.
Lemma not_falsy v : ~ counts_as_false v -> truthy v = true.
Proof.
  intros N. destruct (truthy v) eqn:E; [reflexivity|]. exfalso. apply N. unfold counts_as_false.
  destruct v as [|b|z|q|s|n]; cbn in E; auto.
  - subst b. auto.
  - apply negb_false_iff, Z.eqb_eq in E. subst. auto.
  - apply negb_false_iff, Qeq_bool_iff in E. eauto 8.
  - apply negb_false_iff, String.eqb_eq in E. subst. auto.
  - discriminate.
Qed.
Lemma unset d : (forall v, dget d "sparse_block_krylov" = Some v -> counts_as_false v) -> truthy (get d "sparse_block_krylov" (VBool false)) = false.
Proof. intros U. unfold get. destruct (dget d "sparse_block_krylov") as [v|]; [apply falsy, U|]; reflexivity. Qed.
Lemma maxiterE d own : doc_limit d own (krylov_maxiter d own).
Proof.
  unfold doc_limit, given, krylov_maxiter. destruct (dget d own) as [v|].
  - split; [intros _; apply limitE|intros H; elim H; discriminate].
  - split; [intros H; elim H; reflexivity|intros _]. destruct (dget d "sparse_krylov_maxiter"); [apply limitE|reflexivity].
Qed.

(** C147 without the legacy names, the device of the log-determinant and the device of the update *)
Theorem options_documented_partial : forall pystr d dev seen k,
  doc d "sparse_minres_tol" (VFloat (1 # 100000)) (minres_tol d) /\
  (given d "sparse_cg_tol" \/ (~ given d "cg_minres_tol" /\ ~ given d "sparse_minres_tol") -> doc d "sparse_cg_tol" (VFloat (1 # 100000)) (cg_tol d)) /\
  doc_limit d "sparse_minres_maxiter" (minres_maxiter d) /\ doc_limit d "sparse_cg_maxiter" (cg_maxiter d) /\
  (forall v, dget d "sparse_block_krylov" = Some v -> ~ counts_as_false v -> krylov_mode pystr d = Ok true) /\
  ((forall v, dget d "sparse_block_krylov" = Some v -> counts_as_false v) -> ~ given d "sparse_krylov_mode" -> krylov_mode pystr d = Ok false) /\
  ((forall v, dget d "sparse_block_krylov" = Some v -> counts_as_false v) -> forall s, dget d "sparse_krylov_mode" = Some (VStr s) ->
     (krylov_mode pystr d = Ok false <-> lower s = "single" \/ lower s = "columnwise") /\
     (krylov_mode pystr d = Ok true <-> lower s = "block" \/ lower s = "block_cg") /\
     (krylov_mode pystr d = Err EType <-> ~ In (lower s) ["single"; "columnwise"; "block"; "block_cg"])) /\
  (0 < k -> forall b, cg_block_size d (Z.of_nat k) = Ok b ->
     (1 <= b <= Z.of_nat k)%Z /\ (forall z, dget d "sparse_krylov_block_size" = Some (VInt z) -> (1 <= z <= Z.of_nat k)%Z -> b = z) /\
     (~ given d "sparse_krylov_block_size" -> b = Z.of_nat k)) /\
  (let s := logdet_settings dev seen d in
     doc d "random_logdet_lanczos_degree" (VInt 20) (s_degree s) /\ doc d "random_logdet_error_rtol" (VFloat (1 # 100)) (s_rtol s) /\
     doc d "random_logdet_verbose" (VBool false) (s_verbose s) /\ doc d "random_logdet_min_num_samples" (VInt 10) (s_min s) /\
     doc d "random_logdet_max_num_samples" (VInt 5000) (s_max s) /\
     (~ given d "random_logdet_lanczos_compute_device" -> s_gpu s = true <-> dev = "gpu" /\ seen = true)) /\
  doc d "Chol_factor_compute_device" (VStr dev) (chol_device dev d CFactor) /\
  doc d "Chol_solve_compute_device" (VStr dev) (chol_device dev d CSolve) /\
  doc d "Chol_logdet_compute_device" (VStr dev) (chol_device dev d CLogdet).
Proof.
  intros pystr d dev seen k. cbv zeta. repeat match goal with |- _ /\ _ => split end; try apply docE; try apply maxiterE.
  - unfold doc, given, cg_tol. intros H. destruct (dget d "sparse_cg_tol") as [v|]; split; try reflexivity; try tauto.
    + intros N. exfalso. apply N. discriminate.
    + intros _. destruct H as [H|[H1 H2]]; [exfalso; apply H; reflexivity|].
      destruct (dget d "cg_minres_tol"); [exfalso; apply H1; discriminate|]. destruct (dget d "sparse_minres_tol"); [exfalso; apply H2; discriminate|]. reflexivity.
  - intros v H N. unfold krylov_mode, get. rewrite H, (not_falsy v N). reflexivity.
  - intros U. unfold krylov_mode, given. rewrite (unset d U). unfold get.
    destruct (dget d "sparse_krylov_mode"); [intros H; elim H; discriminate|]. reflexivity.
  - intros U s Es. unfold krylov_mode. rewrite (unset d U). unfold get. rewrite Es.
    cbn [truthy to_str In]. set (l := lower s). clearbody l.
    destruct (String.eqb_spec l "single") as [->|N1]; [intuition (try discriminate; auto)|].
    destruct (String.eqb_spec l "columnwise") as [->|N2]; [intuition (try discriminate; auto)|].
    destruct (String.eqb_spec l "block") as [->|N3]; [intuition (try discriminate; auto)|].
    destruct (String.eqb_spec l "block_cg") as [->|N4]; [intuition (try discriminate; auto)|].
    intuition (try discriminate; congruence).
  - intros Hk b. unfold cg_block_size, get, given. destruct (dget d "sparse_krylov_block_size") as [v|] eqn:E.
    + destruct (to_int v) as [z|] eqn:Z; [|discriminate]. intros [= <-]. split; [lia|]. split.
      * intros z' [= ->] B. simpl in Z. injection Z as <-. lia.
      * intros H. elim H. discriminate.
    + simpl. intros [= <-]. repeat split; try lia. intros z [=].
  - unfold logdet_settings. simpl. intros _. rewrite andb_true_iff, String.eqb_eq. tauto.
Qed.
Print Assumptions options_documented_partial.

(** the documented settings are read next to each other *)
Definition d0 : dict := [("sparse_cg_tol", VFloat (1 # 1000)); ("sparse_krylov_maxiter", VInt 50); ("sparse_cg_maxiter", VNone); ("sparse_krylov_mode", VStr "Block")].
Example options_example : cg_tol d0 = VFloat (1 # 1000) /\ minres_tol d0 = (VFloat (1 # 100000)) /\ cg_maxiter d0 = Ok None /\ minres_maxiter d0 = Ok (Some 50%Z) /\
  krylov_mode (fun _ => "") d0 = Ok true /\ cg_block_size d0 7 = Ok 7%Z.
Proof. repeat split. Qed.

(** C147 is false: the MINRES tolerance changes CG, and two documented devices are never read *)
Theorem options_documented_refuted :
  (forall d v, dget d "sparse_minres_tol" = Some v -> ~ given d "sparse_cg_tol" -> ~ given d "cg_minres_tol" -> cg_tol d = v) /\
  ~ doc [("sparse_minres_tol", VFloat (1 # 10))] "sparse_cg_tol" (VFloat (1 # 100000)) (cg_tol [("sparse_minres_tol", VFloat (1 # 10))]) /\
  (forall dev seen d v, s_gpu (logdet_settings dev seen (("random_logdet_lanczos_compute_device", v) :: d)) = s_gpu (logdet_settings dev seen d)) /\
  s_gpu (logdet_settings "gpu" true [("random_logdet_lanczos_compute_device", VStr "cpu")]) = true /\
  (forall dev d, chol_device dev d CUpdate = VStr "cpu") /\
  ~ doc [("update_Chol_factor_compute_device", VStr "gpu")] "update_Chol_factor_compute_device" (VStr "gpu") (chol_device "gpu" [("update_Chol_factor_compute_device", VStr "gpu")] CUpdate).
Proof.
  repeat match goal with |- _ /\ _ => split end; try reflexivity.
  - intros d v H N1 N2. unfold cg_tol, given in *. destruct (dget d "sparse_cg_tol"); [elim N1; discriminate|].
    destruct (dget d "cg_minres_tol"); [elim N2; discriminate|]. now rewrite H.
  - intros [_ H]. specialize (H (fun N => N eq_refl)). discriminate H.
  - intros [H _]. assert (N : given [("update_Chol_factor_compute_device", VStr "gpu")] "update_Chol_factor_compute_device") by discriminate.
    specialize (H N). discriminate H.
Qed.
Print Assumptions options_documented_refuted.
