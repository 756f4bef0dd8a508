(** Properties C13-C16 and C59: linear-algebra configuration. *)
From Coq Require Import String QArith.
From Verif Require Import Model.Prelude Model.LinalgCfg Spec.LinalgCfgSpec Proofs.LinalgCfgP.
Local Open Scope nat_scope.

(** C13 *)
Theorem settings_restored : forall {A : Type} method warn args (body : dict -> dict * res lexn A) d r,
  proper args -> (forall d, proper d -> proper (fst (body d))) ->
  sequential_state method warn args body = (d, r) ->
  let warm := "sparse_krylov_warm_start"%string in
  let interval := "sparse_preconditioner_refresh_interval"%string in
  (method = "mcmc"%string -> body args = (d, r)) /\
  (method <> "mcmc"%string ->
     (d = args /\ r = Err EWarning /\ warn = true) \/
     exists inside after, body inside = (after, r) /\
       dget inside warm = Some (VBool false) /\ dget inside interval = Some (VInt 1) /\
       (forall k, k <> warm -> k <> interval -> dget inside k = dget args k) /\
       dget d warm = dget args warm /\ dget d interval = dget args interval /\
       (forall k, k <> warm -> k <> interval -> dget d k = dget after k)).
Proof. exact @sequential_state_l. Qed.
Print Assumptions settings_restored.

(** a user who enabled warm starts, a nested run, and a body that raises *)
Example settings_restored_ex :
  let args := [("tol", VFloat (1 # 100)); ("sparse_krylov_warm_start", VBool true)]%string in
  sequential_state "bo" false args (fun a => sequential_state "global" false (dset a "seen"%string (VInt 7)) (fun b => (b, @Err lexn unit EBody)))
  = ([("tol", VFloat (1 # 100)); ("sparse_krylov_warm_start", VBool true); ("seen", VInt 7)]%string, Err EBody).
Proof. reflexivity. Qed.

(** C14.  [h] holds all dictionaries that exist; the caller's is number i (or None was passed). *)
Theorem mode_resolution : forall (pystr : aval -> string) m a h,
  (forall i, i < List.length h -> hget (fst (resolve pystr m a h)) i = hget h i) /\
  (forall p c rest, In (p, c) [("sparsecgpre_", "sparseCGpre"); ("sparseminrespre_", "sparseMINRESpre")]%string ->
     lower m = (p ++ rest)%string -> outcome pystr h a c rest (resolve pystr m a h)) /\
  ((forall rest, lower m <> ("sparsecgpre_" ++ rest)%string /\ lower m <> ("sparseminrespre_" ++ rest)%string) ->
     exists h', resolve pystr m a h = (h', Ok (m, List.length h)) /\ hget h' (List.length h) = copied h a) /\
  (forall h1 m1 a1, resolve pystr m a h = (h1, Ok (m1, a1)) ->
     exists h2 a2, resolve pystr m1 (Some a1) h1 = (h2, Ok (m1, a2)) /\ hget h2 a2 = hget h1 a1) /\
  (forall m' p c rest, In (p, c) prefixes -> lower m = (p ++ rest)%string -> same_ci m m' ->
     resolve pystr m' a h = resolve pystr m a h).
Proof.
  intros pystr m a h. split; [|split; [|split; [|split]]].
  - intros i Hi. destruct (resolve pystr m a h) as [h' r] eqn:E. eapply resolve_frame; eauto.
  - intros. now apply resolve_prefixed with (p := p).
  - intros Hn. apply resolve_plain. intros p c Hp. destruct (strip p (lower m)) as [t|] eqn:E; [|reflexivity].
    apply strip_inv in E. exfalso. destruct (Hn t) as [H1 H2]. destruct Hp as [[= <- <-]|[[= <- <-]|[]]]; [exact (H1 E)|exact (H2 E)].
  - intros. eapply resolve_idem; eauto.
  - intros m' p c rest Hp Hm Hci. unfold same_ci in Hci. unfold resolve. rewrite <- Hci.
    set (h1 := (h ++ _)%list). destruct (resolve_loop pystr prefixes (lower m) h1 (List.length h)) as [h2 [[c'|]|e]] eqn:E; auto.
    exfalso. rewrite Hm in E. clear -E Hp. destruct Hp as [[= <- <-]|[[= <- <-]|[]]]; cbn [prefixes resolve_loop] in E;
      rewrite ?strip_app in E; cbn [strip append Ascii.eqb Bool.eqb] in E;
      (destruct (normalize_type rest); [|discriminate]);
      destruct (match dget _ _ with Some VNone => None | o => o end) as [v|]; try discriminate;
      (destruct (normalize_type (to_str pystr v)) as [e'|]; [|discriminate]); destruct (negb _); discriminate.
Qed.
Print Assumptions mode_resolution.

Example mode_resolution_ex :
  let h := [[("sparse_preconditioner_type", VStr "IC"); ("x", VInt 3)]]%string in
  let py := fun _ : aval => ""%string in
  resolve py "SparseCGpre_incomplete_Cholesky" (Some 0) h =
    ((h ++ [[("sparse_preconditioner_type", VStr "ichol"); ("x", VInt 3)]])%list%string, Ok ("sparseCGpre"%string, 1)) /\
  snd (resolve py "sparseCGpre_amg" (Some 0) h) = Err EConflict /\
  snd (resolve py "sparseMINRESpre_none" None h) = Err EUnknownType /\
  snd (resolve py "Chol" None h) = Ok ("Chol"%string, 1).
Proof. vm_compute. auto. Qed.

(** the names of the preconditioners, in any capitalization; everything else is rejected *)
Theorem preconditioner_names : forall s t, normalize_type s = Some t <-> exists name, In name (documented t) /\ written_as s name.
Proof. exact names_l. Qed.
Print Assumptions preconditioner_names.
Example preconditioner_names_ex : normalize_type "SchwarZ" = Some "additive_schwarz"%string /\ normalize_type "schwartz" = None.
Proof. vm_compute. auto. Qed.

(** C15 *)
Theorem automatic_solver : forall (n nnz : N) user, (0 < n)%N ->
  let sparsity := (inject_Z (Z.of_N nnz) / inject_Z (Z.of_N (n * n)))%Q in
  (forall m, user = Some m -> auto_mode user n nnz = Ok (MUser m)) /\
  (user = None ->
     (auto_mode user n nnz = Ok MSparseLU <-> (n < 50001)%N /\ (sparsity < 1 # 10000)%Q) /\
     (auto_mode user n nnz = Ok MChol <-> (n < 2001)%N /\ (1 # 10000 <= sparsity)%Q) /\
     (auto_mode user n nnz = Ok MMinres <-> (50001 <= n)%N \/ (2001 <= n)%N /\ (1 # 10000 <= sparsity)%Q) /\
     (* with a full diagonal *)
     ((n <= nnz)%N -> (auto_mode user n nnz = Ok MChol <-> (n <= 2000)%N) /\
                      (auto_mode user n nnz = Ok MSparseLU -> (10000 < n)%N))).
Proof.
  intros n nnz user Hn sparsity. unfold auto_mode. replace (n =? 0)%N with false by (symmetry; apply N.eqb_neq; lia).
  split; [intros m ->; reflexivity|]. intros ->.
  assert (Hs : (sparsity < 1 # 10000)%Q <-> (nnz * 10000 < n * n)%N).
  { unfold sparsity. assert (Hd : (0 < inject_Z (Z.of_N (n * n)))%Q) by (rewrite <- (Zlt_Qlt 0); nia).
    split; intros Hlt.
    - apply (Qmult_lt_r _ _ _ Hd) in Hlt. unfold Qdiv in Hlt.
      rewrite <- Qmult_assoc, (Qmult_comm (/ _)), Qmult_inv_r, Qmult_1_r in Hlt by (intros E; rewrite E in Hd; discriminate Hd).
      unfold Qlt in Hlt. cbn [inject_Z Qnum Qden Qmult] in Hlt. rewrite Pos.mul_1_r in Hlt. lia.
    - apply (Qmult_lt_r _ _ _ Hd). unfold Qdiv.
      rewrite <- Qmult_assoc, (Qmult_comm (/ _)), Qmult_inv_r, Qmult_1_r by (intros E; rewrite E in Hd; discriminate Hd).
      unfold Qlt. cbn [inject_Z Qnum Qden Qmult]. rewrite Pos.mul_1_r. lia. }
  assert (Hs' : (1 # 10000 <= sparsity)%Q <-> (n * n <= nnz * 10000)%N).
  { split; intros Hle.
    - destruct (N.le_gt_cases (n * n) (nnz * 10000)) as [?|Hlt]; [assumption|]. apply Hs in Hlt. exfalso. exact (Qlt_not_le _ _ Hlt Hle).
    - apply Qnot_lt_le. intros Hlt. apply Hs in Hlt. lia. }
  rewrite Hs, Hs'. destruct (N.ltb_spec n 50001), (N.ltb_spec (nnz * 10000) (n * n)), (N.ltb_spec n 2001); cbn [andb negb];
    repeat match goal with |- _ /\ _ => split | |- _ <-> _ => split end; intros; try discriminate; try reflexivity; try lia; try nia;
    try (split; [|intros]; [split; intros; try discriminate; try reflexivity; nia|try discriminate; nia]).
Qed.
Print Assumptions automatic_solver.
Example automatic_solver_ex :
  auto_mode None 20000 39999 = Ok MSparseLU /\ auto_mode None 20000 40000 = Ok MMinres /\
  auto_mode None 2000 2000 = Ok MChol /\ auto_mode None 2001 2001 = Ok MMinres /\ auto_mode (Some 4%nat) 2000 2000 = Ok (MUser 4).
Proof. repeat split. Qed.

(** settings as the dict holds them *)
Lemma dget_holds d k : match dget d k with Some v => holds d k v | None => ~ In k (keys d) end.
Proof.
  induction d as [|[j w] d IH]; cbn; [tauto|]. destruct (String.eqb_spec j k) as [->|N].
  - exists [], d. split; [reflexivity|]. tauto.
  - destruct (dget d k) as [v|]; [|intros [|]; tauto]. destruct IH as (l1 & l2 & -> & H). exists ((j, w) :: l1), l2. split; [reflexivity|]. cbn. intros [|]; tauto.
Qed.
Lemma holds_get d k v : holds d k v -> dget d k = Some v.
Proof.
  intros (l1 & l2 & -> & H). induction l1 as [|[j w] l1 IH]; cbn; [now rewrite String.eqb_refl|]. cbn in H. destruct (String.eqb_spec j k) as [->|N]; [tauto|]. apply IH. tauto.
Qed.
Lemma absent_get d k : ~ In k (keys d) -> dget d k = None.
Proof. intros H. pose proof (dget_holds d k) as G. destruct (dget d k); [|reflexivity]. destruct G as (l1 & l2 & -> & _). destruct H. unfold keys. rewrite map_app. apply in_or_app. right. now left. Qed.
Lemma limit_read args lim : max_drift args = Ok lim <-> drift_limit args lim.
Proof.
  unfold max_drift, drift_limit. cbn zeta. split.
  - pose proof (dget_holds args "sparse_preconditioner_max_matrix_drift") as G. destruct (dget _ _) as [v|].
    + intros E. right. exists v. split; [exact G|]. destruct v as [|[]|z|q| |]; try discriminate E; injection E as <-; unfold has_value; eauto 8.
    + intros [= <-]. now left.
  - intros [[H ->]|(v & H & V)]; [now rewrite absent_get|]. rewrite (holds_get _ _ _ H).
    destruct V as [[-> ->]|[[-> ->]|[(z & -> & ->)| ->]]]; reflexivity.
Qed.
Lemma whole_trunc q z : whole_part q z -> trunc q = z.
Proof.
  unfold whole_part, trunc. destruct q as [n m]. cbn [Qnum Qden]. destruct (Qlt_le_dec _ _) as [L|L]; intros [A B];
    unfold Qlt, Qle, Qminus, Qplus, inject_Z, Qopp in *; cbn in L, A, B; rewrite ?Pos.mul_1_r in *.
  - symmetry. rewrite <- (Z.opp_involutive n), Z.quot_opp_l by lia. rewrite Z.quot_div_nonneg by lia.
    enough (Z.div (- n) (Zpos m) = - z)%Z by lia. symmetry. apply (Z.div_unique _ _ _ (- n + z * Zpos m)); lia.
  - rewrite Z.quot_div_nonneg by lia. symmetry. apply (Z.div_unique _ _ _ (n - z * Zpos m)); lia.
Qed.
Lemma interval_read args i : rebuilt_every args i -> refresh_interval args = Ok (Some i).
Proof.
  intros (v & q & z & H & V & W & ->). unfold refresh_interval. rewrite (holds_get _ _ _ H). apply whole_trunc in W. subst z.
  destruct V as [[-> ->]|[[-> ->]|[(z & -> & ->)| ->]]]; cbn; try reflexivity. unfold trunc. cbn. now rewrite Z.quot_1_r.
Qed.

(** C16 *)
Theorem preconditioner_reuse : forall {M Op : Type} mshape fingerprint (build : dict -> M -> option Op) pre l c log,
  psession mshape fingerprint build pre empty_cache l = (c, log) ->
  forall front q op back, log = (front ++ (q, Ok (Some op)) :: back)%list ->
  build (p_args q) (p_kv q) = Some op \/
  p_force q = false /\ exists front0 q0 mid, front = (front0 ++ (q0, Ok (Some op)) :: mid)%list /\
    build (p_args q0) (p_kv q0) = Some op /\
    (forall e, In e mid -> p_force (fst e) = false /\ (snd e = Ok (Some op) \/ exists x, snd e = Err x)) /\
    mshape (p_kv q0) = mshape (p_kv q) /\
    (proper (p_args q0) -> proper (p_args q) -> forall k, starts_with k "sparse_preconditioner_" = true ->
       same_setting (dget (p_args q0) k) (dget (p_args q) k)) /\
    (exists lim, drift_limit (p_args q) lim /\ close_fingerprints lim (fingerprint (p_kv q0)) (fingerprint (p_kv q))) /\
    (forall i, rebuilt_every (p_args q) i -> (Z.of_nat (S (served mid)) <= i - 1)%Z).
Proof.
  intros M Op mshape fingerprint build pre l c log E front q op back Eq.
  destruct (session_l mshape fingerprint build pre l c log E front q op back Eq) as [J|(Hf & q0 & mid & ((front0 & Ef) & Hb & Hm) & R)]; [now left|].
  right. split; [exact Hf|]. exists front0, q0, mid. destruct R as (R1 & R2 & (lim & d & R3 & R4) & R5).
  repeat (split; [first [exact Ef|exact Hb|exact Hm|exact R1|exact R2]|]). split; [|intros i Hi; apply R5; now apply interval_read]. exists lim. split; [now apply limit_read|]. apply fdrift_close. now exists d.
Qed.
Print Assumptions preconditioner_reuse.

(** matrices are (size, trace); the operator is a copy of the matrix it was built for.  Same size and
    5% drift: reused; 50% drift: rebuilt; a cap of 2 allows one reuse in a row. *)
Definition exfp (m : nat * Z) : option fprint := Some ((fst m, fst m), 0%Z, inject_Z (snd m), 1%Q).
Definition excall (a : dict) (m : nat * Z) := PCall a false m.
Example preconditioner_reuse_ex :
  let cap := [("sparse_preconditioner_refresh_interval", VInt 2)]%string in
  map snd (snd (psession (fun m => (fst m, fst m)) exfp (fun _ m => Some m) true empty_cache
     (map (excall []) [(3, 100%Z); (3, 105%Z); (3, 108%Z); (3, 150%Z); (3, 151%Z); (4, 151%Z)])))
  = map (fun m => Ok (Some m)) [(3, 100%Z); (3, 100%Z); (3, 100%Z); (3, 150%Z); (3, 150%Z); (4, 151%Z)] /\
  map snd (snd (psession (fun m => (fst m, fst m)) exfp (fun _ m => Some m) true empty_cache
     (map (excall cap) [(3, 100%Z); (3, 101%Z); (3, 102%Z); (3, 103%Z)])))
  = map (fun m => Ok (Some m)) [(3, 100%Z); (3, 100%Z); (3, 102%Z); (3, 102%Z)].
Proof. vm_compute. auto. Qed.

(** C59: a warm start that was computed for a distant matrix can be used: after a failed evaluation
    the fingerprint is the one of the failed matrix, the solution an older one. *)
Definition exsolve (m : nat * Z) (_ : option (nat * Z)) : res lexn (nat * Z) :=
  if Z.eqb (snd m) 200 then Err ESolve else Ok m.
Definition extruthy (v : aval) : bool := match v with VBool b => b | _ => true end.
Definition nearby (args : dict) {M} (fingerprint : M -> option fprint) (a b : M) : Prop :=
  exists lim, drift_limit args lim /\ close_fingerprints lim (fingerprint a) (fingerprint b).
Theorem warm_start_nearby_refuted :
  exists args, enabled extruthy args = true /\
  exists l w log, evaluations (fun m => (fst m, fst m)) exfp exsolve fst extruthy (Warm None None None) (map (fun m => (args, m)) l) = (w, log) /\
  exists front kv0 g0 mid kv g r back, log = (front ++ (kv0, g0, Ok g) :: mid ++ (kv, Some g, r) :: back)%list /\
    ~ nearby args exfp kv0 kv.
Proof.
  exists [("sparse_krylov_warm_start", VBool true)]%string. split; [reflexivity|].
  exists [(3, 100%Z); (3, 200%Z); (3, 201%Z)]. do 2 eexists. split; [vm_compute; reflexivity|].
  exists [], (3, 100%Z), None, [((3, 200%Z), None, Err ESolve)], (3, 201%Z), (3, 100%Z), (Ok (3, 201%Z)), []. split; [reflexivity|].
  intros (lim & E1%limit_read & sh & za & zb & ta & tb & na & nb & E2 & E3 & Ht & _). vm_compute in E1. injection E1 as <-. cbn in E2, E3.
  injection E2 as _ _ <- _. injection E3 as _ _ <- _.
  apply rel_bound, Qle_bool_iff in Ht. vm_compute in Ht. discriminate Ht.
Qed.
Print Assumptions warm_start_nearby_refuted.

(** what holds: as long as no evaluation fails, warm starts stay enabled and the data keep their size,
    a guess is the solution of the evaluation immediately before and its matrix is within the limit.
    (The run starts at its first evaluation without a guess.) *)
Theorem warm_start_nearby_partial : forall {M X : Type} mshape fingerprint (solve : M -> option X -> res lexn X) xrows truthy args,
  enabled truthy args = true -> (forall m, fingerprint m <> None) ->
  forall l w w' log kv x0, w_last w = Some x0 -> w_fp w = fingerprint kv ->
  evaluations mshape fingerprint solve xrows truthy w (map (fun m => (args, m)) l) = (w', log) ->
  (forall e, In e log -> is_ok (snd e) = true) -> (forall e, In e log -> forall x, snd e = Ok x -> xrows x = xrows x0) ->
  (forall m, In m l -> fst (mshape m) = xrows x0) ->
  forall front kv' g r back, ((kv, None, Ok x0) :: log = front ++ (kv', Some g, r) :: back)%list ->
  exists front1 kv0 g0, front = (front1 ++ [(kv0, g0, Ok g)])%list /\ nearby args fingerprint kv0 kv'.
Proof.
  intros M X mshape fingerprint solve xrows truthy args He Hf l w w' log kv x0 Hl Hw E Hok Hr Hs front kv' g r back Eq.
  destruct (warm_sound mshape fingerprint solve xrows truthy args He Hf l w w' log kv x0 Hl Hw E Hok Hr Hs front kv' g r back Eq)
    as (f1 & kv0 & g0 & lim & d & Q1 & Q2 & Q3 & Q4).
  exists f1, kv0, g0. split; [exact Q1|]. exists lim. split; [now apply limit_read|]. apply fdrift_close. now exists d.
Qed.
Print Assumptions warm_start_nearby_partial.
(** warm starts are off unless asked for: the solver starts without a guess and nothing is remembered for later *)
Theorem warm_start_opt_in : forall {M X : Type} mshape fingerprint (solve : M -> option X -> res lexn X) xrows truthy args,
  (forall v, In ("sparse_krylov_warm_start"%string, v) args -> truthy v = false) -> forall w kv, exists w',
  evaluate mshape fingerprint solve xrows truthy args w kv = (w', None, solve kv None) /\ w_last w' = w_last w /\ w_committed w' = w_committed w.
Proof.
  intros M X mshape fingerprint solve xrows truthy args Hn w kv.
  assert (E : enabled truthy args = false).
  { unfold enabled. destruct (dget args "sparse_krylov_warm_start") as [v|] eqn:Q; [|reflexivity]. apply Hn. revert Q. clear. induction args as [|[a b] r IH]; cbn; [discriminate|].
    destruct (String.eqb_spec a "sparse_krylov_warm_start") as [->|N]; [intros [= ->]; now left|intros Q; right; auto]. }
  unfold evaluate, initial_guess. rewrite E. cbn [validated]. destruct (solve kv None) eqn:S; eexists; (split; [reflexivity|split; reflexivity]).
Qed.
Print Assumptions warm_start_opt_in.
Example warm_start_opt_in_ex : map (fun e => snd (fst e)) (snd (evaluations (fun m => (fst m, fst m)) exfp exsolve fst extruthy (Warm None (Some (3, 99%Z)) None) (map (fun m => ([], m)) [(3, 100%Z); (3, 101%Z)]))) = [None; None].
Proof. vm_compute. reflexivity. Qed.
Example warm_start_ex :
  let args := [("sparse_krylov_warm_start", VBool true)]%string in
  map (fun e => snd (fst e)) (snd (evaluations (fun m => (fst m, fst m)) exfp exsolve fst extruthy (Warm None None None)
     (map (fun m => (args, m)) [(3, 100%Z); (3, 105%Z); (3, 150%Z); (3, 149%Z)]))) =
  [None; Some (3, 100%Z); None; Some (3, 150%Z)].
Proof. vm_compute. reflexivity. Qed.
