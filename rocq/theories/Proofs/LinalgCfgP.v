From Coq Require Import Qabs Qminmax Ascii String Ascii QArith.
From Verif Require Import Model.Prelude Model.LinalgCfg Spec.LinalgCfgSpec.
Local Open Scope nat_scope.

(** * dictionaries *)
Lemma seqb_refl k : String.eqb k k = true. Proof. apply String.eqb_refl. Qed.
Lemma dget_dset d k v j : dget (dset d k v) j = if String.eqb k j then Some v else dget d j.
Proof.
  induction d as [|[i w] d IH]; cbn; [reflexivity|].
  destruct (String.eqb_spec i k); cbn.
  - subst i. now destruct (String.eqb k j).
  - rewrite IH. destruct (String.eqb_spec i j); [|reflexivity]. subst j.
    destruct (String.eqb_spec k i); congruence.
Qed.
Lemma dset_keys d k v : forall j, In j (keys (dset d k v)) <-> j = k \/ In j (keys d).
Proof.
  intros j. unfold keys. induction d as [|[i w] d IH]; cbn; [intuition|].
  destruct (String.eqb_spec i k); cbn; [subst; intuition|]. rewrite IH. intuition.
Qed.
Lemma dset_proper d k v : proper d -> proper (dset d k v).
Proof.
  unfold proper. induction d as [|[i w] d IH]; cbn; intros Hp; [constructor; [intros []|constructor]|].
  apply NoDup_cons_iff in Hp as [Hi Hp]. destruct (String.eqb_spec i k); cbn; constructor; auto.
  fold (keys (dset d k v)). rewrite dset_keys. intros [?|?]; auto.
Qed.
Lemma dget_none d k : ~ In k (keys d) -> dget d k = None.
Proof.
  induction d as [|[i w] d IH]; cbn; intros Hn; [reflexivity|].
  destruct (String.eqb_spec i k); [exfalso; auto|]. apply IH. tauto.
Qed.
Lemma dget_in d k v : dget d k = Some v -> In (k, v) d.
Proof.
  induction d as [|[i w] d IH]; cbn; [discriminate|]. destruct (String.eqb_spec i k); [intros [= <-]; subst; auto|auto].
Qed.
Lemma in_dget d k v : proper d -> In (k, v) d -> dget d k = Some v.
Proof.
  unfold proper. induction d as [|[i w] d IH]; cbn; intros Hp; [intros []|]. apply NoDup_cons_iff in Hp as [Hi Hp].
  intros [[= <- <-]|Hin]; [now rewrite seqb_refl|]. destruct (String.eqb_spec i k); [|auto].
  subst. exfalso. apply Hi. now apply (in_map fst) in Hin.
Qed.
Lemma dget_dpop d k j : proper d -> dget (dpop d k) j = if String.eqb k j then None else dget d j.
Proof.
  unfold proper. induction d as [|[i w] d IH]; cbn; intros Hp; [now destruct (String.eqb k j)|].
  apply NoDup_cons_iff in Hp as [Hi Hp]. destruct (String.eqb_spec i k); cbn.
  - subst i. destruct (String.eqb_spec k j); [subst; now apply dget_none|reflexivity].
  - rewrite IH by auto. destruct (String.eqb_spec i j); [|reflexivity]. subst j. destruct (String.eqb_spec k i); congruence.
Qed.
Lemma dpop_keys d k j : In j (keys (dpop d k)) -> In j (keys d).
Proof. unfold keys. induction d as [|[i w] d IH]; cbn; [auto|]. destruct (String.eqb i k); cbn; intuition. Qed.
Lemma dpop_proper d k : proper d -> proper (dpop d k).
Proof.
  unfold proper. induction d as [|[i w] d IH]; cbn; intros Hp; [constructor|]. apply NoDup_cons_iff in Hp as [Hi Hp].
  destruct (String.eqb i k); cbn; auto. constructor; auto. fold (keys (dpop d k)). intros Hin. apply Hi. eapply dpop_keys; eauto.
Qed.

(** * temporary settings *)
Notation k1 := "sparse_krylov_warm_start"%string.
Notation k2 := "sparse_preconditioner_refresh_interval"%string.

Definition restore1 (saved : option aval) k d := match saved with Some v => dset d k v | None => dpop d k end.
Lemma restore1_get s k d j : proper d -> dget (restore1 s k d) j = if String.eqb k j then s else dget d j.
Proof. intros Hp. destruct s; cbn; [apply dget_dset|now apply dget_dpop]. Qed.
Lemma restore1_proper s k d : proper d -> proper (restore1 s k d).
Proof. destruct s; cbn; [apply dset_proper|apply dpop_proper]. Qed.

Lemma sequential_state_l {A} method warn args (body : dict -> dict * res lexn A) d r :
  proper args -> (forall d, proper d -> proper (fst (body d))) -> sequential_state method warn args body = (d, r) ->
  (method = "mcmc"%string -> body args = (d, r)) /\
  (method <> "mcmc"%string ->
     (d = args /\ r = Err EWarning /\ warn = true) \/
     exists inside after, body inside = (after, r) /\
       dget inside k1 = Some (VBool false) /\ dget inside k2 = Some (VInt 1) /\
       (forall k, k <> k1 -> k <> k2 -> dget inside k = dget args k) /\
       dget d k1 = dget args k1 /\ dget d k2 = dget args k2 /\
       (forall k, k <> k1 -> k <> k2 -> dget d k = dget after k)) .
Proof.
  intros Hp Hb E. unfold sequential_state in E. destruct (String.eqb_spec method "mcmc") as [Hm|Hm]; [split; [auto|contradiction]|].
  split; [contradiction|]. intros _. destruct (negb _ && warn) eqn:Ew.
  - left. apply andb_prop in Ew as [_ ->]. injection E as <- <-. auto.
  - right. cbn [state_defaults fold_left map fst snd] in E.
    set (inside := dset (dset args k1 (VBool false)) k2 (VInt 1)) in *.
    assert (Hi : proper inside) by (unfold inside; now do 2 apply dset_proper).
    specialize (Hb inside Hi). destruct (body inside) as [after r'] eqn:Eb. cbn [fst] in Hb.
    change (restore1 (dget args k2) k2 (restore1 (dget args k1) k1 after), r') with (restore1 (dget args k2) k2 (restore1 (dget args k1) k1 after), r') in E.
    injection E as <- <-. exists inside, after. split; [exact Eb|].
    unfold inside. rewrite !dget_dset. split; [reflexivity|]. split; [reflexivity|]. split.
    { intros k N1 N2. rewrite !dget_dset. destruct (String.eqb_spec k2 k); [congruence|]. destruct (String.eqb_spec k1 k); [congruence|reflexivity]. }
    fold (restore1 (dget args k1) k1 after). fold (restore1 (dget args k2) k2 (restore1 (dget args k1) k1 after)).
    assert (Hr : proper (restore1 (dget args k1) k1 after)) by now apply restore1_proper.
    split; [|split].
    + rewrite restore1_get by assumption. cbn [String.eqb]. rewrite restore1_get by assumption. reflexivity.
    + rewrite restore1_get by assumption. reflexivity.
    + intros k N1 N2. rewrite !restore1_get by assumption.
      destruct (String.eqb_spec k2 k); [congruence|]. destruct (String.eqb_spec k1 k); [congruence|reflexivity].
Qed.

(** * mode names *)
Lemma assoc_canonical t c : assoc aliases t = Some c -> normalize_type c = Some c.
Proof.
  cbn. repeat (match goal with |- (if ?b then _ else _) = _ -> _ => destruct b; [intros [= <-]; reflexivity|] end). discriminate.
Qed.
Lemma normalize_idem t c : normalize_type t = Some c -> normalize_type c = Some c.
Proof. apply assoc_canonical. Qed.

Lemma strip_app p s : strip p (p ++ s)%string = Some s.
Proof. induction p as [|a p IH]; cbn; [now destruct s|]. now rewrite Ascii.eqb_refl. Qed.
Lemma strip_inv p s t : strip p s = Some t -> s = (p ++ t)%string.
Proof.
  revert s. induction p as [|a p IH]; intros s; cbn; [now intros [= ->]|]. destruct s as [|b s]; [discriminate|].
  destruct (Ascii.eqb_spec a b); [|discriminate]. intros E. subst b. now rewrite (IH s E).
Qed.
Lemma hget_hset h i d j : hget (hset h i d) j = if Nat.eqb i j && Nat.ltb i (List.length h) then d else hget h j.
Proof.
  unfold hget. revert i j. induction h as [|e h IH]; intros i j; cbn [hset].
  - cbn [List.length]. rewrite andb_false_r. reflexivity.
  - destruct i as [|i], j as [|j]; cbn; auto. rewrite IH. destruct (Nat.eqb_spec i j); cbn; [|reflexivity].
    destruct (Nat.ltb_spec i (List.length h)), (Nat.ltb_spec (S i) (S (List.length h))); try lia; auto.
Qed.
Lemma hset_length h i d : List.length (hset h i d) = List.length h.
Proof. revert i; induction h as [|e h IH]; intros [|i]; cbn; auto. Qed.

Section Resolve.
  Variable pystr : aval -> string.
  (** what the copy of the caller's dictionary says about the type *)
  Definition copied (h : heap) (a : option nat) : dict := match a with None => [] | Some i => hget h i end.
  Definition explicit_type (d : dict) : option aval :=
    match dget d "sparse_preconditioner_type" with Some VNone => None | o => o end.

  Lemma hget_app_old (h : heap) d i : i < List.length h -> hget (h ++ [d]) i = hget h i.
  Proof. intros Hi. unfold hget. now rewrite app_nth1. Qed.
  Lemma hget_app_new (h : heap) d : hget (h ++ [d]) (List.length h) = d.
  Proof. unfold hget. rewrite app_nth2, Nat.sub_diag by lia. reflexivity. Qed.

  Definition outcome (h : heap) (a : option nat) (canonical rest : string) (r : heap * res lexn (string * nat)) : Prop :=
    match normalize_type rest with
    | None => snd r = Err EUnknownType
    | Some inferred =>
        match explicit_type (copied h a) with
        | Some v => match normalize_type (to_str pystr v) with
                    | None => snd r = Err EUnknownType
                    | Some e => if String.eqb e inferred then
                         snd r = Ok (canonical, List.length h) /\
                         hget (fst r) (List.length h) = dset (copied h a) "sparse_preconditioner_type" (VStr inferred)
                       else snd r = Err EConflict
                    end
        | None => snd r = Ok (canonical, List.length h) /\
                  hget (fst r) (List.length h) = dset (copied h a) "sparse_preconditioner_type" (VStr inferred)
        end
    end.

  Lemma loop_heap ps m h a h' r : a < List.length h -> resolve_loop pystr ps m h a = (h', r) ->
    List.length h' = List.length h /\ forall i, i <> a -> hget h' i = hget h i.
  Proof.
    intros Ha. induction ps as [|[p c] ps IH]; cbn [resolve_loop]; [intros [= <- <-]; auto|].
    assert (W : forall d, List.length (hset h a d) = List.length h /\ forall i, i <> a -> hget (hset h a d) i = hget h i).
    { intros d. split; [apply hset_length|]. intros i Hi. rewrite hget_hset. destruct (Nat.eqb_spec a i); [congruence|reflexivity]. }
    destruct (strip p m); [|exact IH]. destruct (normalize_type s) as [inf|]; [|intros [= <- <-]; auto].
    destruct (match dget (hget h a) _ with Some VNone => None | o => o end) as [v|].
    - destruct (normalize_type (to_str pystr v)) as [e|]; [|intros [= <- <-]; auto].
      destruct (negb (String.eqb e inf)); intros [= <- <-]; [auto|apply W].
    - intros [= <- <-]. apply W.
  Qed.

  Lemma resolve_frame m a h h' r : resolve pystr m a h = (h', r) ->
    forall i, i < List.length h -> hget h' i = hget h i.
  Proof.
    unfold resolve. destruct (resolve_loop _ _ _ _ _) as [h2 o] eqn:E.
    apply loop_heap in E as [_ E]; [|rewrite app_length; cbn; lia].
    intros Er i Hi. assert (h' = h2) as -> by (destruct o as [[?|]|]; now injection Er).
    rewrite E by lia. now apply hget_app_old.
  Qed.

  Lemma resolve_prefixed m a h p c rest : In (p, c) prefixes -> lower m = (p ++ rest)%string ->
    outcome h a c rest (resolve pystr m a h).
  Proof.
    intros Hp Hm. unfold resolve, outcome. rewrite Hm. set (d := match a with None => [] | Some i => hget h i end).
    assert (Hd : copied h a = d) by (unfold copied, d; destruct a; reflexivity). rewrite Hd.
    assert (Hc : resolve_loop pystr prefixes (p ++ rest) (h ++ [d]) (List.length h)
               = resolve_loop pystr [(p, c)] (p ++ rest) (h ++ [d]) (List.length h)).
    { destruct Hp as [[= <- <-]|[[= <- <-]|[]]]; cbn [prefixes resolve_loop].
      - now rewrite !strip_app.
      - reflexivity. }
    rewrite Hc. cbn [resolve_loop]. rewrite strip_app, hget_app_new. unfold explicit_type.
    destruct (normalize_type rest) as [inf|]; [|reflexivity].
    assert (W : hget (hset (h ++ [d]) (List.length h) (dset d "sparse_preconditioner_type" (VStr inf))) (List.length h) = dset d "sparse_preconditioner_type" (VStr inf)).
    { rewrite hget_hset, Nat.eqb_refl, app_length. cbn [List.length andb]. destruct (Nat.ltb_spec (List.length h) (List.length h + 1)); [reflexivity|lia]. }
    destruct (match dget d _ with Some VNone => None | o => o end) as [v|].
    - destruct (normalize_type (to_str pystr v)) as [e|]; [|reflexivity]. destruct (String.eqb e inf); cbn [negb fst snd]; auto.
    - cbn [fst snd]. auto.
  Qed.

  Lemma resolve_plain m a h : (forall p c, In (p, c) prefixes -> strip p (lower m) = None) ->
    exists h', resolve pystr m a h = (h', Ok (m, List.length h)) /\ hget h' (List.length h) = copied h a.
  Proof.
    intros Hn. unfold resolve. cbn [prefixes resolve_loop].
    rewrite (Hn "sparsecgpre_"%string "sparseCGpre"%string) by (cbn; auto).
    rewrite (Hn "sparseminrespre_"%string "sparseMINRESpre"%string) by (cbn; auto).
    eexists. split; [reflexivity|]. rewrite hget_app_new. destruct a; reflexivity.
  Qed.

  Lemma strip_cases m : (exists p c rest, In (p, c) prefixes /\ lower m = (p ++ rest)%string) \/
    (forall p c, In (p, c) prefixes -> strip p (lower m) = None).
  Proof.
    destruct (strip "sparsecgpre_" (lower m)) as [t|] eqn:E1.
    { left. exists "sparsecgpre_"%string, "sparseCGpre"%string, t. split; [cbn; auto|now apply strip_inv]. }
    destruct (strip "sparseminrespre_" (lower m)) as [t|] eqn:E2.
    { left. exists "sparseminrespre_"%string, "sparseMINRESpre"%string, t. split; [cbn; auto|now apply strip_inv]. }
    right. intros p c [[= <- <-]|[[= <- <-]|[]]]; assumption.
  Qed.

  Lemma resolve_idem m a h h1 m1 a1 : resolve pystr m a h = (h1, Ok (m1, a1)) ->
    exists h2 a2, resolve pystr m1 (Some a1) h1 = (h2, Ok (m1, a2)) /\ hget h2 a2 = hget h1 a1.
  Proof.
    intros E. destruct (strip_cases m) as [(p & c & rest & Hp & Hm)|Hn].
    - pose proof (resolve_prefixed m a h p c rest Hp Hm) as O. rewrite E in O. unfold outcome in O. cbn [fst snd] in O.
      assert (Hcan : m1 = c).
      { destruct (normalize_type rest); [|discriminate]. destruct (explicit_type _).
        - destruct (normalize_type _); [|discriminate]. destruct (String.eqb _ _); [|discriminate]. destruct O as [[= -> _] _]. reflexivity.
        - destruct O as [[= -> _] _]. reflexivity. }
      subst m1. destruct (resolve_plain c (Some a1) h1) as (h2 & E2 & G2).
      { destruct Hp as [[= <- <-]|[[= <- <-]|[]]]; intros q d [[= <- <-]|[[= <- <-]|[]]]; reflexivity. }
      exists h2, (List.length h1). split; [exact E2|exact G2].
    - destruct (resolve_plain m a h Hn) as (h' & E' & _). rewrite E in E'. injection E' as Eh Em Ea. subst m1 a1.
      destruct (resolve_plain m (Some (List.length h)) h1 Hn) as (h2 & E2 & G2). eauto.
  Qed.
End Resolve.

(** * preconditioner cache *)
Lemma sins_in p l q : In q (sins p l) <-> q = p \/ In q l.
Proof.
  induction l as [|r l IH]; cbn; [intuition|]. destruct (String.compare _ _); cbn; rewrite ?IH; intuition.
Qed.
Lemma signature_in d q : In q (signature d) <-> In q d /\ relevant (fst q) = true.
Proof.
  unfold signature. rewrite <- (filter_In (fun p => relevant (fst p)) q d). induction (filter _ d) as [|p l IH]; cbn; [intuition|]. rewrite sins_in, IH. intuition.
Qed.
Lemma sig_eqb_sym_get a b k v : sig_eqb a b = true -> In (k, v) a -> exists w, In (k, w) b /\ aeqb v w = true.
Proof.
  revert b. induction a as [|[j u] a IH]; intros [|[i w] b]; cbn; try discriminate; [intros _ []|].
  intros E. apply andb_prop in E as [E1 E2]. apply andb_prop in E1 as [E0 E1]. apply String.eqb_eq in E0. subst i.
  intros [[= -> ->]|Hin]; [eauto|]. destruct (IH b E2 Hin) as (x & ? & ?). eauto.
Qed.
Lemma sig_eqb_get2 a b k w : sig_eqb a b = true -> In (k, w) b -> exists v, In (k, v) a /\ aeqb v w = true.
Proof.
  revert b. induction a as [|[j u] a IH]; intros [|[i x] b]; cbn; try discriminate; [intros _ []|].
  intros E. apply andb_prop in E as [E1 E2]. apply andb_prop in E1 as [E0 E1]. apply String.eqb_eq in E0. subst i.
  intros [[= -> ->]|Hin]; [eauto|]. destruct (IH b E2 Hin) as (y & ? & ?). eauto.
Qed.
Lemma signature_settings a b k : proper a -> proper b -> sig_eqb (signature a) (signature b) = true ->
  relevant k = true -> same_setting (dget a k) (dget b k).
Proof.
  intros Pa Pb E Hk. destruct (dget a k) as [v|] eqn:Ea.
  - apply dget_in in Ea. destruct (sig_eqb_sym_get _ _ k v E) as (w & Hw & Hv); [apply signature_in; auto|].
    apply signature_in in Hw as [Hw _]. rewrite (in_dget b k w Pb Hw). exact Hv.
  - destruct (dget b k) as [w|] eqn:Eb; [|exact I]. apply dget_in in Eb.
    destruct (sig_eqb_get2 _ _ k w E) as (v & Hv & _); [apply signature_in; auto|].
    apply signature_in in Hv as [Hv _]. rewrite (in_dget a k v Pa Hv) in Ea. discriminate.
Qed.
Lemma shape_eqb_eq a b : shape_eqb a b = true -> a = b.
Proof. destruct a, b. unfold shape_eqb. cbn. intros E. apply andb_prop in E as [E1 E2]. apply Nat.eqb_eq in E1, E2. congruence. Qed.

Section Cache.
  Context {M Op X : Type}.
  Variable mshape : M -> nat * nat.
  Variable fingerprint : M -> option fprint.
  Variable build : dict -> M -> option Op.
  Variable pre : bool.

  Definition origin (op : Op) (l : list (@pcall M * res lexn (option Op))) (q0 : @pcall M) (mid : list (@pcall M * res lexn (option Op))) : Prop :=
    (exists front, l = front ++ (q0, Ok (Some op)) :: mid) /\ build (p_args q0) (p_kv q0) = Some op /\
    forall e, In e mid -> p_force (fst e) = false /\ (snd e = Ok (Some op) \/ exists x, snd e = Err x).

  Definition cinv (c : @cache Op) (l : list (@pcall M * res lexn (option Op))) : Prop :=
    match c_op c with
    | None => True
    | Some op => pre = true /\ exists q0 mid, origin op l q0 mid /\ c_sig c = signature (p_args q0) /\
        c_shape c = Some (mshape (p_kv q0)) /\ c_fp c = fingerprint (p_kv q0) /\ c_count c = served mid
    end.

  (** what the caller can rely on when handed [op] *)
  Definition justified (op : Op) (l : list (@pcall M * res lexn (option Op))) (q : @pcall M) : Prop :=
    build (p_args q) (p_kv q) = Some op \/
    p_force q = false /\ exists q0 mid, origin op l q0 mid /\
      mshape (p_kv q0) = mshape (p_kv q) /\
      (proper (p_args q0) -> proper (p_args q) -> forall k, relevant k = true -> same_setting (dget (p_args q0) k) (dget (p_args q) k)) /\
      (exists lim d, max_drift (p_args q) = Ok lim /\ fdrift (fingerprint (p_kv q0)) (fingerprint (p_kv q)) = Some d /\ (d <= lim)%Q) /\
      (forall i, refresh_interval (p_args q) = Ok (Some i) -> (Z.of_nat (S (served mid)) <= i - 1)%Z).

  Lemma served_app (a b : list (@pcall M * res lexn (option Op))) : served (a ++ b) = served a + served b.
  Proof. unfold served. now rewrite filter_app, app_length. Qed.

  Lemma origin_snoc op l q0 mid e : origin op l q0 mid -> p_force (fst e) = false -> (snd e = Ok (Some op) \/ exists x, snd e = Err x) ->
    origin op (l ++ [e]) q0 (mid ++ [e]).
  Proof.
    intros ((front & ->) & Hb & Hm) H1 H2. split; [|split; [exact Hb|]].
    - exists front. now rewrite <- app_assoc.
    - intros e' Hin. apply in_app_or in Hin as [Hin|[<-|[]]]; auto.
  Qed.

  Lemma fresh_inv l q c' r : pre = true ->
    match build (p_args q) (p_kv q) with
    | None => (empty_cache, Ok None)
    | Some op => (Cache (Some op) (signature (p_args q)) (Some (mshape (p_kv q))) (fingerprint (p_kv q)) 0, Ok (Some op))
    end = (c', r) ->
    cinv c' (l ++ [(q, r)]) /\ (forall op, r = Ok (Some op) -> justified op l q).
  Proof.
    intros Hp E. destruct (build (p_args q) (p_kv q)) as [op|] eqn:Eb; injection E as <- <-.
    - split; [|intros op' [= <-]; now left]. cbn. split; [exact Hp|]. exists q, []. split; [|repeat split]. split; [exists l; reflexivity|]. split; [exact Eb|intros ? []].
    - split; [exact I|discriminate].
  Qed.

  Lemma step_inv c l q c' r : cinv c l -> get_or_refresh mshape fingerprint build pre (p_args q) (p_force q) c (p_kv q) = (c', r) ->
    cinv c' (l ++ [(q, r)]) /\ (forall op, r = Ok (Some op) -> justified op l q).
  Proof.
    intros Hi E. unfold get_or_refresh in E. destruct (Bool.bool_dec pre true) as [Hp|Hp].
    2:{ apply Bool.not_true_is_false in Hp. rewrite Hp in E. injection E as <- <-. split; [|discriminate].
        unfold cinv in *. destruct (c_op c); [|exact I]. destruct Hi as [Hi _]. congruence. }
    rewrite Hp in E. cbn [negb] in E. destruct (p_force q) eqn:Hf; [now apply (fresh_inv l q)|].
    destruct (can_reuse mshape fingerprint true (p_args q) c (p_kv q)) as [b|x] eqn:Ec.
    - destruct b; [|now apply (fresh_inv l q)]. injection E as <- <-.
      unfold can_reuse in Ec. cbn [negb] in Ec. unfold cinv in *. cbn [c_op c_sig c_shape c_fp c_count].
      destruct (c_op c) as [op|]; [|discriminate]. destruct Hi as (_ & q0 & mid & Ho & Hs & Hsh & Hfp & Hc).
      rewrite Hsh in Ec. destruct (shape_eqb _ _) eqn:Esh; [|discriminate]. cbn [negb] in Ec.
      destruct (sig_eqb _ _) eqn:Esig; [|discriminate]. cbn [negb] in Ec.
      destruct (refresh_interval (p_args q)) as [int|] eqn:Ei; [|discriminate].
      destruct (match int with Some i => _ | None => false end) eqn:El; [discriminate|].
      destruct (max_drift (p_args q)) as [lim|] eqn:Em; [|discriminate].
      injection Ec as Ec. apply negb_true_iff in Ec. unfold exceeds in Ec.
      destruct (fdrift _ _) as [d|] eqn:Ed; [|discriminate]. apply negb_false_iff, Qle_bool_iff in Ec.
      split.
      + split; [exact Hp|]. exists q0, (mid ++ [(q, Ok (Some op))]). split; [apply origin_snoc; auto|].
        rewrite served_app, Hc. cbn. repeat split; auto. lia.
      + intros op' [= <-]. right. split; [exact Hf|]. exists q0, mid. split; [exact Ho|]. split; [now apply shape_eqb_eq|]. split; [|split].
        * intros P0 P1 k Hk. apply signature_settings; auto. now rewrite <- Hs.
        * exists lim, d. rewrite <- Hfp. auto.
        * intros i Hri. rewrite Hri in Ei. injection Ei as <-. apply Z.leb_gt in El. lia.
    - injection E as <- <-. split; [|discriminate]. unfold cinv in *. destruct (c_op c) as [op|]; [|exact I].
      destruct Hi as (_ & q0 & mid & Ho & Hs & Hsh & Hfp & Hc). split; [exact Hp|]. exists q0, (mid ++ [(q, Err x)]).
      split; [apply origin_snoc; [exact Ho|exact Hf|right; now exists x]|]. rewrite served_app. cbn. repeat split; auto. lia.
  Qed.

  Lemma session_just l : forall c done c' log, cinv c done ->
    psession mshape fingerprint build pre c l = (c', log) ->
    cinv c' (done ++ log) /\
    forall front q op back, log = front ++ (q, Ok (Some op)) :: back -> justified op (done ++ front) q.
  Proof.
    induction l as [|q l IH]; intros c done c' log Hi E; cbn [psession] in E.
    - injection E as <- <-. rewrite app_nil_r. split; [exact Hi|]. intros [|? ?]; discriminate.
    - destruct (get_or_refresh _ _ _ _ _ _ _ _) as [c1 x] eqn:E1. destruct (psession _ _ _ _ c1 l) as [c2 xs] eqn:E2.
      injection E as <- <-. destruct (step_inv _ _ _ _ _ Hi E1) as [Hi1 J1].
      destruct (IH _ _ _ _ Hi1 E2) as [Hi2 J2]. split.
      + now rewrite <- app_assoc in Hi2.
      + intros front q' op back Eq. destruct front as [|e front]; cbn in Eq; injection Eq as.
        * subst. rewrite app_nil_r. now apply J1.
        * subst. specialize (J2 _ _ _ _ eq_refl). now rewrite <- app_assoc in J2.
  Qed.
  Lemma session_l l c' log : psession mshape fingerprint build pre empty_cache l = (c', log) ->
    forall front q op back, log = front ++ (q, Ok (Some op)) :: back -> justified op front q.
  Proof. intros E. exact (proj2 (session_just l empty_cache [] c' log I E)). Qed.
End Cache.

(** * warm starts *)
Section WarmP.
  Context {M X : Type}.
  Variable mshape : M -> nat * nat.
  Variable fingerprint : M -> option fprint.
  Variable solve : M -> option X -> res lexn X.
  Variable xrows : X -> nat.
  Variable truthy : aval -> bool.
  Notation ev := (evaluations mshape fingerprint solve xrows truthy).

  (** all evaluations succeed, warm starts stay enabled, fingerprints exist *)
  Lemma warm_sound (args : dict) : enabled truthy args = true -> (forall m, fingerprint m <> None) ->
    forall l w w' log kv x0, w_last w = Some x0 -> w_fp w = fingerprint kv ->
    ev w (map (fun m => (args, m)) l) = (w', log) ->
    (forall e, In e log -> is_ok (snd e) = true) -> (forall e, In e log -> forall x, snd e = Ok x -> xrows x = xrows x0) ->
    (forall m, In m l -> fst (mshape m) = xrows x0) ->
    forall front kv' g r back, (kv, None, Ok x0) :: log = front ++ (kv', Some g, r) :: back ->
    exists front1 kv0 g0 lim d, front = front1 ++ [(kv0, g0, Ok g)] /\ max_drift args = Ok lim /\ fdrift (fingerprint kv0) (fingerprint kv') = Some d /\ (d <= lim)%Q.
  Proof.
    intros Hen Hfp. induction l as [|m l IH]; intros w w' log kv x0 Hl Hw E Hok Hrows Hsh front kv' g r back Eq.
    - cbn in E. injection E as <- <-. destruct front as [|? [|? ?]]; discriminate.
    - cbn [map evaluations] in E. unfold evaluate in E.
      assert (Hg : initial_guess xrows truthy args w (fst (mshape m)) = Some x0).
      { unfold initial_guess. rewrite Hen, Hl, (Hsh m (or_introl eq_refl)), Nat.eqb_refl. reflexivity. }
      rewrite Hg in E. unfold validated in E. rewrite Hw in E. destruct (fingerprint kv) as [f|] eqn:Ef; [|now destruct (Hfp kv)].
      destruct (max_drift args) as [lim|e] eqn:Em.
      2:{ destruct (ev w _) as [w2 o]. injection E as <- <-. specialize (Hok _ (or_introl eq_refl)). discriminate. }
      set (x1 := if exceeds _ _ then None else Some x0) in E.
      destruct (solve m x1) as [x|e] eqn:Es; [|destruct (ev _ _) as [w2 o]; injection E as <- <-; specialize (Hok _ (or_introl eq_refl)); discriminate].
      rewrite Hen in E. destruct (ev _ _) as [w2 o] eqn:E2. injection E as <- <-.
      assert (Hx : xrows x = xrows x0) by (apply (Hrows _ (or_introl eq_refl) x eq_refl)).
      destruct front as [|e0 front]; [discriminate|]. cbn in Eq. injection Eq as <- Eq.
      destruct front as [|e1 front].
      + cbn in Eq. injection Eq as <- Eg <- <-. exists [], kv, None, lim. unfold x1, exceeds in Eg.
        destruct (fdrift (Some f) (fingerprint m)) as [d|] eqn:Ed; [|discriminate].
        destruct (Qle_bool d lim) eqn:El; cbn in Eg; [|discriminate]. injection Eg as <-. apply Qle_bool_iff in El.
        exists d. rewrite Ef. auto.
      + cbn in Eq. injection Eq as <- Eq.
        destruct (IH (Warm (fingerprint m) (Some x) (w_committed w)) w2 o m x eq_refl eq_refl E2) with (front := (m, @None X, @Ok lexn X x) :: front) (kv' := kv') (g := g) (r := r) (back := back)
          as (f1 & kv0 & g0 & lim' & d & Ef1 & Q1 & Q2 & Q3).
        * intros e He. apply Hok. now right.
        * intros e He y Ey. rewrite Hx. apply (Hrows e); [now right|exact Ey].
        * intros m' Hm'. rewrite Hx. apply Hsh. now right.
        * cbn. now rewrite Eq.
        * destruct f1 as [|e f1]; cbn in Ef1.
          -- injection Ef1 as <- <- <- ->. exists [(kv, None, Ok x0)], m, x1, lim', d. auto.
          -- injection Ef1 as <- ->. exists ((kv, None, Ok x0) :: (m, x1, Ok x) :: f1), kv0, g0, lim', d. auto.
  Qed.
End WarmP.

(** drift in terms of absolute values *)
Lemma qabs_Qabs a : (qabs a == Qabs a)%Q.
Proof.
  unfold qabs. destruct (Qle_bool 0 a) eqn:E.
  - apply Qle_bool_iff in E. now rewrite Qabs_pos.
  - rewrite Qabs_neg; [reflexivity|]. apply Qlt_le_weak, Qnot_le_lt. intros H. apply Qle_bool_iff in H. congruence.
Qed.
Lemma qmax_Qmax a b : (qmax a b == Qmax a b)%Q.
Proof.
  unfold qmax. destruct (Qle_bool a b) eqn:E.
  - apply Qle_bool_iff in E. symmetry. now apply Q.max_r.
  - symmetry. apply Q.max_l. apply Qlt_le_weak, Qnot_le_lt. intros H. apply Qle_bool_iff in H. congruence.
Qed.
Lemma rel_bound lim old new : (rel old new <= lim)%Q <-> changed_by_at_most lim old new.
Proof.
  unfold rel, changed_by_at_most. rewrite qabs_Qabs.
  set (m := qmax _ _). set (m' := Qmax (Qmax _ _) _).
  assert (Em : (m == m')%Q). { unfold m, m'. rewrite !qmax_Qmax, !qabs_Qabs. reflexivity. }
  assert (Hp : (0 < m)%Q). { rewrite Em. unfold m'. eapply Qlt_le_trans; [|apply Q.le_max_r]. reflexivity. }
  rewrite <- Em. split; intros H.
  - apply (Qmult_le_compat_r _ _ m) in H; [|now apply Qlt_le_weak]. unfold Qdiv in H. rewrite <- Qmult_assoc, (Qmult_comm (/ m)), Qmult_inv_r, Qmult_1_r in H; [exact H|].
    intros Z0. rewrite Z0 in Hp. discriminate Hp.
  - apply Qle_shift_div_r; assumption.
Qed.
Lemma fdrift_close lim a b : (exists d, fdrift a b = Some d /\ (d <= lim)%Q) -> close_fingerprints lim a b.
Proof.
  intros (d & Ed & Hd). destruct a as [fa|], b as [fb|]; try discriminate. unfold fdrift in Ed. destruct (negb _) eqn:En; [discriminate|].
  apply negb_false_iff in En. unfold shape_eqb in En. apply andb_true_iff in En as [E1 E2]. apply Nat.eqb_eq in E1, E2. injection Ed as <-.
  destruct fa as [[[[r1 c1] za] ta] na], fb as [[[[r2 c2] zb] tb] nb]. unfold fshape, ftrace, ffro in *. cbn [fst snd] in *. subst r2 c2.
  exists (r1, c1), za, zb, ta, tb, na, nb. rewrite !qmax_Qmax in Hd. apply Q.max_lub_iff in Hd as [H1 H2]. apply Q.max_lub_iff in H1 as [_ H1].
  split; [reflexivity|]. split; [reflexivity|]. split; now apply rel_bound.
Qed.

(** names *)
Lemma ascii_code a b : nat_of_ascii a = nat_of_ascii b -> a = b.
Proof. intros H. rewrite <- (ascii_nat_embedding a), <- (ascii_nat_embedding b). now rewrite H. Qed.
Lemma lower_char_spec a : (65 <= nat_of_ascii a <= 90 -> nat_of_ascii (lower_char a) = nat_of_ascii a + 32) /\ (~ 65 <= nat_of_ascii a <= 90 -> lower_char a = a).
Proof.
  unfold lower_char. destruct (Nat.leb_spec 65 (nat_of_ascii a)), (Nat.leb_spec (nat_of_ascii a) 90); cbn [andb]; split; intros; try lia; try reflexivity.
  apply nat_ascii_embedding. lia.
Qed.
(** [name] has no capitals *)
Definition is_lower (name : string) : Prop := lower name = name.
Lemma written_lower s : forall name, is_lower name -> (written_as s name <-> lower s = name).
Proof.
  induction s as [|a s IH]; intros [|b name] Hn; cbn [written_as lower]; try (split; [contradiction|discriminate]); [split; auto|].
  unfold is_lower in Hn. cbn [lower] in Hn. injection Hn as Hb Hn. specialize (IH name Hn).
  destruct (lower_char_spec a) as [A1 A2]. destruct (lower_char_spec b) as [B1 B2].
  assert (Hb' : ~ 65 <= nat_of_ascii b <= 90) by (intros Hc; specialize (B1 Hc); rewrite Hb in B1; lia).
  assert (K : (a = b \/ capital_of a b) <-> lower_char a = b).
  { unfold capital_of. destruct (le_dec 65 (nat_of_ascii a)); [destruct (le_dec (nat_of_ascii a) 90)|].
    - specialize (A1 (conj l l0)). split.
      + intros [->|[_ H]]; [lia|]. apply ascii_code. congruence.
      + intros <-. right. auto.
    - rewrite A2 by lia. split; [intros [H|H]; [exact H|lia]|auto].
    - rewrite A2 by lia. split; [intros [H|H]; [exact H|lia]|auto]. }
  rewrite IH. split.
  - intros [H ->]. apply K in H. now rewrite H.
  - intros [= H1 H2]. split; [now apply K|exact H2].
Qed.
Lemma names_l s t : normalize_type s = Some t <-> exists name, In name (documented t) /\ written_as s name.
Proof.
  unfold normalize_type. split.
  - intros H. assert (HI : In (lower s) (documented t)).
    { revert H. generalize (lower s). clear s. intros k. unfold aliases. cbn [assoc].
      repeat match goal with |- context[String.eqb ?a k] => destruct (String.eqb_spec a k) as [<-|_]; [intros [= <-]; vm_compute; tauto|] end. discriminate. }
    exists (lower s). split; [exact HI|]. apply written_lower; [|reflexivity].
    revert HI. unfold documented. repeat match goal with |- context[if String.eqb t ?a then _ else _] => destruct (String.eqb t a) end; cbn [In];
      intros HI; repeat (destruct HI as [<-|HI]; [vm_compute; reflexivity|]); contradiction.
  - intros (name & HI & HW). assert (HL : is_lower name).
    { revert HI. unfold documented. repeat match goal with |- context[if String.eqb t ?a then _ else _] => destruct (String.eqb t a) end; cbn [In];
      intros HI; repeat (destruct HI as [<-|HI]; [vm_compute; reflexivity|]); contradiction. }
    apply (written_lower s name HL) in HW. rewrite HW. clear HW HL. revert HI. unfold documented.
    repeat match goal with |- context[if String.eqb t ?a then _ else _] => destruct (String.eqb_spec t a) as [->|_] end; cbn [In];
      intros HI; repeat (destruct HI as [<-|HI]; [vm_compute; reflexivity|]); contradiction.
Qed.
