(** Property C204: the advice given when a preconditioner cannot be built. *)
From Coq Require Import String Lia.
From Verif Require Import Model.Prelude Model.LinalgCfg Model.Guidance Spec.GuidanceSpec.
Local Open Scope string_scope.

Lemma assoc_in l k v : assoc l k = Some v -> In (k, v) l.
Proof. induction l as [|[j w] l IH]; cbn; [discriminate|]. destruct (String.eqb_spec j k) as [->|]; [intros [= ->]; now left|right; auto]. Qed.
Lemma normalize_fixed s t : normalize_type s = Some t -> normalize_type t = Some t.
Proof.
  intros H. apply assoc_in in H. cbn [aliases In] in H.
  repeat (destruct H as [H|H]; [injection H as _ <-; reflexivity|]). destruct H.
Qed.
Definition guidance_for (t : string) : option advice :=
  if String.eqb t "ilu" then Some AdviseILU else if String.eqb t "ichol" || String.eqb t "ichol0" then Some AdviseIC
  else if String.eqb t "block_jacobi" || String.eqb t "additive_schwarz" then Some AdviseBlocks else None.
Lemma guidance_about t a : guidance_for t = Some a <-> In t (about a).
Proof.
  unfold guidance_for. destruct (String.eqb_spec t "ilu") as [->|N1].
  { split; [intros [= <-]; now left|]. destruct a; cbn; intuition discriminate. }
  destruct (String.eqb_spec t "ichol") as [->|N2]; [split; [intros [= <-]; now left|destruct a; cbn; intuition discriminate]|].
  destruct (String.eqb_spec t "ichol0") as [->|N3]; [split; [intros [= <-]; right; now left|destruct a; cbn; intuition discriminate]|].
  destruct (String.eqb_spec t "block_jacobi") as [->|N4]; [split; [intros [= <-]; now left|destruct a; cbn; intuition discriminate]|].
  destruct (String.eqb_spec t "additive_schwarz") as [->|N5]; [split; [intros [= <-]; right; now left|destruct a; cbn; intuition discriminate]|].
  cbn. split; [discriminate|]. destruct a; cbn; intuition congruence.
Qed.
(** a string no alias stands for is none of the names *)
Lemma guidance_unknown s : normalize_type s = None -> guidance_for s = None.
Proof.
  intros N. destruct (guidance_for s) as [a|] eqn:G; [|reflexivity]. apply guidance_about in G. exfalso.
  destruct a; cbn in G; intuition subst; discriminate.
Qed.
Lemma guidanceE py args : guidance py args = guidance_for (advised_type py args).
Proof. reflexivity. Qed.

Definition reads := fun (py : aval -> string) => py VNone = "None".

(** The property fails for the default backend: nothing is set, ILU is tried and fails, and the advice about ILU's settings is missing. *)
Theorem guidance_refuted : forall py, reads py -> forall Op (build : string -> option Op), build "ilu" = None ->
  tried py [] = Some "ilu" /\ covered "ilu" /\ build_or_warn py build [] = inr None /\
  build_or_warn py build [("sparse_preconditioner_type", VStr "ilu")] = inr (Some AdviseILU).
Proof.
  intros py R Op build B. split; [reflexivity|]. split; [exists AdviseILU; now left|]. assert (T : tried py [] = Some "ilu") by reflexivity.
  assert (T' : tried py [("sparse_preconditioner_type", VStr "ilu")] = Some "ilu") by reflexivity.
  unfold build_or_warn. rewrite T, T', B. split; [|reflexivity].
  unfold guidance, advised_type. cbn [dget to_str]. rewrite R. reflexivity.
Qed.
Print Assumptions guidance_refuted.

(** What holds. (1) Advice that is given is about the backend that was tried: no failed builder gets another one's advice, and a name
    that is not known gets none. (2) If the type is set, under any alias and in any case of letters, directly or through the mode,
    the advice is given exactly for the backends there is a sentence about. (3) An operator comes from the backend that was asked for,
    the default being ILU. *)
Theorem guidance_partial : forall py, reads py -> forall Op (build : string -> option Op) args,
  (forall a, build_or_warn py build args = inr (Some a) -> exists t, tried py args = Some t /\ In t (about a) /\ build t = None) /\
  (forall v t, dget args "sparse_preconditioner_type" = Some v -> normalize_type (to_str py v) = Some t -> build t = None ->
     exists o, build_or_warn py build args = inr o /\ (o <> None <-> covered t) /\ forall a, o = Some a -> In t (about a)) /\
  (forall v, dget args "sparse_preconditioner_type" = Some v -> normalize_type (to_str py v) = None -> build_or_warn py build args = inr None) /\
  (forall mode c rest h', resolve py mode (Some 0) [args] = (h', Ok (c, 1)) ->
     forall p, In (p, c) [("sparsecgpre_", "sparseCGpre"); ("sparseminrespre_", "sparseMINRESpre")] -> lower mode = p ++ rest ->
     exists t, normalize_type rest = Some t /\ (build t = None ->
       exists o, build_or_warn py build (hget h' 1) = inr o /\ (o <> None <-> covered t) /\ forall a, o = Some a -> In t (about a))) /\
  (forall op, build_or_warn py build args = inl op -> exists t, tried py args = Some t /\ build t = Some op).
Proof.
  intros py R Op build args.
  assert (Key : forall args v t, dget args "sparse_preconditioner_type" = Some v -> normalize_type (to_str py v) = Some t -> build t = None ->
     exists o, build_or_warn py build args = inr o /\ (o <> None <-> covered t) /\ forall a, o = Some a -> In t (about a)).
  { intros ar v t D N B. unfold build_or_warn, tried, type_key. rewrite D, N, B. eexists. split; [reflexivity|].
    rewrite guidanceE. unfold advised_type, type_key. rewrite D, N. split.
    - split.
      + destruct (guidance_for t) as [a|] eqn:G; [|congruence]. intros _. exists a. now apply guidance_about.
      + intros [a Ha]. apply guidance_about in Ha. now rewrite Ha.
    - intros a Ha. now apply guidance_about. }
  split; [|split; [|split; [|split]]].
  - intros a H. unfold build_or_warn in H.
    destruct (tried py args) as [t|] eqn:T.
    + destruct (build t) eqn:B; [discriminate|]. injection H as H. exists t. split; [reflexivity|]. split; [|exact B].
      rewrite guidanceE in H. unfold advised_type, tried in *. destruct (dget args type_key) as [v|].
      * rewrite T in H. now apply guidance_about.
      * exfalso. cbn [to_str] in H. rewrite R in H. cbn in H. discriminate.
    + injection H as H. exfalso. rewrite guidanceE in H. unfold advised_type, tried in *. destruct (dget args type_key) as [v|]; [|discriminate T].
      rewrite T, (guidance_unknown _ T) in H. discriminate.
  - intros v t. apply Key.
  - intros v D N. unfold build_or_warn, tried, type_key. rewrite D, N, guidanceE. unfold advised_type, type_key. rewrite D, N. now rewrite guidance_unknown.
  - intros mode c rest h' E p Hp Hm. change (In (p, c) prefixes) in Hp.
    assert (X : exists t, normalize_type rest = Some t /\ dget (hget h' 1) "sparse_preconditioner_type" = Some (VStr t)).
    { assert (get_set : forall d k v, dget (dset d k v) k = Some v).
      { induction d as [|[j w] d IH]; intros k v; cbn; [now rewrite String.eqb_refl|]. destruct (String.eqb j k) eqn:Ej; cbn; rewrite Ej; auto. }
      assert (str : forall p s, strip p (p ++ s) = Some s) by (induction p0 as [|ch p0 IH]; intros s; cbn; [now destruct s|now rewrite Ascii.eqb_refl]).
      assert (Loop : forall hh, List.length hh = 2 -> forall h2 r, resolve_loop py prefixes (lower mode) hh 1 = (h2, Ok r) -> exists t, normalize_type rest = Some t /\ dget (hget h2 1) "sparse_preconditioner_type" = Some (VStr t)).
      { intros hh L h2 r. rewrite Hm. destruct hh as [|d0 [|d1 [|]]]; try discriminate L.
        assert (Same : forall q cq, In (q, cq) prefixes -> strip q (p ++ rest) <> None -> q = p /\ strip q (p ++ rest) = Some rest).
        { intros q cq Hq S. destruct Hp as [[= <- <-]|[[= <- <-]|[]]]; destruct Hq as [[= <- <-]|[[= <- <-]|[]]]; try (exfalso; apply S; reflexivity); split; try reflexivity; apply str. }
        generalize (fun q cq (H : In (q, cq) prefixes) => Same q cq H).
        assert (Found : strip p (p ++ rest) <> None) by (rewrite str; discriminate). revert Hp Found.
        generalize prefixes. intros ps Hp Found S. revert h2 r. induction ps as [|[q cq] ps IH]; intros h2 r; cbn [resolve_loop]; [destruct Hp|].
        destruct (strip q (p ++ rest)) as [rest'|] eqn:Es.
        - destruct (S q cq) as [-> S']; [now left|congruence|]. rewrite Es in S'. injection S' as ->.
          destruct (normalize_type rest) as [t|]; [|discriminate]. exists t. split; [reflexivity|].
          destruct (match dget (hget [d0; d1] 1) "sparse_preconditioner_type" with Some VNone => None | o => o end) as [v|].
          + destruct (normalize_type (to_str py v)) as [e|]; [|discriminate]. destruct (negb _); [discriminate|]. injection H as <- _. cbn. apply get_set.
          + injection H as <- _. cbn. apply get_set.
        - destruct Hp as [[= -> ->]|Hp]; [congruence|]. apply IH; [exact Hp|]. intros q' cq' Hq'. apply (S q' cq'). now right. }
      unfold resolve in E. cbn [List.length] in E. destruct (resolve_loop _ _ _ _ _) as [h2 [[m|]|e]] eqn:EL; [| |discriminate]; injection E as <- _; eapply Loop; try exact EL; reflexivity. }
    destruct X as (t & N & D). exists t. split; [exact N|]. intros B. apply (Key _ (VStr t) t D); [|exact B]. exact (normalize_fixed _ _ N).
  - intros op H. unfold build_or_warn in H. destruct (tried py args) as [t|]; [|discriminate]. exists t. split; [reflexivity|].
    destruct (build t); [now injection H as ->|discriminate].
Qed.
Print Assumptions guidance_partial.
(** an alias in mixed case gets the advice about incomplete Cholesky; AMG and the native one get none; a set None is tried as the name "none" *)
Example guidance_ex : let py v := match v with VNone => "None" | _ => "?" end in let no (_ : string) : option unit := None in
  build_or_warn py no [("sparse_preconditioner_type", VStr "Incomplete_Cholesky")] = inr (Some AdviseIC) /\
  build_or_warn py no [("sparse_preconditioner_type", VStr "schwarz")] = inr (Some AdviseBlocks) /\
  build_or_warn py no [("sparse_preconditioner_type", VStr "amg")] = inr None /\
  tried py [("sparse_preconditioner_type", VNone)] = None /\
  build_or_warn py (fun t => Some t) [] = inl "ilu".
Proof. repeat split. Qed.
