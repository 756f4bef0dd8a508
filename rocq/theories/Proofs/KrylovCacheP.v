(** Lemmas about the caches of the Krylov modes. *)
From Coq Require Import String QArith Qminmax Qabs Lqa.
From Verif Require Import Model.Prelude Model.KrylovCache Spec.KrylovCacheSpec.

Lemma rel_within tn m a b q : (0 < tn)%Q -> rel_change tn a b = Some q -> (q <= m)%Q -> within tn m a b.
Proof.
intros T R L x y -> ->. cbn in R. injection R as <-. set (d := Qmax _ tn) in *. assert (P : (0 < d)%Q) by (unfold d; eapply Qlt_le_trans; [exact T|apply Q.le_max_r]).
setoid_replace (Qabs (y - x)) with (Qabs (y - x) / d * d)%Q by (field; lra). apply Qmult_le_compat_r; [exact L|lra].
Qed.
Lemma pymax_ge d x : (d <= pymax d x)%Q /\ forall q, x = Some q -> (q <= pymax d x)%Q.
Proof.
destruct x as [q|]; cbn; [|split; [lra|discriminate]]. destruct (Qle_bool q d) eqn:E.
- apply Qle_bool_iff in E. split; [lra|]. intros ? [= <-]. exact E.
- assert (~ (q <= d)%Q) by (intros H; apply Qle_bool_iff in H; congruence). split; [lra|]. intros ? [= <-]. lra.
Qed.
Lemma drift_close tn m f g : (0 < tn)%Q -> exceeds (drift tn (Some f) (Some g)) m = false -> close_to tn m f g.
Proof.
intros T. unfold drift. destruct (negb _) eqn:S; [discriminate|]. apply negb_false_iff, andb_true_iff in S as [S1 S2]. apply Nat.eqb_eq in S1. apply Nat.eqb_eq in S2.
cbn. intros H. apply negb_false_iff, Qle_bool_iff in H. set (r1 := rel_change tn (fp_trace f) (fp_trace g)) in *. set (r2 := rel_change tn (fp_fro f) (fp_fro g)) in *.
destruct (pymax_ge (pymax 0 r1) r2) as [G1 G2]. destruct (pymax_ge 0%Q r1) as [_ G3]. split; [destruct (fp_shape f), (fp_shape g); cbn in *; congruence|]. split.
- intros x y Hx Hy. assert (E : r1 = Some (Qabs (y - x) / Qmax (Qmax (Qabs x) (Qabs y)) tn)%Q) by (unfold r1; rewrite Hx, Hy; reflexivity).
  apply (rel_within tn m (fp_trace f) (fp_trace g) _ T E); auto. specialize (G3 _ E). lra.
- intros x y Hx Hy. assert (E : r2 = Some (Qabs (y - x) / Qmax (Qmax (Qabs x) (Qabs y)) tn)%Q) by (unfold r2; rewrite Hx, Hy; reflexivity).
  apply (rel_within tn m (fp_fro f) (fp_fro g) _ T E); auto. specialize (G2 _ E). lra.
Qed.
Lemma rel_self tn a q : (0 < tn)%Q -> rel_change tn a a = Some q -> (q == 0)%Q.
Proof.
intros T. destruct a as [a|]; [|discriminate]. intros H. assert (Hq : q = (Qabs (a - a) / Qmax (Qmax (Qabs a) (Qabs a)) tn)%Q) by (unfold rel_change in H; congruence). rewrite Hq. clear H Hq. set (d := Qmax _ tn). assert (P : (0 < d)%Q) by (unfold d; eapply Qlt_le_trans; [exact T|apply Q.le_max_r]).
setoid_replace (a - a)%Q with 0%Q by ring. change (Qabs 0) with 0%Q. field. lra.
Qed.
Lemma pymax_zero d x : (d == 0)%Q -> (forall q, x = Some q -> (q == 0)%Q) -> (pymax d x == 0)%Q.
Proof. intros D X. destruct x as [q|]; cbn; [|exact D]. destruct (Qle_bool q d); [exact D|exact (X q eq_refl)]. Qed.
Lemma drift_self tn m f : (0 < tn)%Q -> (0 <= m)%Q -> exceeds (drift tn (Some f) (Some f)) m = false.
Proof.
intros T P. unfold drift. rewrite !Nat.eqb_refl. cbn. apply negb_false_iff, Qle_bool_iff.
rewrite pymax_zero; [exact P|apply pymax_zero; [reflexivity|]|]; intros q Hq; apply (rel_self tn _ q T Hq).
Qed.

Local Open Scope list_scope.
Section P.
Context {M Op Val : Type} (val_eqb : Val -> Val -> bool) (VE : forall a b, val_eqb a b = true <-> a = b).
Context (fingerprint : M -> fp) (tn : Q) (T : (0 < tn)%Q).
Context (build : args (Val:=Val) -> M -> option Op) (interval : args (Val:=Val) -> option Z) (max_drift : args (Val:=Val) -> Q).
Notation pre_ := "sparse_preconditioner_"%string.

Lemma sig_eqb_eq (a b : list (string * Val)) : sig_eqb val_eqb a b = true <-> a = b.
Proof.
revert b. induction a as [|[k v] a IH]; intros [|[k' v'] b]; cbn; try (split; congruence).
rewrite !andb_true_iff, String.eqb_eq, VE, IH. split; [intros [[-> ->] ->]; reflexivity|intros [= -> -> ->]; auto].
Qed.
Lemma in_insert (e x : string * Val) l : In x (insert e l) <-> x = e \/ In x l.
Proof. induction l as [|y l IH]; cbn; [intuition congruence|]. destruct (String.leb (fst e) (fst y)); cbn; [intuition congruence|]. rewrite IH. intuition congruence. Qed.
Lemma in_signature (a : args (Val:=Val)) k v : In (k, v) (signature a) <-> In (k, v) a /\ prefix pre_ k = true.
Proof.
unfold signature. change (prefix pre_ k = true) with ((fun e : string * Val => prefix prefix_ (fst e)) (k, v) = true). rewrite <- filter_In.
induction (filter _ a) as [|e l IH]; cbn [fold_right]; [reflexivity|]. rewrite in_insert, IH. cbn. intuition congruence.
Qed.
Lemma lookup_in (a : list (string * Val)) k v : NoDup (map fst a) -> lookup a k = Some v <-> In (k, v) a.
Proof.
intros N. unfold lookup. induction a as [|[k' v'] a IH]; cbn; [split; [discriminate|intros []]|]. inversion N as [|? ? N1 N2]; subst.
destruct (String.eqb_spec k k') as [->|NE]; cbn.
- split; [intros [= ->]; auto|]. intros [[= ->]|H]; [reflexivity|]. destruct N1. apply (in_map fst) in H. exact H.
- rewrite IH by exact N2. split; [auto|]. intros [[= -> ->]|H]; [congruence|exact H].
Qed.
Lemma signature_lookup (a b : args (Val:=Val)) : NoDup (map fst a) -> NoDup (map fst b) -> signature a = signature b ->
  forall k, prefix pre_ k = true -> lookup a k = lookup b k.
Proof.
intros Na Nb E k P. destruct (lookup a k) as [v|] eqn:A.
- symmetry. apply (lookup_in _ _ _ Nb). apply (lookup_in _ _ _ Na) in A. apply (in_signature b). rewrite <- E. apply in_signature. auto.
- destruct (lookup b k) as [v|] eqn:B; [|reflexivity]. exfalso. apply (lookup_in _ _ _ Nb) in B. assert (H : In (k, v) (signature a)) by (rewrite E; apply in_signature; auto).
  apply in_signature in H as [H _]. apply (lookup_in _ _ _ Na) in H. congruence.
Qed.

Notation get_or := (get_or_refresh val_eqb fingerprint tn build interval max_drift).
Notation prun_ := (prun val_eqb fingerprint tn build interval max_drift).
Lemma can_reuse_true pre (a : args (Val:=Val)) (c : pcache (Op:=Op) (Val:=Val)) kv : can_reuse val_eqb fingerprint tn interval max_drift pre a c kv = true ->
  pre = true /\ (exists op, p_op c = Some op) /\ p_sig c = Some (signature a) /\ p_shape c = Some (fp_shape (fingerprint kv)) /\
  (forall i, interval a = Some i -> (p_count c < i - 1)%Z) /\ exceeds (drift tn (p_fp c) (Some (fingerprint kv))) (max_drift a) = false.
Proof.
unfold can_reuse. destruct pre; [|discriminate]. cbn [negb]. destruct (p_op c) as [op|]; [|discriminate].
destruct (p_shape c) as [s|]; [|discriminate]. destruct (_ && _)%bool eqn:S; [|discriminate]. cbn [negb]. apply andb_true_iff in S as [S1 S2]. apply Nat.eqb_eq in S1. apply Nat.eqb_eq in S2.
destruct (p_sig c) as [g|]; [|discriminate]. destruct (sig_eqb val_eqb g (signature a)) eqn:G; [|discriminate]. cbn [negb]. apply sig_eqb_eq in G as ->.
destruct (match interval a with Some i => _ | None => _ end) eqn:I; [discriminate|]. destruct (exceeds _ _); [discriminate|]. intros _.
split; [reflexivity|]. split; [eauto|]. split; [reflexivity|]. split; [destruct s, (fp_shape (fingerprint kv)); cbn in *; congruence|]. split; [|reflexivity].
intros i Hi. rewrite Hi in I. apply Z.leb_gt in I. lia.
Qed.

Definition made (c : pcache (Op:=Op) (Val:=Val)) (log : list (pevent (M:=M) (Val:=Val) * presult (Op:=Op))) : Prop :=
  match p_op c with
  | None => True
  | Some op => exists l0 a0 f0 kv0 lm, log = l0 ++ (PGet true a0 f0 kv0, PResult (Some op) Built) :: lm /\ build a0 kv0 = Some op /\
      Forall keeps lm /\ p_sig c = Some (signature a0) /\ p_shape c = Some (fp_shape (fingerprint kv0)) /\ p_fp c = Some (fingerprint kv0) /\
      p_count c = Z.of_nat (length (filter reused lm))
  end.
Definition good (log : list (pevent (M:=M) (Val:=Val) * presult (Op:=Op))) : Prop :=
  forall l1 pre a force kv op o l2, log = l1 ++ (PGet pre a force kv, PResult (Some op) o) :: l2 ->
    pre = true /\ ((o = Built /\ build a kv = Some op) \/
     (o = Reused /\ force = false /\ exists l0 a0 f0 kv0 lm, l1 = l0 ++ (PGet true a0 f0 kv0, PResult (Some op) Built) :: lm /\ build a0 kv0 = Some op /\ Forall keeps lm /\
        signature a0 = signature a /\ close_to tn (max_drift a) (fingerprint kv0) (fingerprint kv) /\
        (forall i, interval a = Some i -> (Z.of_nat (length (filter reused lm)) + 1 <= i - 1)%Z))).
Lemma made_snoc_keep c log x : made c log -> keeps x -> reused x = false -> made c (log ++ [x]).
Proof.
unfold made. destruct (p_op c) as [op|]; [|auto]. intros [l0 [a0 [f0 [kv0 [lm [-> [B [K [S1 [S2 [S3 C]]]]]]]]]]] Kx Rx. exists l0, a0, f0, kv0, (lm ++ [x]).
split; [rewrite <- app_assoc; reflexivity|]. split; [exact B|]. split; [apply Forall_app; split; [exact K|constructor; [exact Kx|constructor]]|]. split; [exact S1|]. split; [exact S2|]. split; [exact S3|].
rewrite filter_app. cbn. rewrite Rx, app_nil_r. exact C.
Qed.
Lemma step_made c log e c' x : made c log -> good log -> pstep val_eqb fingerprint tn build interval max_drift c e = (c', x) -> made c' (log ++ [(e, x)]) /\ good (log ++ [(e, x)]).
Proof.
intros I G S.
assert (GA : (forall pre a force kv op o, e = PGet pre a force kv -> x = PResult (Some op) o -> pre = true /\ ((o = Built /\ build a kv = Some op) \/
     (o = Reused /\ force = false /\ exists l0 a0 f0 kv0 lm, log = l0 ++ (PGet true a0 f0 kv0, PResult (Some op) Built) :: lm /\ build a0 kv0 = Some op /\ Forall keeps lm /\
        signature a0 = signature a /\ close_to tn (max_drift a) (fingerprint kv0) (fingerprint kv) /\
        (forall i, interval a = Some i -> (Z.of_nat (length (filter reused lm)) + 1 <= i - 1)%Z)))) -> good (log ++ [(e, x)])).
{ intros H l1 pre a force kv op o l2 E. destruct l2 as [|y l2] using rev_ind.
  - apply app_inj_tail in E as [-> [= -> ->]]. apply (H _ _ _ _ _ _ eq_refl eq_refl).
  - clear IHl2. rewrite app_comm_cons, app_assoc in E. apply app_inj_tail in E as [E _]. exact (G l1 pre a force kv op o l2 E). }
destruct e as [pre a force kv|].
- cbn in S. unfold get_or_refresh in S. destruct pre; cbn [negb] in S.
  2:{ injection S as <- <-. split; [apply made_snoc_keep; [exact I|left; reflexivity|reflexivity]|]. apply GA. intros; discriminate. }
  destruct (negb force && can_reuse val_eqb fingerprint tn interval max_drift true a c kv)%bool eqn:R.
  + injection S as <- <-. apply andb_true_iff in R as [Fc R]. apply negb_true_iff in Fc. apply can_reuse_true in R as [_ [[op Eop] [Sg [Sh [In Ex]]]]].
    unfold made in I. rewrite Eop in I. destruct I as [l0 [a0 [f0 [kv0 [lm [-> [B [K [S1 [S2 [S3 C]]]]]]]]]]]. rewrite S1 in Sg. injection Sg as Sg. rewrite S3 in Ex. split.
    * unfold made; cbn [p_op p_sig p_shape p_fp p_count]. rewrite Eop. exists l0, a0, f0, kv0, (lm ++ [(PGet true a force kv, PResult (Some op) Reused)]).
      split; [rewrite <- app_assoc; reflexivity|]. split; [exact B|]. split; [apply Forall_app; split; [exact K|constructor; [right; reflexivity|constructor]]|]. split; [exact S1|]. split; [exact S2|]. split; [exact S3|].
      rewrite filter_app, app_length. cbn. lia.
    * apply GA. intros pre a1 force1 kv1 op1 o1 [= <- <- <- <-] [= E1 <-]. rewrite Eop in E1. injection E1 as <-. split; [reflexivity|]. right. split; [reflexivity|]. split; [exact Fc|].
      exists l0, a0, f0, kv0, lm. split; [reflexivity|]. split; [exact B|]. split; [exact K|]. split; [exact Sg|]. split; [apply drift_close; assumption|]. intros i Hi. specialize (In i Hi). lia.
  + destruct (build a kv) as [op|] eqn:B.
    * injection S as <- <-. split.
      -- unfold made; cbn. exists log, a, force, kv, []. repeat split; auto.
      -- apply GA. intros pre a1 force1 kv1 op1 o1 [= <- <- <- <-] [= <- <-]. split; [reflexivity|]. left. auto.
    * injection S as <- <-. split; [exact Logic.I|]. apply GA. intros; discriminate.
- cbn in S. injection S as <- <-. split; [exact Logic.I|]. apply GA. intros; discriminate.
Qed.
Lemma run_good es : forall c log c' l, made c log -> good log -> prun_ c es = (c', l) -> made c' (log ++ l) /\ good (log ++ l).
Proof.
induction es as [|e es IH]; intros c log c' l I G R; cbn in R; [injection R as <- <-; rewrite app_nil_r; auto|].
destruct (pstep _ _ _ _ _ _ c e) as [c1 x] eqn:S. destruct (prun _ _ _ _ _ _ c1 es) as [c2 l2] eqn:R2. injection R as <- <-.
destruct (step_made c log e c1 x I G S) as [I1 G1]. destruct (IH c1 (log ++ [(e, x)]) c2 l2 I1 G1 R2) as [I2 G2]. rewrite <- app_assoc in I2, G2. auto.
Qed.
Definition cached (a : args (Val:=Val)) kv op k : pcache (Op:=Op) (Val:=Val) := PC (Some op) (Some (signature a)) (Some (fp_shape (fingerprint kv))) (Some (fingerprint kv)) k.
Lemma reuse_again a kv op : (0 <= max_drift a)%Q -> forall n k, (forall i, interval a = Some i -> (k + Z.of_nat n <= i - 1)%Z) ->
  snd (prun_ (cached a kv op k) (repeat (PGet true a false kv) n)) = repeat (PGet true a false kv, PResult (Some op) Reused) n.
Proof.
intros P n. induction n as [|n IH]; intros k L; [reflexivity|]. cbn [repeat prun]. unfold pstep, get_or_refresh. cbn [negb andb].
assert (R : can_reuse val_eqb fingerprint tn interval max_drift true a (cached a kv op k) kv = true).
{ unfold can_reuse, cached. cbn [negb p_op p_sig p_shape p_fp p_count]. rewrite !Nat.eqb_refl. cbn [andb negb]. rewrite (proj2 (sig_eqb_eq _ _) eq_refl). cbn [negb].
  rewrite drift_self by assumption. destruct (interval a) as [i|]; [|reflexivity]. specialize (L i eq_refl). destruct (Z.leb_spec (i - 1) k); [lia|reflexivity]. }
rewrite R. cbn [cached p_op p_sig p_shape p_fp p_count]. specialize (IH (k + 1)%Z). fold (cached a kv op (k + 1)). destruct (prun_ (cached a kv op (k + 1)) _) as [c2 l2]. cbn [snd] in *. rewrite IH; [reflexivity|].
intros i Hi. specialize (L i Hi). lia.
Qed.
Lemma build_then_reuse a kv op : build a kv = Some op -> (0 <= max_drift a)%Q -> forall n c, (forall i, interval a = Some i -> (Z.of_nat n <= i - 1)%Z) ->
  snd (prun_ c (PGet true a true kv :: repeat (PGet true a false kv) n)) = (PGet true a true kv, PResult (Some op) Built) :: repeat (PGet true a false kv, PResult (Some op) Reused) n.
Proof.
intros B P n c L. cbn [prun]. unfold pstep, get_or_refresh. cbn [negb andb]. rewrite B. fold (cached a kv op 0). pose proof (reuse_again a kv op P n 0%Z L) as R.
destruct (prun_ (cached a kv op 0) _) as [c2 l2]. cbn [snd] in *. rewrite R. reflexivity.
Qed.

Context (warm_enabled : args (Val:=Val) -> bool).
Notation wstep_ := (wstep fingerprint tn max_drift warm_enabled).
Notation wrun_ := (wrun fingerprint tn max_drift warm_enabled).
(** only evaluations of the marginal likelihood with warm starts enabled, and commits: the fingerprint is that of the stored solution *)
Definition winv (w : wstate (M:=M)) : Prop :=
  match w_fp w with
  | None => w_ws w = None
  | Some f => exists kv, w_ws w = Some (Sol kv (rows_of fingerprint kv)) /\ f = fingerprint kv
  end.
Definition ml_only (e : wevent (M:=M) (Val:=Val)) : Prop := match e with WEval a _ => warm_enabled a = true | WPosterior _ _ => False | WCommit _ => True end.
Lemma wstep_inv w e w' x : winv w -> ml_only e -> wstep_ w e = (w', x) -> winv w' /\
  (forall a kv s, e = WEval a kv -> x = Some s -> w_fp w <> None -> close_to tn (max_drift a) (fingerprint (s_for s)) (fingerprint kv)).
Proof.
intros I O S. destruct e as [a kv|a kv|kv]; cbn in O, S; [|destruct O|].
- injection S as <- <-. rewrite O. split; [cbn; eauto|]. intros a1 kv1 s [= <- <-] X N. unfold validated in X.
  destruct (initial_guess warm_enabled a w (rows_of fingerprint kv)) as [s'|] eqn:G; [|discriminate]. unfold winv in I. destruct (w_fp w) as [f|]; [|contradiction]. destruct I as [kv0 [W ->]].
  destruct (exceeds _ _) eqn:X'; [discriminate|]. injection X as <-. pose proof (drift_close _ _ _ _ T X') as C.
  unfold initial_guess in G. rewrite O, W in G. cbn [negb s_rows] in G. destruct C as [Sh C]. unfold rows_of in G. rewrite Sh, Nat.eqb_refl in G. injection G as <-. split; assumption.
- injection S as <- <-. split; [exact I|]. intros; discriminate.
Qed.
Lemma wrun_inv es : forall w w' l, winv w -> Forall ml_only es -> wrun_ w es = (w', l) -> winv w' /\
  forall l1 a kv s l2, l = l1 ++ (WEval a kv, Some s) :: l2 -> (w_fp w <> None \/ exists a0 kv0 x0, In (WEval a0 kv0, x0) l1) -> close_to tn (max_drift a) (fingerprint (s_for s)) (fingerprint kv).
Proof.
induction es as [|e es IH]; intros w w' l I F R; cbn in R; [injection R as <- <-; split; [exact I|]; intros [|? ?]; discriminate|].
destruct (wstep _ _ _ _ w e) as [w1 x] eqn:S. destruct (wrun _ _ _ _ w1 es) as [w2 l2] eqn:R2. injection R as <- <-. inversion F as [|? ? F1 F2]; subst.
destruct (wstep_inv w e w1 x I F1 S) as [I1 C1]. destruct (IH w1 w2 l2 I1 F2 R2) as [I2 C2]. split; [exact I2|].
intros l1 a kv s l3 E H. destruct l1 as [|y l1]; cbn in E.
- injection E as -> -> _. destruct H as [H|[? [? [? []]]]]. exact (C1 a kv s eq_refl eq_refl H).
- injection E as <- ->. apply (C2 l1 a kv s l3 eq_refl).
  assert (K : w_fp w <> None -> w_fp w1 <> None). { destruct e; cbn in S; injection S as <- <-; cbn; auto; discriminate. }
  destruct H as [H|[a0 [kv0 [x0 [H|H]]]]]; [left; auto|left|right; eauto]. injection H as -> _. cbn in S. injection S as <- _. discriminate.
Qed.
End P.
