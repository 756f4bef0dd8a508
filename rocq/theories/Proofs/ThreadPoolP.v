(** Proofs about Model/ThreadPool.v. *)
From Coq Require Import List Arith Lia Permutation.
From Verif Require Import Model.Prelude Model.GGMPTrain Model.ThreadPool Spec.ThreadPoolSpec.
Import ListNotations.

Section P.
Context {E V U : Type} (s : nat -> U) (W : nat).
Notation prog := (prog E V U).
Notation pool := (pool E V U).

(** the rest of a program after some numbers *)
Fixpoint after (p : prog) (l : list U) {struct l} : option prog :=
  match l with [] => Some p | u :: l' => match p with Draw f => after (f u) l' | Ret _ => None end end.
Lemma after_app : forall l p u f, after p l = Some (Draw f) -> after p (l ++ [u]) = Some (f u).
Proof.
  induction l as [|v l IH]; intros p u f H; cbn in *; [inversion H; reflexivity|]. destruct p; [discriminate|]. apply IH, H.
Qed.
Lemma after_ends : forall l p r, after p l = Some (Ret r) <-> ends p l r.
Proof.
  induction l as [|v l IH]; intros p r; destruct p as [o|f]; cbn; split; intros H; try discriminate; try contradiction.
  - injection H as ->. reflexivity.
  - rewrite H. reflexivity.
  - apply IH, H.
  - apply IH, H.
Qed.

Definition ids (st : pool) : list nat := map fst (queue st) ++ map fst (running st) ++ map fst (finished st).
Definition inv (ps : list prog) (st : pool) : Prop :=
  Permutation (ids st) (seq 0 (length ps)) /\
  (forall j, ~ (j < length ps) -> received s j (drawn st) = []) /\
  (forall k p, In (k, p) (queue st) -> nth_error ps k = Some p /\ received s k (drawn st) = []) /\
  (forall k p, In (k, p) (running st) -> exists p0, nth_error ps k = Some p0 /\ after p0 (received s k (drawn st)) = Some p) /\
  (forall k r, In (k, r) (finished st) -> exists p0, nth_error ps k = Some p0 /\ after p0 (received s k (drawn st)) = Some (Ret r)).
Lemma inv_nodup : forall ps st, inv ps st -> NoDup (ids st).
Proof. intros ps st [H _]. eapply Permutation_NoDup; [apply Permutation_sym, H|apply seq_NoDup]. Qed.
Lemma combine_seq : forall (ps : list prog) a k p, In (k, p) (combine (seq a (length ps)) ps) -> (a <= k)%nat /\ nth_error ps (k - a) = Some p.
Proof.
  induction ps as [|q ps IH]; intros a k p H; cbn in H; [contradiction|]. destruct H as [H|H].
  - injection H as -> ->. rewrite Nat.sub_diag. auto.
  - apply IH in H. destruct H as [L H]. split; [lia|]. replace (k - a)%nat with (S (k - S a)) by lia. exact H.
Qed.
Lemma fst_combine : forall (ps : list prog) a, map fst (combine (seq a (length ps)) ps) = seq a (length ps).
Proof. induction ps as [|q ps IH]; intros a; cbn; [reflexivity|]. rewrite IH. reflexivity. Qed.
Lemma inv_start : forall ps, inv ps (submitted ps).
Proof.
  intros ps. unfold inv, ids, submitted. cbn. rewrite fst_combine, app_nil_r. split; [apply Permutation_refl|].
  split; [reflexivity|]. split; [|split; intros ? ? []]. intros k p H. apply combine_seq in H. destruct H as [_ H]. rewrite Nat.sub_0_r in H. auto.
Qed.
Lemma inv_step : forall ps st st', inv ps st -> step s W st st' -> inv ps st'.
Proof.
  intros ps st st' I H. pose proof (inv_nodup ps st I) as ND. destruct I as (P & O & Q & R & F). destruct H as [t q r d f L|q a k g b d f|q a k o b d f]; unfold inv, ids in *; cbn in *.
  - split; [|split; [exact O|split; [|split]]].
    + rewrite map_app. cbn. etransitivity; [|exact P]. rewrite <- app_assoc. cbn.
      change (fst t :: map fst q ++ map fst r ++ map fst f) with ((fst t :: map fst q) ++ map fst r ++ map fst f).
      etransitivity; [apply Permutation_app_head, Permutation_sym, Permutation_middle|]. cbn. apply Permutation_sym, Permutation_middle.
    + intros k p I. apply Q. auto.
    + intros k p I. apply in_app_or in I. destruct I as [I|[->|[]]]; [apply R, I|]. destruct (Q k p (or_introl eq_refl)) as [N Z]. exists p. rewrite Z. auto.
    + exact F.
  - assert (K : forall j, j <> k -> received s j d ++ (if k =? j then [s (length d)] else []) = received s j d).
    { intros j N. destruct (Nat.eqb_spec k j); [congruence|apply app_nil_r]. }
    assert (KL : In k (seq 0 (length ps))). { eapply Permutation_in; [exact P|]. rewrite map_app. cbn. rewrite !in_app_iff. cbn. auto. }
    apply in_seq in KL. rewrite map_app in P, ND. cbn in P, ND.
    assert (NA : forall j, In j (map fst q) \/ In j (map fst a) \/ In j (map fst b) \/ In j (map fst f) -> j <> k).
    { intros j I ->. rewrite <- app_assoc in ND. rewrite app_assoc in ND. apply NoDup_remove_2 in ND. apply ND. rewrite !in_app_iff. tauto. }
    split; [rewrite map_app; exact P|]. split; [|split; [|split]].
    + intros j L. rewrite K by lia. apply O, L.
    + intros j p I. rewrite K; [apply Q, I|]. apply NA. left. apply in_map_iff. exists (j, p). auto.
    + intros j p I. apply in_app_or in I. destruct I as [I|[I|I]].
      * rewrite K; [apply R, in_or_app; auto|]. apply NA. right. left. apply in_map_iff. exists (j, p). auto.
      * injection I as <- <-. destruct (R k (Draw g)) as (p0 & N & A); [apply in_or_app; right; left; reflexivity|]. exists p0. split; [exact N|].
        rewrite Nat.eqb_refl. apply after_app, A.
      * rewrite K; [apply R, in_or_app; right; right; exact I|]. apply NA. right. right. left. apply in_map_iff. exists (j, p). auto.
    + intros j r I. rewrite K; [apply F, I|]. apply NA. right. right. right. apply in_map_iff. exists (j, r). auto.
  - split; [|split; [exact O|split; [exact Q|split]]].
    + rewrite map_app in *. cbn in *. etransitivity; [|exact P]. apply Permutation_app_head. rewrite <- !app_assoc. cbn. apply Permutation_app_head.
      apply Permutation_sym, Permutation_middle.
    + intros j p I. apply R. apply in_app_or in I. apply in_or_app. cbn. tauto.
    + intros j r [I|I]; [injection I as <- <-|apply F, I]. apply R, in_or_app. right. left. reflexivity.
Qed.
Lemma inv_steps : forall ps st st', steps s W st st' -> inv ps st -> inv ps st'.
Proof. intros ps st st' H. induction H; intros I; [exact I|]. apply IHsteps. eapply inv_step; eassumption. Qed.

Lemma lookup_in : forall k (f : list (nat * res E V)) r, lookup k f = Some r -> In (k, r) f.
Proof.
  induction f as [|[j v] f IH]; intros r H; cbn in H; [discriminate|]. destruct (Nat.eqb_spec j k); [injection H as ->; subst; left; reflexivity|right; apply IH, H].
Qed.
Lemma in_lookup : forall k (f : list (nat * res E V)), In k (map fst f) -> exists r, lookup k f = Some r.
Proof.
  induction f as [|[j v] f IH]; intros H; cbn in *; [contradiction|]. destruct (Nat.eqb_spec j k); [eauto|]. destruct H as [H|H]; [congruence|auto].
Qed.
Lemma pool_results : forall (ps : list prog) (st : pool), steps s W (submitted ps) st -> over st -> forall k p, nth_error ps k = Some p ->
  exists r, lookup k (finished st) = Some r /\ ends p (received s k (drawn st)) r.
Proof.
  intros ps st H [Oq Or] k p N. pose proof (inv_steps ps _ _ H (inv_start ps)) as (P & _ & _ & _ & F).
  unfold ids in P. rewrite Oq, Or in P. cbn in P. destruct (in_lookup k (finished st)) as [r L].
  { eapply Permutation_in; [apply Permutation_sym, P|]. apply in_seq. assert (k < length ps) by (apply nth_error_Some; congruence). lia. }
  exists r. split; [exact L|]. destruct (F k r (lookup_in _ _ _ L)) as (p0 & N0 & A). rewrite N in N0. injection N0 as <-. apply after_ends, A.
Qed.

(** ** one worker *)
Fixpoint turns (ps : list prog) (pos : nat) : list (res E V) :=
  match ps with [] => [] | p :: r => let '(o, pos') := alone s p pos in o :: turns r pos' end.
Definition inv1 (ps : list prog) (st : pool) : Prop :=
  (length (running st) <= 1)%nat /\
  map fst (rev (finished st)) ++ map fst (running st ++ queue st) = seq 0 (length ps) /\
  map snd (rev (finished st)) ++ turns (map snd (running st ++ queue st)) (length (drawn st)) = turns ps 0.
Lemma one_elt : forall A (a b : list A) x, (length (a ++ x :: b) <= 1)%nat -> a = [] /\ b = [].
Proof. intros A a b x H. rewrite app_length in H. cbn in H. destruct a, b; cbn in H; try lia. auto. Qed.
Lemma inv1_step : forall ps st st', W = 1%nat -> inv1 ps st -> step s W st st' -> inv1 ps st'.
Proof.
  intros ps st st' W1 (L & I & T) H. destruct H as [t q r d f LT|q a k g b d f|q a k o b d f]; unfold inv1; cbn in *.
  - destruct r; [|cbn in LT; lia]. cbn in *. auto.
  - apply one_elt in L. destruct L as [-> ->]. cbn in *. auto.
  - apply one_elt in L. destruct L as [-> ->]. cbn in *. rewrite !map_app. cbn. rewrite <- !app_assoc. cbn. auto.
Qed.
Lemma inv1_steps : forall ps st st', W = 1%nat -> steps s W st st' -> inv1 ps st -> inv1 ps st'.
Proof. intros ps st st' W1 H. induction H; intros I; [exact I|]. apply IHsteps. eapply inv1_step; eassumption. Qed.
Lemma snd_combine : forall (ps : list prog) a, map snd (combine (seq a (length ps)) ps) = ps.
Proof. induction ps as [|q ps IH]; intros a; cbn; [reflexivity|]. rewrite IH. reflexivity. Qed.
Lemma one_worker : forall (ps : list prog) (st : pool), W = 1%nat -> steps s W (submitted ps) st -> over st ->
  rev (finished st) = combine (seq 0 (length ps)) (turns ps 0).
Proof.
  intros ps st W1 H [Oq Or]. assert (I : inv1 ps st).
  { eapply inv1_steps; [exact W1|exact H|]. unfold inv1, submitted. cbn. rewrite fst_combine, snd_combine. auto. }
  destruct I as (_ & I & T). rewrite Or, Oq in *. cbn in *. rewrite app_nil_r in *. rewrite <- I, <- T.
  generalize (rev (finished st)). induction l as [|[j v] l IH]; cbn; [reflexivity|]. rewrite <- IH. reflexivity.
Qed.
Lemma turns_len : forall ps pos, length (turns ps pos) = length ps.
Proof. induction ps as [|p ps IH]; intros pos; cbn; [reflexivity|]. destruct (alone s p pos) as [o pos']. cbn. rewrite IH. reflexivity. Qed.
Lemma turns_in_turn : forall ps pos vs, in_turn s ps pos = Ok vs <-> turns ps pos = map Ok vs.
Proof.
  induction ps as [|p ps IH]; intros pos vs; cbn.
  - split; intros H; [injection H as <-; reflexivity|]. destruct vs; [reflexivity|discriminate].
  - destruct (alone s p pos) as [[v|e] pos'].
    + destruct (in_turn s ps pos') as [ws|e] eqn:T.
      * split; intros H.
        -- injection H as <-. cbn. f_equal. apply IH, T.
        -- destruct vs as [|w vs]; [discriminate|]. injection H as -> H. apply IH in H. rewrite T in H. injection H as ->. reflexivity.
      * split; intros H; [discriminate|]. destruct vs as [|w vs]; [discriminate|]. injection H as -> H. apply IH in H. congruence.
    + split; intros H; [discriminate|]. destruct vs; discriminate.
Qed.
Lemma lookup_rev_combine : forall (rs : list (res E V)) a f k, rev f = combine (seq a (length rs)) rs -> (k < length rs)%nat -> nth_error rs k = lookup (a + k) f.
Proof.
  intros rs a f k H L. assert (ND : NoDup (map fst f)).
  { assert (Q : map fst (rev f) = seq a (length rs)).
    { rewrite H. clear. revert a. induction rs as [|r rs IH]; intros a; cbn; [reflexivity|]. rewrite IH. reflexivity. }
    rewrite map_rev in Q. rewrite <- (rev_involutive (map fst f)). apply NoDup_rev. rewrite Q. apply seq_NoDup. }
  destruct (nth_error rs k) as [r|] eqn:N; [|apply nth_error_None in N; lia]. symmetry.
  assert (I : In (a + k, r) f).
  { apply in_rev. rewrite H. clear - N. revert a k N. induction rs as [|r' rs IH]; intros a k N; [destruct k; discriminate|]. destruct k; cbn in *.
    - injection N as ->. rewrite Nat.add_0_r. auto.
    - right. replace (a + S k) with (S a + k) by lia. apply IH, N. }
  clear - I ND. induction f as [|[j v] f IH]; cbn in *; [contradiction|]. inversion ND; subst. destruct I as [I|I].
  - injection I as -> ->. rewrite Nat.eqb_refl. reflexivity.
  - destruct (Nat.eqb_spec j (a + k)); [|auto]. subst. exfalso. apply H1. apply in_map_iff. exists (a + k, r). auto.
Qed.

(** ** every pool with a worker can finish *)
Lemma steps_app : forall a b c : pool, steps s W a b -> steps s W b c -> steps s W a c.
Proof. intros a b c H. induction H; intros K; [exact K|]. eapply Go; [eassumption|auto]. Qed.
Lemma finish_one : forall (p : prog) q k d f, exists d' o, steps s W (Pool q [(k, p)] d f) (Pool q [] d' ((k, o) :: f)).
Proof.
  induction p as [o|g IH]; intros q k d f.
  - exists d, o. eapply Go; [apply (End s W q [] k o [] d f)|apply Stay].
  - destruct (IH (s (length d)) q k (k :: d) f) as (d' & o & H). exists d', o. eapply Go; [apply (Number s W q [] k g [] d f)|exact H].
Qed.
Lemma finish_all : (0 < W)%nat -> forall (q : list (nat * prog)) d f, exists st, steps s W (Pool q [] d f) st /\ over st.
Proof.
  intros W0. induction q as [|[k p] q IH]; intros d f.
  - eexists. split; [apply Stay|]. split; reflexivity.
  - destruct (finish_one p q k d f) as (d' & o & H). destruct (IH d' ((k, o) :: f)) as (st & H' & O). exists st. split; [|exact O].
    eapply Go; [apply (Start s W (k, p) q [] d f); exact W0|]. eapply steps_app; eassumption.
Qed.
End P.
