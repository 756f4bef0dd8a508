(** Proofs about graph blocks, overlaps and shift retries. *)
From Coq Require Import QArith Sorted Permutation Lqa.
From Verif Require Import Model.Prelude Model.Precond Spec.PrecondSpec.
Local Open Scope nat_scope.

Lemma mem_In v l : mem v l = true <-> In v l.
Proof.
  unfold mem. rewrite existsb_exists. split.
  - intros (x & Hx & E). apply Nat.eqb_eq in E. now subst.
  - intros H. exists v. split; [exact H|apply Nat.eqb_refl].
Qed.
Lemma mem_false v l : mem v l = false <-> ~ In v l.
Proof. rewrite <- mem_In. destruct (mem v l); split; congruence. Qed.

Section G.
  Variables (n : nat) (nbrs : nat -> list nat).

  Lemma push_spec : forall l node assigned queue queued q' d',
    push l node assigned queue queued = (q', d') ->
    exists ext, q' = queue ++ ext /\ d' = rev ext ++ queued /\ NoDup ext /\
      (forall v, In v ext -> In v l /\ v <> node /\ assigned v = false /\ ~ In v queued) /\
      (forall v, In v l -> v = node \/ assigned v = true \/ In v d').
  Proof.
    induction l as [|x l IH]; intros node assigned queue queued q' d'; cbn [push].
    - intros [= <- <-]. exists []. rewrite app_nil_r. cbn. repeat split; try constructor; try contradiction.
    - destruct (Nat.eqb x node || assigned x || mem x queued) eqn:C.
      + intros E. destruct (IH _ _ _ _ _ _ E) as (ext & E1 & E2 & E3 & E4 & E5). exists ext.
        split; [exact E1|]. split; [exact E2|]. split; [exact E3|]. split.
        * intros v Hv. destruct (E4 v Hv) as (? & ? & ? & ?). cbn. auto.
        * intros v [<-|Hv]; [|auto]. apply orb_true_iff in C as [C|C]; [apply orb_true_iff in C as [C|C]|].
          -- left. now apply Nat.eqb_eq.
          -- auto.
          -- right. right. rewrite E2. apply in_or_app. right. now apply mem_In.
      + apply orb_false_iff in C as [C C3]. apply orb_false_iff in C as [C1 C2]. intros E.
        destruct (IH _ _ _ _ _ _ E) as (ext & E1 & E2 & E3 & E4 & E5). exists (x :: ext).
        split; [now rewrite E1, <- app_assoc|]. split; [cbn [rev]; now rewrite E2, <- app_assoc|].
        split; [constructor; [|exact E3]; intros Hx; destruct (E4 x Hx) as (_ & _ & _ & N); apply N; now left|].
        split.
        * intros v [<-|Hv].
          -- split; [now left|]. split; [now apply Nat.eqb_neq|]. split; [exact C2|now apply mem_false].
          -- destruct (E4 v Hv) as (? & ? & ? & N). split; [now right|]. split; [assumption|]. split; [assumption|].
             intros Hq. apply N. now right.
        * intros v [<-|Hv]; [|auto]. right. right. rewrite E2. apply in_or_app. right. now left.
  Qed.

  (** what one block looks like *)
  Definition linked (b : list nat) : Prop :=
    forall pre v post, b = pre ++ v :: post -> pre = [] \/ exists u, In u pre /\ In v (nbrs u).
  Definition block_ok (bs : nat) (a0 : nat -> bool) (b : list nat) : Prop :=
    NoDup b /\ (forall v, In v b -> v < n /\ a0 v = false) /\ b <> [] /\ length b <= bs /\ linked b /\
    (length b < bs -> forall u v, In u b -> In v (nbrs u) -> In v b \/ a0 v = true).

  Lemma nodup_bound l : NoDup l -> (forall v, In v l -> v < n) -> length l <= n.
  Proof.
    intros Hn Hr. rewrite <- (seq_length n 0). apply NoDup_incl_length; [exact Hn|].
    intros v Hv. apply in_seq. specialize (Hr v Hv). lia.
  Qed.

  Lemma nodup_left {A} (a b : list A) : NoDup (a ++ b) -> NoDup a.
  Proof.
    induction a as [|x a IH]; intros H; [constructor|]. cbn in H. inversion H as [|? ? Hx Hr]; subst.
    constructor; [|auto]. intros Hi. apply Hx, in_or_app. now left.
  Qed.
  Lemma nodup_join {A} (a b : list A) : NoDup a -> NoDup b -> (forall v, In v b -> ~ In v a) -> NoDup (a ++ b).
  Proof.
    induction a as [|x a IH]; intros Ha Hb Hd; [exact Hb|]. inversion Ha as [|? ? Hx Hr]; subst. cbn. constructor.
    - intros Hi. apply in_app_or in Hi as [Hi|Hi]; [contradiction|]. apply (Hd x Hi). now left.
    - apply IH; [exact Hr|exact Hb|]. intros v Hv H. apply (Hd v Hv). now right.
  Qed.

  Lemma snoc_inv {A} (b pre post : list A) x v : b ++ [x] = pre ++ v :: post ->
    (post = [] /\ pre = b /\ v = x) \/ exists post', post = post' ++ [x] /\ b = pre ++ v :: post'.
  Proof.
    intros E. destruct post as [|y post] using rev_ind.
    - apply app_inj_tail in E as [-> ->]. now left.
    - clear IHpost. right. exists post. change (v :: post ++ [y]) with ((v :: post) ++ [y]) in E. rewrite app_assoc in E.
      apply app_inj_tail in E as [-> ->]. auto.
  Qed.

  Lemma grow_spec (Hr : in_range n nbrs) bs a0 : forall fuel assigned queue queued block,
    fuel + length block = S n -> 0 < bs ->
    Permutation queued (block ++ queue) -> NoDup queued ->
    (forall v, In v queued -> v < n /\ a0 v = false) ->
    (forall v, assigned v = a0 v || mem v block) ->
    linked block -> (forall v, In v queue -> (block = [] /\ queue = [v]) \/ exists u, In u block /\ In v (nbrs u)) ->
    (forall u v, In u block -> In v (nbrs u) -> In v queued \/ a0 v = true) ->
    length block <= bs -> queued <> [] ->
    exists assigned' b, grow nbrs fuel bs assigned queue queued block = Some (assigned', b) /\
      (forall v, assigned' v = a0 v || mem v b) /\ block_ok bs a0 b /\ (forall x r, block ++ queue = x :: r -> In x b).
  Proof.
    induction fuel as [|f IH]; intros assigned queue queued block Hf Hbs Hp Hnd Hin Ha Hl Hq Hm Hlen Hne.
    { exfalso. assert (length queued <= n) by (apply nodup_bound; [exact Hnd|intros v Hv; now apply Hin]).
      apply Permutation_length in Hp. rewrite app_length in Hp. lia. }
    assert (Hnd' : NoDup (block ++ queue)) by (eapply Permutation_NoDup; eauto).
    assert (Hbq : forall v, In v (block ++ queue) <-> In v queued).
    { intros v. split; apply Permutation_in; [now apply Permutation_sym|exact Hp]. }
    cbn [grow]. destruct queue as [|node q].
    - rewrite app_nil_r in *. exists assigned, block. split; [reflexivity|]. split; [exact Ha|]. split.
      + split; [exact Hnd'|]. split; [intros v Hv; apply Hin; now apply Hbq|].
        split; [intros ->; apply Hne; now apply Permutation_nil, Permutation_sym|].
        split; [exact Hlen|]. split; [exact Hl|]. intros _ u v Hu Hv. destruct (Hm u v Hu Hv) as [H|H]; [|now right].
        left. now apply Hbq.
      + intros x r ->. now left.
    - destruct (Nat.ltb_spec (length block) bs) as [Hlt|Hge].
      + assert (Hnode : ~ In node block).
        { intros H. apply NoDup_remove_2 in Hnd'. apply Hnd', in_or_app. now left. }
        assert (Hnn : In node queued) by (apply Hbq, in_or_app; right; now left).
        rewrite (Ha node), (proj2 (Hin node Hnn)), (proj2 (mem_false node block) Hnode). cbn [orb].
        destruct (push (nbrs node) node (mark assigned node) q queued) as [q' d'] eqn:E.
        apply push_spec in E as (ext & E1 & E2 & E3 & E4 & E5). subst q'.
        assert (Ha' : forall v, mark assigned node v = a0 v || mem v (block ++ [node])).
        { intros v. unfold mark. destruct (Nat.eqb_spec v node) as [->|Nv].
          - symmetry. apply orb_true_iff. right. apply mem_In, in_or_app. right. now left.
          - rewrite Ha. f_equal. destruct (mem v block) eqn:Em; symmetry.
            + apply mem_In, in_or_app. left. now apply mem_In.
            + apply mem_false. intros H. apply in_app_or in H as [H|[H|[]]]; [|congruence]. now apply mem_false in Em. }
        destruct (IH (mark assigned node) (q ++ ext) d' (block ++ [node])) as (a' & b & G1 & G2 & G3 & G4).
        * rewrite app_length. cbn [length]. lia.
        * exact Hbs.
        * rewrite E2. rewrite <- app_assoc. cbn [app]. rewrite Hp.
          transitivity ((block ++ node :: q) ++ ext); [|rewrite <- app_assoc; reflexivity].
          rewrite Permutation_app_comm. apply Permutation_app_head, Permutation_sym, Permutation_rev.
        * rewrite E2. assert (Hx : NoDup (ext ++ queued)).
          { clear -E3 E4 Hnd. assert (forall v, In v ext -> ~ In v queued) as Hd by (intros v Hv; now destruct (E4 v Hv) as (_ & _ & _ & ?)).
            clear E4. induction ext as [|x ext IHe]; [exact Hnd|]. cbn. inversion E3 as [|? ? Hx Hxs]; subst. constructor.
            - intros H. apply in_app_or in H as [H|H]; [contradiction|]. apply (Hd x); [now left|exact H].
            - apply IHe; [exact Hxs|]. intros v Hv. apply Hd. now right. }
          eapply Permutation_NoDup; [|exact Hx]. apply Permutation_app_tail, Permutation_rev.
        * intros v Hv. rewrite E2 in Hv. apply in_app_or in Hv as [Hv|Hv]; [|now apply Hin].
          apply in_rev in Hv. destruct (E4 v Hv) as (Hv1 & Hv2 & Hv3 & Hv4).
          split; [apply (Hr node); [now apply Hin|exact Hv1]|]. rewrite Ha' in Hv3. now apply orb_false_iff in Hv3.
        * exact Ha'.
        * intros pre v post Eb. apply snoc_inv in Eb as [(-> & -> & ->)|(post' & -> & Eb)]; [|exact (Hl _ _ _ Eb)].
          destruct (Hq node (or_introl eq_refl)) as [[-> _]|H]; [now left|now right].
        * intros v Hv. right. apply in_app_or in Hv as [Hv|Hv].
          -- destruct (Hq v (or_intror Hv)) as [[_ Hb]|(u & Hu & Huv)]; [|exists u; split; [apply in_or_app; now left|exact Huv]].
             injection Hb as _ ->. destruct Hv.
          -- exists node. split; [apply in_or_app; right; now left|]. now destruct (E4 v Hv).
        * intros u v Hu Hv. apply in_app_or in Hu as [Hu|[<-|[]]].
          -- destruct (Hm u v Hu Hv) as [H|H]; [left|now right]. rewrite E2. apply in_or_app. now right.
          -- destruct (E5 v Hv) as [->|[H|H]]; [| |now left].
             ++ left. rewrite E2. apply in_or_app. now right.
             ++ rewrite Ha' in H. apply orb_true_iff in H as [H|H]; [now right|]. left. rewrite E2. apply in_or_app. right.
                apply Hbq. apply mem_In in H. apply in_app_or in H as [H|[<-|[]]]; apply in_or_app; [now left|right; now left].
        * rewrite app_length. cbn [length]. lia.
        * rewrite E2. destruct ext; cbn; [exact Hne|]. intros H. apply app_eq_nil in H as [H _]. now destruct (rev ext).
        * exists a', b. split; [exact G1|]. split; [exact G2|]. split; [exact G3|].
          intros x r Ex. apply (G4 x (r ++ ext)). rewrite <- app_assoc. cbn [app].
          change (node :: q ++ ext) with ((node :: q) ++ ext). now rewrite app_assoc, Ex.
      + exists assigned, block. split; [reflexivity|]. split; [exact Ha|]. split.
        * split; [apply NoDup_remove_1 in Hnd'; now apply nodup_left in Hnd'|].
          split; [intros v Hv; apply Hin, Hbq, in_or_app; now left|].
          split; [intros ->; cbn in Hge; lia|]. split; [exact Hlen|]. split; [exact Hl|]. lia.
        * intros x r Ex. destruct block as [|y block]; [cbn in Hge; lia|]. injection Ex as -> _. now left.
  Qed.

  (** the blocks found so far *)
  Definition blocks_ok (bs : nat) (bl : list (list nat)) : Prop :=
    NoDup (concat bl) /\
    forall front b back, bl = front ++ b :: back ->
      (forall v, In v b -> v < n) /\ b <> [] /\ length b <= bs /\ linked b /\
      (length b < bs -> forall u v, In u b -> In v (nbrs u) -> In v b \/ In v (concat front)).

  Lemma seeds_spec (Hr : in_range n nbrs) bs (Hbs : 0 < bs) : forall l assigned blocks,
    (forall v, In v l -> v < n) -> (forall v, assigned v = mem v (concat blocks)) -> blocks_ok bs blocks ->
    exists bl, seeds n nbrs l bs assigned blocks = Some bl /\ blocks_ok bs bl /\
      (forall v, In v (concat blocks) -> In v (concat bl)) /\ (forall v, In v l -> In v (concat bl)).
  Proof.
    induction l as [|s l IH]; intros assigned blocks Hl Ha Hb; cbn [seeds].
    { exists blocks. split; [reflexivity|]. split; [exact Hb|]. split; [auto|contradiction]. }
    destruct (assigned s) eqn:Es.
    - destruct (IH assigned blocks (fun v H => Hl v (or_intror H)) Ha Hb) as (bl & E1 & E2 & E3 & E4).
      exists bl. split; [exact E1|]. split; [exact E2|]. split; [exact E3|]. intros v [<-|Hv]; [|auto].
      apply E3. rewrite Ha in Es. now apply mem_In.
    - destruct (grow_spec Hr bs assigned (S n) assigned [s] [s] []) as (a' & b & G1 & G2 & G3 & G4).
      + cbn. lia.
      + exact Hbs.
      + reflexivity.
      + constructor; [intros []|constructor].
      + intros v [<-|[]]. split; [apply Hl; now left|exact Es].
      + intros v. cbn. now rewrite orb_false_r.
      + intros pre v post E. destruct pre; discriminate.
      + intros v [<-|[]]. left. auto.
      + contradiction.
      + cbn. lia.
      + discriminate.
      + rewrite G1. destruct G3 as (B1 & B2 & B3 & B4 & B5 & B6).
        assert (Hc : concat (blocks ++ [b]) = concat blocks ++ b) by (rewrite concat_app; cbn; now rewrite app_nil_r).
        destruct (IH a' (blocks ++ [b])) as (bl & E1 & E2 & E3 & E4).
        * intros v Hv. apply Hl. now right.
        * intros v. rewrite G2, Ha, Hc. unfold mem. now rewrite existsb_app.
        * split.
          { rewrite Hc. apply nodup_join; [exact (proj1 Hb)|exact B1|]. intros v Hv Hi. destruct (B2 v Hv) as [_ Hn]. rewrite Ha in Hn.
            now apply mem_false in Hn. }
          intros front x back E. apply snoc_inv in E as [(-> & -> & ->)|(post' & -> & E)]; [|exact (proj2 Hb _ _ _ E)].
          split; [intros v Hv; now apply B2|]. split; [exact B3|]. split; [exact B4|]. split; [exact B5|].
          intros Hlt u v Hu Hv. destruct (B6 Hlt u v Hu Hv) as [H|H]; [now left|right]. rewrite Ha in H. now apply mem_In.
        * exists bl. split; [exact E1|]. split; [exact E2|]. split.
          -- intros v Hv. apply E3. rewrite Hc. apply in_or_app. now left.
          -- intros v [<-|Hv]; [|auto]. apply E3. rewrite Hc. apply in_or_app. right. apply (G4 s []). reflexivity.
  Qed.

  Lemma graph_blocks_l (Hr : in_range n nbrs) block_size : let bs := Z.to_nat (Z.max block_size 1) in
    exists bl, graph_blocks n nbrs block_size = Some bl /\ Permutation (concat bl) (seq 0 n) /\
    forall front b back, bl = front ++ b :: back ->
      b <> [] /\ length b <= bs /\ linked b /\
      (length b < bs -> forall u v, In u b -> In v (nbrs u) -> In v b \/ In v (concat front)).
  Proof.
    intros bs. assert (Hbs : 0 < bs) by (unfold bs; lia).
    destruct (seeds_spec Hr bs Hbs (seq 0 n) (fun _ => false) []) as (bl & E1 & (E2 & E2') & _ & E4).
    - intros v Hv. apply in_seq in Hv. lia.
    - reflexivity.
    - split; [constructor|]. intros front b back E. destruct front; discriminate.
    - exists bl. split; [exact E1|]. split.
      + apply NoDup_Permutation; [exact E2|apply seq_NoDup|]. intros v. split; [|apply E4].
        intros Hv. apply in_concat in Hv as (b & Hb & Hv). apply in_split in Hb as (front & back & E).
        destruct (E2' _ _ _ E) as (Hn & _). specialize (Hn v Hv). apply in_seq. lia.
      + intros front b back E. now destruct (E2' _ _ _ E) as (_ & H).
  Qed.

  (** * overlap *)
  Variable order : list nat -> list nat.
  Hypothesis order_ok : forall l v, In v (order l) <-> In v l.

  Lemma visit_spec : forall l e x e' x', visit l e x = (e', x') ->
    (forall v, In v e' <-> In v e \/ In v l) /\ (forall v, In v x' <-> In v x \/ (In v l /\ ~ In v e)) /\ (NoDup e -> NoDup e').
  Proof.
    induction l as [|y l IH]; intros e x e' x'; cbn [visit].
    - intros [= <- <-]. cbn. split; [tauto|]. split; [tauto|auto].
    - destruct (mem y e) eqn:C.
      + intros E. destruct (IH _ _ _ _ E) as (E1 & E2 & E3). apply mem_In in C. split; [|split].
        * intros v. rewrite E1. cbn. split; [tauto|]. intros [H|[<-|H]]; tauto.
        * intros v. rewrite E2. cbn. split; [tauto|]. intros [H|[[<-|H] H']]; tauto.
        * exact E3.
      + intros E. destruct (IH _ _ _ _ E) as (E1 & E2 & E3). apply mem_false in C. split; [|split].
        * intros v. rewrite E1. cbn. tauto.
        * intros v. rewrite E2. cbn. destruct (Nat.eq_dec v y) as [->|Nv]; [tauto|]. intuition congruence.
        * intros Hd. apply E3. constructor; assumption.
  Qed.
  Lemma ring_spec : forall fr e x e' x', ring nbrs fr e x = (e', x') ->
    (forall v, In v e' <-> In v e \/ exists u, In u fr /\ In v (nbrs u)) /\
    (forall v, In v x' <-> In v x \/ ((exists u, In u fr /\ In v (nbrs u)) /\ ~ In v e)) /\ (NoDup e -> NoDup e').
  Proof.
    induction fr as [|u fr IH]; intros e x e' x'; cbn [ring].
    - intros [= <- <-]. split; [|split; [|auto]]; intros v; split; auto; [intros [H|(u & [] & _)]|intros [H|((u & [] & _) & _)]]; exact H.
    - destruct (visit (nbrs u) e x) as [e1 x1] eqn:V. intros E. destruct (visit_spec _ _ _ _ _ V) as (V1 & V2 & V3).
      destruct (IH _ _ _ _ E) as (E1 & E2 & E3). split; [|split; [|auto]].
      + intros v. rewrite E1, V1. split.
        * intros [[H|H]|(w & Hw & Hv)]; [now left|right; exists u; cbn; auto|right; exists w; cbn; auto].
        * intros [H|(w & [<-|Hw] & Hv)]; [auto|auto|right; now exists w].
      + intros v. rewrite E2, V1, V2. split.
        * intros [[H|[H H']]|((w & Hw & Hv) & H')]; [now left|right; split; [exists u; cbn; auto|exact H']|].
          right. split; [exists w; cbn; auto|tauto].
        * intros [H|((w & [<-|Hw] & Hv) & H')]; [auto|auto|].
          destruct (in_dec Nat.eq_dec v (nbrs u)); [auto|]. right. split; [now exists w|tauto].
  Qed.

  Definition within (blk : list nat) (k v : nat) : Prop := exists u j, In u blk /\ j <= k /\ walk nbrs j u v.

  Lemma within_step blk k v : within blk (S k) v <-> within blk k v \/ exists w, within blk k w /\ In v (nbrs w).
  Proof.
    split.
    - intros (u & j & Hu & Hj & W). destruct (Nat.eq_dec j (S k)) as [->|Nj].
      + inversion W as [|? ? w ? W' Hw]; subst. right. exists w. split; [exists u, k; auto|exact Hw].
      + left. exists u, j. split; [exact Hu|]. split; [lia|exact W].
    - intros [(u & j & Hu & Hj & W)|(w & (u & j & Hu & Hj & W) & Hv)].
      + exists u, j. split; [exact Hu|]. split; [lia|exact W].
      + exists u, (S j). split; [exact Hu|]. split; [lia|]. now apply walkS with w.
  Qed.

  Lemma rings_spec blk : forall k i e f,
    NoDup e -> (forall v, In v e <-> within blk i v) ->
    (forall w v, In w e -> ~ In w f -> In v (nbrs w) -> In v e) -> (forall v, In v f -> In v e) ->
    NoDup (rings nbrs order k e f) /\ forall v, In v (rings nbrs order k e f) <-> within blk (i + k) v.
  Proof.
    induction k as [|k IH]; intros i e f Hn He Hc Hf; cbn [rings].
    { split; [exact Hn|]. intros v. now rewrite Nat.add_0_r. }
    destruct f as [|w0 f0] eqn:Ef.
    - split; [exact Hn|]. intros v. rewrite He. split.
      + intros (u & j & Hu & Hj & W). exists u, j. split; [exact Hu|]. split; [lia|exact W].
      + assert (forall m v, within blk (i + m) v -> within blk i v) as Hcl.
        { induction m as [|m IHm]; intros x; [now rewrite Nat.add_0_r|]. rewrite Nat.add_succ_r. intros Hx.
          apply within_step in Hx as [Hx|(w & Hw & Hx)]; [auto|]. apply He. apply (Hc w); [now apply He, IHm|intros []|exact Hx]. }
        apply Hcl.
    - rewrite <- Ef in *. destruct (ring nbrs (order f) e []) as [e' f'] eqn:R.
      destruct (ring_spec _ _ _ _ _ R) as (R1 & R2 & R3). rewrite Nat.add_succ_r, <- Nat.add_succ_l.
      assert (Hfr : forall v, (exists u, In u (order f) /\ In v (nbrs u)) <-> exists u, In u f /\ In v (nbrs u)).
      { intros v. split; intros (u & Hu & Hv); exists u; (split; [now apply order_ok|exact Hv]). }
      apply IH.
      + auto.
      + intros v. rewrite R1, Hfr, within_step, He. split.
        * intros [H|(u & Hu & Hv)]; [now left|]. right. exists u. split; [now apply He, Hf|exact Hv].
        * intros [H|(w & Hw & Hv)]; [now left|]. apply He in Hw. destruct (in_dec Nat.eq_dec w f) as [Hwf|Hwf].
          -- right. now exists w.
          -- left. apply He. exact (Hc w v Hw Hwf Hv).
      + intros w v Hw Hwf Hv. apply R1. rewrite Hfr. apply R1 in Hw as [Hw|Hw].
        * destruct (in_dec Nat.eq_dec w f) as [Hwf'|Hwf']; [right; now exists w|left; exact (Hc w v Hw Hwf' Hv)].
        * destruct (in_dec Nat.eq_dec w e) as [Hwe|Hwe].
          -- destruct (in_dec Nat.eq_dec w f) as [Hwf'|Hwf']; [right; now exists w|left; exact (Hc w v Hwe Hwf' Hv)].
          -- exfalso. apply Hwf, R2. right. auto.
      + intros v Hv. apply R1. apply R2 in Hv as [[]|[Hv _]]. now right.
  Qed.

  Lemma insert_spec v l : (forall u, In u (insert v l) <-> u = v \/ In u l) /\ (StronglySorted lt l -> ~ In v l -> StronglySorted lt (insert v l)).
  Proof.
    induction l as [|y l [IH1 IH2]]; cbn [insert].
    - split; [intros u; cbn; intuition|]. intros _ _. constructor; constructor.
    - destruct (Nat.leb_spec v y) as [H|H].
      + split; [intros u; cbn; intuition|]. intros Hs Hv. constructor; [exact Hs|].
        inversion Hs as [|? ? Hs' Hy]; subst. assert (v < y) by (assert (v <> y) by (intros ->; apply Hv; now left); lia).
        constructor; [assumption|]. eapply Forall_impl; [|exact Hy]. intros; lia.
      + split; [intros u; cbn; rewrite IH1; intuition|]. intros Hs Hv. inversion Hs as [|? ? Hs' Hy]; subst. constructor.
        * apply IH2; [exact Hs'|]. intros Hi. apply Hv. now right.
        * apply Forall_forall. intros u Hu. apply IH1 in Hu as [->|Hu]; [exact H|]. rewrite Forall_forall in Hy. auto.
  Qed.
  Lemma sorted_list_spec l : (forall u, In u (sorted_list l) <-> In u l) /\ (NoDup l -> StronglySorted lt (sorted_list l)).
  Proof.
    induction l as [|v l [IH1 IH2]]; [split; [reflexivity|constructor]|].
    change (sorted_list (v :: l)) with (insert v (sorted_list l)). destruct (insert_spec v (sorted_list l)) as [H1 H2]. split.
    - intros u. rewrite H1, IH1. cbn. intuition.
    - intros Hn. inversion Hn; subst. apply H2; [auto|]. now rewrite IH1.
  Qed.
  Lemma to_set_gen l : forall s, NoDup s -> NoDup (fold_left (fun s v => if mem v s then s else v :: s) l s) /\
    forall u, In u (fold_left (fun s v => if mem v s then s else v :: s) l s) <-> In u s \/ In u l.
  Proof.
    induction l as [|v l IH]; intros s Hs; cbn [fold_left]; [split; [exact Hs|cbn; tauto]|].
    destruct (mem v s) eqn:C.
    - destruct (IH s Hs) as [H1 H2]. split; [exact H1|]. intros u. rewrite H2. apply mem_In in C. cbn. split; [tauto|].
      intros [H|[<-|H]]; tauto.
    - apply mem_false in C. destruct (IH (v :: s)) as [H1 H2]; [now constructor|]. split; [exact H1|]. intros u. rewrite H2. cbn. tauto.
  Qed.

  Lemma overlap_l blk overlap : let k := Z.to_nat (Z.max overlap 0) in
    let r := expand_overlap nbrs order blk overlap in
    StronglySorted lt r /\ forall v, In v r <-> exists u j, In u blk /\ j <= k /\ walk nbrs j u v.
  Proof.
    intros k r. unfold r, expand_overlap. destruct (to_set_gen blk [] (NoDup_nil _)) as [T1 T2].
    change (fold_left _ blk []) with (to_set blk) in *.
    destruct (rings_spec blk k 0 (to_set blk) (to_set blk)) as [R1 R2].
    - exact T1.
    - intros v. rewrite T2. split.
      + intros [[]|H]. exists v, 0. split; [exact H|]. split; [lia|constructor].
      + intros (u & j & Hu & Hj & W). right. assert (j = 0) by lia. subst j. inversion W; now subst.
    - intros w v H H'. contradiction.
    - auto.
    - fold k. split; [now apply sorted_list_spec|]. intros v. rewrite (proj1 (sorted_list_spec _)). apply R2.
  Qed.
End G.

(** * shift retries *)
Section S.
  Context {F : Type} (fac : Q -> option F) (next : Q -> Q).
  Lemma retry_spec : forall k s r tried, retry fac next k s = (r, tried) ->
    length tried <= k /\ (0 < k -> hd_error tried = Some s) /\
    (forall pre a b post, tried = pre ++ a :: b :: post -> b = next a /\ fac a = None) /\
    match r with
    | Some (f, t) => exists pre, tried = pre ++ [t] /\ fac t = Some f
    | None => length tried = k /\ forall t, In t tried -> fac t = None
    end.
  Proof.
    induction k as [|k IH]; intros s r tried; cbn [retry].
    - intros [= <- <-]. cbn. split; [lia|]. split; [lia|]. split; [intros pre a b post E; destruct pre; discriminate|]. split; [reflexivity|contradiction].
    - destruct (fac s) as [f|] eqn:E.
      + intros [= <- <-]. cbn. split; [lia|]. split; [reflexivity|]. split.
        * intros pre a b post E'. destruct pre as [|? [|? ?]]; discriminate.
        * exists []. auto.
      + destruct (retry fac next k (next s)) as [r' t'] eqn:R. intros [= <- <-]. destruct (IH _ _ _ R) as (I1 & I2 & I3 & I4).
        cbn [length hd_error]. split; [lia|]. split; [reflexivity|]. split.
        * intros pre a b post E'. destruct pre as [|p pre]; injection E' as -> E'.
          -- split; [|exact E]. destruct k as [|k]; [cbn in R; injection R as <- <-; discriminate|].
             specialize (I2 (Nat.lt_0_succ k)). rewrite E' in I2. now injection I2.
          -- exact (I3 _ _ _ _ E').
        * destruct r' as [[f t]|].
          -- destruct I4 as (pre & -> & Hf). exists (s :: pre). auto.
          -- destruct I4 as [L Hn]. split; [lia|]. intros t [<-|Ht]; auto.
  Qed.

  Hypothesis grows : forall s, (0 <= s)%Q -> (s < next s)%Q.
  Lemma retry_increasing k s r tried : retry fac next k s = (r, tried) -> (0 <= s)%Q -> StronglySorted Qlt tried.
  Proof.
    revert s r tried. assert (Hb : forall k s r tried, retry fac next k s = (r, tried) -> (0 <= s)%Q -> Forall (fun t => (s <= t)%Q) tried).
    { clear -grows. induction k as [|k IH]; intros s r tried; cbn [retry]; [intros [= _ <-] _; constructor|].
      destruct (fac s); [intros [= _ <-] H; constructor; [apply Qle_refl|constructor]|].
      destruct (retry fac next k (next s)) as [r' t'] eqn:R. intros [= _ <-] H. specialize (grows s H).
      constructor; [apply Qle_refl|]. apply IH in R; [|lra]. eapply Forall_impl; [|exact R]. cbn. intros; lra. }
    induction k as [|k IH]; intros s r tried; cbn [retry]; [intros [= _ <-] _; constructor|].
    destruct (fac s); [intros [= _ <-] H; constructor; constructor|].
    destruct (retry fac next k (next s)) as [r' t'] eqn:R. intros [= _ <-] H. pose proof (grows s H) as G. constructor.
    - eapply IH; [exact R|lra].
    - apply Hb in R; [|lra]. eapply Forall_impl; [|exact R]. cbn. intros; lra.
  Qed.
End S.

Lemma dense_grows growth : (1 < growth)%Q -> forall s, (0 <= s)%Q -> (s < dense_next growth s)%Q.
Proof.
  intros Hg s Hs. unfold dense_next. destruct (Qeq_bool s 0) eqn:E.
  - apply Qeq_bool_eq in E. rewrite E. reflexivity.
  - apply Qeq_bool_neq in E. assert (0 < s)%Q by lra. setoid_replace s with (s * 1)%Q at 1 by ring. now apply Qmult_lt_l.
Qed.
Lemma ilupp_grows growth : (1 < growth)%Q -> forall s, (0 <= s)%Q -> (s < ilupp_next growth s)%Q.
Proof.
  intros Hg s Hs. unfold ilupp_next. assert (Hc : (s == 0)%Q \/ (s < s * growth)%Q).
  { destruct (Qlt_le_dec 0 s) as [H|H]; [right|left; lra]. setoid_replace s with (s * 1)%Q at 1 by ring. now apply Qmult_lt_l. }
  destruct (Qle_bool _ _) eqn:E.
  - apply Qle_bool_iff in E. destruct Hc as [->|Hc]; [reflexivity|lra].
  - assert (~ (s * growth <= 1 # 1000000000000)%Q) as H by (intros H; apply Qle_bool_iff in H; congruence).
    apply Qnot_le_lt in H. destruct Hc as [E0|Hc]; [|exact Hc]. rewrite E0 in H |- *. eapply Qlt_trans; [|exact H]. reflexivity.
Qed.
