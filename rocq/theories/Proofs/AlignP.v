(** Proofs about the alignment of local mixtures. *)
From Coq Require Import Reals Lra Permutation Relations.
From Verif Require Import Model.Prelude Spec.Sums Model.Align Spec.AlignSpec Proofs.BOP.

Lemma insert_perm le v l : Permutation (insert le v l) (v :: l).
Proof. induction l as [|w l IH]; cbn; [reflexivity|]. destruct (le v w); [reflexivity|]. rewrite IH. apply perm_swap. Qed.
Lemma sorted_perm le l : Permutation (sorted le l) l.
Proof. induction l as [|v l IH]; cbn; [reflexivity|]. rewrite insert_perm, IH. reflexivity. Qed.
Lemma before_in l u v : before l u v -> In u l /\ In v l.
Proof. induction l as [|x l IH]; cbn; [easy|]. intros [[-> H]|H]; [auto|]. destruct (IH H); auto. Qed.
Lemma before_app1 l m u v : before l u v -> before (l ++ m) u v.
Proof. induction l as [|x l IH]; cbn; [easy|]. intros [[-> H]|H]; [left; split; [reflexivity|apply in_or_app; auto]|auto]. Qed.
Lemma before_app2 l m u v : In u l -> In v m -> before (l ++ m) u v.
Proof. induction l as [|x l IH]; cbn; [easy|]. intros [->|H] Hv; [left; split; [reflexivity|apply in_or_app; auto]|right; auto]. Qed.
Lemma hd_app {X} (l m : list X) a : hd_error l = Some a -> hd_error (l ++ m) = Some a.
Proof. destruct l; [discriminate|auto]. Qed.
Lemma fold_parents u l : forall ps v, fold_left (fun p v => set_parent p u v) l ps v = if in_dec Nat.eq_dec v l then Par u else ps v.
Proof.
induction l as [|w l IH]; intros ps v; [reflexivity|]. cbn [fold_left]. rewrite IH. unfold set_parent.
destruct (in_dec Nat.eq_dec v l) as [I|I], (in_dec Nat.eq_dec v (w :: l)) as [J|J]; try reflexivity; [exfalso; auto with datatypes| |].
- destruct J as [->|J]; [rewrite Nat.eqb_refl; reflexivity|contradiction].
- destruct (Nat.eqb_spec v w) as [->|N]; [exfalso; auto with datatypes|reflexivity].
Qed.

Section Search.
Context (n : nat) (edge : nat -> nat -> bool) (key : nat -> nat -> nat -> bool) (root : nat).
Record inv (ps : nat -> parent) (O Q : list nat) : Prop := {
  i_nodup : NoDup (O ++ Q);
  i_seen : forall v, ps v <> Unseen <-> In v (O ++ Q);
  i_lt : forall v, In v (O ++ Q) -> v < n;
  i_hd : hd_error (O ++ Q) = Some root;
  i_root : ps root = Root;
  i_par : forall v, In v (O ++ Q) -> v <> root -> exists u, ps v = Par u /\ before (O ++ Q) u v /\ edge u v = true;
  i_closed : forall u v, In u O -> v < n -> edge u v = true -> In v (O ++ Q) }.
Lemma inv_start : root < n -> inv (fun v => if v =? root then Root else Unseen) [] [root].
Proof.
intros L. constructor; cbn.
- constructor; [easy|constructor].
- intros v. destruct (Nat.eqb_spec v root) as [->|N]; split; auto; try congruence. intros [E|[]]; congruence.
- intros v [<-|[]]. exact L.
- reflexivity.
- rewrite Nat.eqb_refl. reflexivity.
- intros v [->|[]] N; congruence.
- easy.
Qed.
Lemma inv_step ps O u q : inv ps O (u :: q) ->
  let nbrs := sorted (key u) (filter (fun v => edge u v && unseen (ps v)) (seq 0 n)) in
  inv (fold_left (fun p v => set_parent p u v) nbrs ps) (O ++ [u]) (q ++ nbrs).
Proof.
intros [I1 I2 I3 I4 I5 I6 I7]. cbn zeta. set (nbrs := sorted _ _).
assert (NI : forall v, In v nbrs <-> v < n /\ edge u v = true /\ ps v = Unseen).
{ intros v. unfold nbrs. split.
  - intros H. apply (Permutation_in _ (sorted_perm _ _)) in H. apply filter_In in H as [H1 H2]. apply in_seq in H1. apply andb_prop in H2 as [H2 H3]. split; [lia|]. split; [exact H2|]. destruct (ps v); [reflexivity|discriminate|discriminate].
  - intros (H1 & H2 & H3). apply (Permutation_in _ (Permutation_sym (sorted_perm _ _))). apply filter_In. split; [apply in_seq; lia|]. rewrite H2, H3. reflexivity. }
assert (NN : NoDup nbrs) by (apply (Permutation_NoDup (Permutation_sym (sorted_perm _ _))); apply NoDup_filter, seq_NoDup).
assert (EQ : (O ++ [u]) ++ q ++ nbrs = (O ++ u :: q) ++ nbrs) by (rewrite <- !app_assoc; reflexivity).
assert (PS : forall v, fold_left (fun p v => set_parent p u v) nbrs ps v = if in_dec Nat.eq_dec v nbrs then Par u else ps v) by (intros; apply fold_parents).
assert (DJ : forall v, In v (O ++ u :: q) -> ~ In v nbrs) by (intros v H H'; apply NI in H' as (_ & _ & H'); apply I2 in H; contradiction).
assert (RO : In root (O ++ u :: q)) by (apply I2; rewrite I5; discriminate).
constructor; rewrite ?EQ.
- revert I1 NN DJ. generalize (O ++ u :: q) as l. induction l as [|a l IH]; intros H1 H2 H3; [exact H2|]. inversion H1; subst. cbn. constructor; [intros H; apply in_app_or in H as [H|H]; [contradiction|exact (H3 a (or_introl eq_refl) H)]|apply IH; auto with datatypes].
- intros v. rewrite PS. destruct (in_dec Nat.eq_dec v nbrs) as [H|H]; [split; [intros _; apply in_or_app; auto|discriminate]|]. rewrite I2. split; [intros H'; apply in_or_app; auto|intros H'; apply in_app_or in H' as [H'|H']; [exact H'|contradiction]].
- intros v H. apply in_app_or in H as [H|H]; [auto|apply NI in H; tauto].
- apply hd_app; exact I4.
- rewrite PS. destruct (in_dec Nat.eq_dec root nbrs) as [H|H]; [exfalso; exact (DJ _ RO H)|exact I5].
- intros v H N. rewrite PS. apply in_app_or in H as [H|H].
  + destruct (in_dec Nat.eq_dec v nbrs) as [H'|_]; [exfalso; exact (DJ _ H H')|]. destruct (I6 v H N) as (w & E1 & E2 & E3). exists w. split; [exact E1|]. split; [apply before_app1; exact E2|exact E3].
  + destruct (in_dec Nat.eq_dec v nbrs) as [_|H']; [|contradiction]. exists u. split; [reflexivity|]. split; [apply before_app2; [apply in_or_app; right; left; reflexivity|exact H]|apply NI in H; tauto].
- intros w v H L E. apply in_or_app. apply in_app_or in H as [H|[<-|[]]]; [left; eapply I7; eassumption|].
  destruct (ps v) eqn:P; [right; apply NI; auto|left; apply I2; rewrite P; discriminate|left; apply I2; rewrite P; discriminate].
Qed.
Lemma inv_length ps O Q : inv ps O Q -> length (O ++ Q) <= n.
Proof. intros I. rewrite <- (seq_length n 0). apply NoDup_incl_length; [apply (i_nodup _ _ _ I)|]. intros v H. apply in_seq. apply (i_lt _ _ _ I) in H. lia. Qed.
Lemma search_inv fuel : forall ps O Q, inv ps O Q -> n <= fuel + length O -> exists order ps', search n edge key fuel ps O Q = Some (order, ps') /\ inv ps' order [].
Proof.
induction fuel as [|fuel IH]; intros ps O Q I L.
- destruct Q as [|u q]; [exists O, ps; auto|]. apply inv_length in I. rewrite app_length in I. cbn in I, L. lia.
- destruct Q as [|u q]; [exists O, ps; auto|]. cbn [search]. apply IH; [apply inv_step; exact I|]. rewrite app_length. cbn. lia.
Qed.
(** the search ends and visits exactly what is reachable *)
Lemma search_spec fuel : root < n -> n <= fuel -> exists order ps, search_from n edge key fuel root = Some (order, ps) /\ inv ps order [].
Proof. intros R L. apply search_inv; [apply inv_start; exact R|cbn; lia]. Qed.
Lemma inv_reach ps order : inv ps order [] -> forall v, clos_refl_trans nat (fun a b => a < n /\ b < n /\ edge a b = true) root v -> In v order.
Proof.
intros I v R. apply clos_rt_rtn1 in R. induction R as [|a b (A & B & E) _ IH].
- rewrite <- (app_nil_r order). apply (i_seen _ _ _ I). rewrite (i_root _ _ _ I). discriminate.
- rewrite <- (app_nil_r order). eapply (i_closed _ _ _ I); eassumption.
Qed.
Lemma inv_traversal ps order : inv ps order [] -> (forall v, v < n -> In v order) -> traversal n root (fun u v => edge u v = true) order ps.
Proof.
intros I A. destruct I as [I1 I2 I3 I4 I5 I6 I7]. rewrite app_nil_r in *. constructor.
- apply NoDup_Permutation; [exact I1|apply seq_NoDup|]. intros v. rewrite in_seq. split; [intros H; apply I3 in H; lia|intros H; apply A; lia].
- auto.
- intros v L N. apply I6; auto.
Qed.
End Search.

(** ** relabelling *)
Lemma nth_combine {X Y} (l : list X) : forall (m : list Y) i, nth_error (combine l m) i = match nth_error l i, nth_error m i with Some a, Some b => Some (a, b) | _, _ => None end.
Proof. induction l as [|x l IH]; intros [|y m] [|i]; cbn; try reflexivity; [destruct (nth_error l i); reflexivity|apply IH]. Qed.
Lemma take_spec {X} (l : list X) perm : (forall p, In p perm -> p < length l) -> exists t, take l perm = Ok t /\ length t = length perm /\ forall i p, nth_error perm i = Some p -> nth_error t i = nth_error l p.
Proof.
induction perm as [|p perm IH]; intros H; cbn; [exists []; repeat split; intros [|i] q; discriminate|].
destruct (nth_error l p) as [x|] eqn:E; [|apply nth_error_None in E; specialize (H p (or_introl eq_refl)); lia].
destruct IH as (t & T & L & N); [auto with datatypes|]. rewrite T. exists (x :: t). split; [reflexivity|]. split; [cbn; congruence|]. intros [|i] q Q; cbn in Q |- *; [injection Q as <-; congruence|auto].
Qed.
Lemma map_nth_seq_l (l : list nat) d : map (fun i => nth i l d) (seq 0 (length l)) = l.
Proof.
induction l as [|a l IH]; [reflexivity|]. cbn [length seq map nth]. f_equal. rewrite <- seq_shift, map_map. exact IH.
Qed.
Lemma rsum_head f n : rsum f (S n) = (f O + rsum (fun i => f (S i)) n)%R.
Proof. induction n as [|n IH]; [cbn; lra|]. change (rsum f (S (S n))) with (rsum f (S n) + f (S n))%R. rewrite IH. cbn. lra. Qed.

Section Mixtures.
Context {M V : Type} (w2 : M * V -> M * V -> R) (lsa : nat -> (nat -> nat -> R) -> list nat).
Notation comps g := (combine (means g) (covs g)).
Notation at_cost a b := (match a, b with Some x, Some y => w2 x y | _, _ => 0%R end).
Lemma label_sum (g h : @gmm M V) K : shaped K g -> shaped K h -> label_cost w2 g h = rsum (fun i => at_cost (nth_error (comps g) i) (nth_error (comps h) i)) K.
Proof.
intros (_ & G2 & G3) (_ & H2 & H3). unfold label_cost. assert (LG : length (comps g) = K) by (rewrite combine_length; lia). assert (LH : length (comps h) = K) by (rewrite combine_length; lia).
revert LG LH. generalize (comps g) as l, (comps h) as m. clear. intros l. revert K. induction l as [|a l IH]; intros K [|b m] L1 L2; cbn in L1, L2; subst K; try discriminate; [reflexivity|].
rewrite rsum_head. cbn [combine map fold_right nth_error fst snd]. f_equal. apply IH; congruence.
Qed.
Lemma parts_comps (g h : @gmm M V) K i j : shaped K g -> shaped K h -> i < K -> nth_error (parts g) i = nth_error (parts h) j -> nth_error (comps g) i = nth_error (comps h) j.
Proof.
intros (G1 & G2 & G3) (H1 & H2 & H3) L E. unfold parts in E. rewrite !(nth_combine (weights _)) in E.
destruct (nth_error (weights g) i) eqn:W; [|apply nth_error_None in W; lia]. destruct (nth_error (comps g) i) eqn:C; [|apply nth_error_None in C; rewrite combine_length in C; lia].
destruct (nth_error (weights h) j), (nth_error (comps h) j); congruence.
Qed.
Lemma perm_lt perm K p : Permutation perm (seq 0 K) -> In p perm -> p < K.
Proof. intros P I. apply (Permutation_in _ P) in I. apply in_seq in I. lia. Qed.
Lemma align1_spec K ref cur : lsa_contract lsa -> shaped K ref -> shaped K cur -> exists a perm, align1 w2 lsa true ref cur = Ok (a, perm) /\ relabelled K perm cur a /\ best_match w2 K ref a.
Proof.
intros C SR SC. pose proof SR as (R1 & R2 & R3). pose proof SC as (C1 & C2 & C3). unfold align1, hungarian. rewrite R2, C2, R3, C3, Nat.eqb_refl, Nat.ltb_irrefl. cbn [negb].
set (f := fun i j : nat => _). destruct (C K f) as [P MIN]. set (perm := lsa K f) in *.
destruct (take_spec (means cur) perm) as (m & Tm & Lm & Nm); [intros p I; rewrite C2; exact (perm_lt _ _ _ P I)|].
destruct (take_spec (covs cur) perm) as (c & Tc & Lc & Nc); [intros p I; rewrite C3; exact (perm_lt _ _ _ P I)|].
destruct (take_spec (weights cur) perm) as (w & Tw & Lw & Nw); [intros p I; rewrite C1; exact (perm_lt _ _ _ P I)|].
rewrite Tm, Tc, Tw. set (a := {| weights := w; means := m; covs := c |}). exists a, perm. split; [reflexivity|].
assert (LP : length perm = K) by (rewrite (Permutation_length P); apply seq_length).
assert (RA : relabelled K perm cur a).
{ split; [exact P|]. split; [unfold shaped; cbn; lia|]. intros i p E. unfold parts, a. cbn [weights means covs]. rewrite !nth_combine, (Nm i p E), (Nc i p E), (Nw i p E). reflexivity. }
split; [exact RA|]. destruct RA as (_ & SA & NA). intros sigma h (PS & SH & NH). assert (LS : length sigma = K) by (rewrite (Permutation_length PS); apply seq_length).
set (perm2 := map (fun s => nth s perm 0) sigma).
assert (P2 : Permutation perm2 (seq 0 K)). { unfold perm2. rewrite (Permutation_map _ PS), <- LP, map_nth_seq_l, LP. exact P. }
assert (F : forall i j, i < K -> f i j = at_cost (nth_error (comps ref) i) (nth_error (comps cur) j)).
{ intros i j L. unfold f. rewrite !nth_combine. destruct (nth_error (means ref) i), (nth_error (covs ref) i), (nth_error (means cur) j), (nth_error (covs cur) j); reflexivity. }
assert (NE : forall (l : list nat) i, i < length l -> nth_error l i = Some (nth i l 0)) by (intros l i L; apply nth_error_nth'; exact L).
rewrite (label_sum ref a K SR SA), (label_sum ref h K SR SH).
rewrite (rsum_ext _ (fun i => f i (nth i perm 0)) K), (rsum_ext (fun i => at_cost (nth_error (comps ref) i) (nth_error (comps h) i)) (fun i => f i (nth i perm2 0)) K); [exact (MIN perm2 P2)| |].
- intros i L. rewrite F by exact L. assert (S1 : nth i sigma 0 < K) by (apply (perm_lt sigma); [exact PS|apply nth_In; lia]).
  assert (E2 : nth i perm2 0 = nth (nth i sigma 0) perm 0). { unfold perm2. rewrite (nth_indep _ 0 (nth 0 perm 0)) by (rewrite map_length; lia). rewrite (map_nth (fun s => nth s perm 0)). reflexivity. }
  rewrite E2. f_equal. assert (H1 := NH i _ (NE sigma i ltac:(lia))). assert (H2 := NA _ _ (NE perm (nth i sigma 0) ltac:(lia))). rewrite H2 in H1. rewrite (parts_comps h cur K i _ SH SC L H1). reflexivity.
- intros i L. rewrite F by exact L. assert (H2 := NA _ _ (NE perm i ltac:(lia))). rewrite (parts_comps a cur K i _ SA SC L H2). reflexivity.
Qed.
Lemma relabelled_id K (g : @gmm M V) : shaped K g -> relabelled K (seq 0 K) g g.
Proof.
intros S. split; [reflexivity|]. split; [exact S|]. intros i p E. assert (L : i < K) by (rewrite <- (seq_length K 0); apply nth_error_Some; congruence).
assert (E2 : nth_error (seq 0 K) i = Some i). { rewrite (nth_error_nth' _ 0) by (rewrite seq_length; exact L). rewrite seq_nth by exact L. reflexivity. } congruence.
Qed.

(** ** along the sequence *)
Lemma rest_spec K prev : lsa_contract lsa -> forall (l : list (@gmm M V)) ref, shaped K ref -> Forall (shaped K) l ->
  exists al pl, align_rest w2 lsa true prev ref l = Ok (al, pl) /\ length al = length l /\ length pl = length l /\
  forall i g, nth_error l i = Some g -> exists a perm r, nth_error al i = Some a /\ nth_error pl i = Some perm /\ relabelled K perm g a /\ best_match w2 K r a /\
    nth_error (if prev then ref :: al else repeat ref (length l)) i = Some r.
Proof.
intros C l. induction l as [|g l IH]; intros ref SR F; [exists [], []; repeat split; intros [|i] g; discriminate|].
inversion F as [|? ? SG F']; subst. destruct (align1_spec K ref g C SR SG) as (a & perm & E & RA & BM). cbn [align_rest]. rewrite E.
destruct (IH (if prev then a else ref)) as (al & pl & E2 & L1 & L2 & H); [destruct prev; [apply RA|exact SR]|exact F'|]. rewrite E2. exists (a :: al), (perm :: pl). split; [reflexivity|]. split; [cbn; congruence|]. split; [cbn; congruence|].
intros [|i] g' G; cbn in G.
- injection G as <-. exists a, perm, ref. split; [reflexivity|]. split; [reflexivity|]. split; [exact RA|]. split; [exact BM|]. destruct prev; reflexivity.
- destruct (H i g' G) as (a' & p' & r & H1 & H2 & H3 & H4 & H5). exists a', p', r. split; [exact H1|]. split; [exact H2|]. split; [exact H3|]. split; [exact H4|]. destruct prev; [exact H5|]. exact H5.
Qed.

(** ** along the tree *)
Lemma before_done done c r p : NoDup (done ++ c :: r) -> before (done ++ c :: r) p c -> In p done.
Proof.
induction done as [|x done IH]; intros N B.
- cbn in B, N. inversion N; subst. destruct B as [[-> B]|B]; [contradiction|]. apply before_in in B as [_ B]. contradiction.
- cbn in B, N. inversion N; subst. destruct B as [[-> B]|B]; [left; reflexivity|right; auto].
Qed.
Section Tree.
Context (K : nat) (gs : list (@gmm M V)) (root : nat) (ps : nat -> parent) (C : lsa_contract lsa) (SG : forall i, i < length gs -> shaped K (nth i gs empty_gmm)).
Record good (s : list nat) (al : nat -> option (@gmm M V)) (pl : nat -> option (list nat)) : Prop := {
  g_in : forall i, In i s -> exists a perm, al i = Some a /\ pl i = Some perm /\ relabelled K perm (nth i gs empty_gmm) a /\
    ((i = root /\ a = nth root gs empty_gmm /\ perm = seq 0 K) \/ exists p ref, ps i = Par p /\ al p = Some ref /\ best_match w2 K ref a);
  g_out : forall i, ~ In i s -> al i = None /\ pl i = None }.
Lemma propagate_spec children : forall done al pl, NoDup (done ++ children) -> (forall c, In c children -> c < length gs /\ exists p, ps c = Par p /\ before (done ++ children) p c) -> good done al pl ->
  exists al' pl', propagate w2 lsa true gs ps children al pl = Ok (al', pl') /\ good (done ++ children) al' pl'.
Proof.
induction children as [|c r IH]; intros done al pl N P G; [exists al, pl; rewrite app_nil_r; auto|].
destruct (P c (or_introl eq_refl)) as (Lc & p & Ep & Bp). assert (Ip := before_done _ _ _ _ N Bp). assert (Nc : ~ In c done) by (apply NoDup_remove_2 in N; intros H; apply N, in_or_app; auto).
destruct (g_in _ _ _ G p Ip) as (ref & pp & Ar & _ & (_ & SR & _) & _). cbn [propagate]. rewrite Ep, Ar.
destruct (align1_spec K ref (nth c gs empty_gmm) C SR (SG c Lc)) as (a & perm & E & RA & BM). rewrite E.
replace (done ++ c :: r) with ((done ++ [c]) ++ r) in * by (rewrite <- app_assoc; reflexivity).
apply IH; [exact N|intros c' H; apply P; right; exact H|]. assert (ST : forall q x, al q = Some x -> assign al c a q = Some x).
{ intros q x E'. unfold assign. destruct (Nat.eqb_spec q c) as [->|_]; [|exact E']. destruct (g_out _ _ _ G c Nc). congruence. }
constructor.
- intros i H. apply in_app_or in H as [H|[<-|[]]].
  + destruct (g_in _ _ _ G i H) as (a' & p' & H1 & H2 & H3 & H4). exists a', p'. split; [auto|]. split; [unfold assign; destruct (Nat.eqb_spec i c) as [->|_]; [contradiction|exact H2]|]. split; [exact H3|].
    destruct H4 as [H4|(q & rf & Q1 & Q2 & Q3)]; [left; exact H4|right; exists q, rf; auto].
  + exists a, perm. unfold assign at 1 2. rewrite Nat.eqb_refl. split; [reflexivity|]. split; [reflexivity|]. split; [exact RA|]. right. exists p, ref. auto.
- intros i H. assert (i <> c /\ ~ In i done) as [H1 H2] by (split; intros X; apply H, in_or_app; [right; left; congruence|left; exact X]).
  unfold assign. destruct (Nat.eqb_spec i c); [contradiction|]. apply (g_out _ _ _ G); exact H2.
Qed.
End Tree.
End Mixtures.

(** ** the tree of the inputs *)
Section Inputs.
Context (d n : nat) (x : nat -> nat -> R) (mst : nat -> (nat -> nat -> R) -> nat -> nat -> R) (MC : mst_contract mst).
Lemma dist_pos i j : (0 <= dist d x i j)%R.
Proof. apply sqrt_pos. Qed.
Lemma sq_sum_zero (f : nat -> R) (m : nat) : (forall k, k < m -> (f k * f k = 0)%R) <-> rsum (fun k => f k * f k)%R m = 0%R.
Proof.
assert (P : forall m, (0 <= rsum (fun k => f k * f k)%R m)%R) by (intros; apply rsum_nonneg; intros; apply Rle_0_sqr). split.
- intros H. induction m as [|m IH]; [reflexivity|]. cbn. rewrite IH, H by auto. lra.
- induction m as [|m IH]; [lia|]. cbn. intros H k L. assert (P1 := P m). assert (P2 := Rle_0_sqr (f m)). unfold Rsqr in P2. destruct (Nat.eq_dec k m) as [->|N]; [lra|apply IH; [lra|lia]].
Qed.
Lemma dist_zero i j : dist d x i j = 0%R <-> same_input d x i j.
Proof.
unfold dist, norm2, same_input. split.
- intros H k L. apply sqrt_eq_0 in H; [|apply rsum_nonneg; intros; apply Rle_0_sqr]. rewrite <- sq_sum_zero in H. specialize (H k L). apply Rsqr_0_uniq in H. lra.
- intros H. rewrite (proj1 (sq_sum_zero (fun k => x i k - x j k)%R d)); [apply sqrt_0|]. intros k L. rewrite (H k L). lra.
Qed.
Notation adj := (adjacency mst d n x).
Lemma adj_cases u v : u < n -> v < n -> (adj u v = 0 \/ adj u v = dist d x u v)%R.
Proof.
intros U V. destruct (MC n (dist d x) dist_pos) as (M1 & M2 & _). unfold adjacency.
assert (DS : dist d x v u = dist d x u v) by (unfold dist, norm2; f_equal; apply rsum_ext; intros; lra).
destruct (Req_dec (mst n (dist d x) u v) 0) as [E|E].
- rewrite E. destruct (M1 v u V U) as [->| ->]; [left; lra|right; rewrite DS; lra].
- rewrite (M2 u v U V E). destruct (M1 u v U V) as [E'| ->]; [contradiction|right; lra].
Qed.
Lemma adj_linked u v : linked n (mst n (dist d x)) u v -> positive (adj u v) = true.
Proof.
intros (U & V & E). unfold positive. destruct (MC n (dist d x) dist_pos) as (M1 & _ & _). destruct (Rlt_dec 0 (adj u v)) as [_|H]; [reflexivity|exfalso]. apply H. unfold adjacency.
assert (A : (0 <= mst n (dist d x) u v)%R) by (destruct (M1 u v U V) as [->| ->]; [lra|apply dist_pos]).
assert (B : (0 <= mst n (dist d x) v u)%R) by (destruct (M1 v u V U) as [->| ->]; [lra|apply dist_pos]). lra.
Qed.
Lemma inputs_connected a b : a < n -> b < n -> ~ same_input d x a b -> forall i j, i < n -> j < n -> connected n (mst n (dist d x)) i j.
Proof.
intros A B D. destruct (MC n (dist d x) dist_pos) as (_ & _ & M3).
assert (L : forall i j, i < n -> j < n -> ~ same_input d x i j -> connected n (mst n (dist d x)) i j) by (intros i j I J H; apply M3; split; [exact I|]; split; [exact J|]; left; rewrite dist_zero; exact H).
assert (DEC : forall i j, {same_input d x i j} + {~ same_input d x i j}). { intros i j. destruct (Req_EM_T (dist d x i j) 0) as [E|E]; rewrite dist_zero in E; auto. }
intros i j I J. destruct (DEC i j) as [S|S]; [|auto].
assert (X : exists k, k < n /\ ~ same_input d x i k). { destruct (DEC i a) as [S1|S1]; [|exists a; auto]. exists b. split; [exact B|]. intros S2. apply D. intros k Hk. rewrite <- (S1 k Hk). auto. }
destruct X as (k & Kn & NK). eapply rt_trans; [apply (L i k); auto|]. apply L; auto. intros S3. apply NK. intros m Hm. rewrite (S m Hm). symmetry. auto.
Qed.
Lemma root_in_range : 0 < n -> choose_root d n x < n.
Proof.
intros N. unfold choose_root. set (l := map _ _). assert (L : length l = n) by (unfold l; rewrite map_length, seq_length; reflexivity).
destruct (argmin_spec l) as [H _]; [intros E; rewrite E in L; cbn in L; lia|rewrite L in H; exact H].
Qed.
Lemma build_spec fuel root : 1 < n -> n <= fuel -> (match root with None => True | Some r => (0 <= r < Z.of_nat n)%Z end) ->
  exists t, build_mst mst d fuel n x root = Some (Ok t) /\ t_root t = match root with None => choose_root d n x | Some r => Z.to_nat r end /\ t_root t < n /\ t_adj t = adj /\
    inv n (fun u v => positive (adj u v)) (t_root t) (t_parents t) (t_order t) [].
Proof.
intros N F R. unfold build_mst. destruct (Nat.eqb_spec n 0); [lia|]. set (r := match root with None => Z.of_nat (choose_root d n x) | Some r => r end).
assert (RR : (0 <= r < Z.of_nat n)%Z) by (unfold r; destruct root; [exact R|]; assert (H := root_in_range ltac:(lia)); lia).
destruct (Z.ltb_spec r 0); [lia|]. destruct (Z.leb_spec (Z.of_nat n) r); [lia|]. cbn [orb]. destruct (Nat.eqb_spec n 1); [lia|].
destruct (search_spec n (fun u v => positive (adj u v)) (fun u v w => pair_le (adj u v) (adj u w) v w) (Z.to_nat r) fuel) as (o & ps & E & I); [lia|exact F|]. rewrite E.
eexists. split; [reflexivity|]. cbn. split; [unfold r; destruct root; [reflexivity|apply Nat2Z.id]|]. split; [lia|]. split; [reflexivity|exact I].
Qed.
Lemma all_reached ps order root a b : inv n (fun u v => positive (adj u v)) root ps order [] -> root < n -> a < n -> b < n -> ~ same_input d x a b -> forall v, v < n -> In v order.
Proof.
intros I R A B D v L. apply (inv_reach _ _ _ _ _ I). assert (H := inputs_connected a b A B D root v R L).
clear -H MC. induction H as [u w H|u|u w z _ IH1 _ IH2]; [apply rt_step|apply rt_refl|eapply rt_trans; eassumption]. split; [apply H|]. split; [apply H|]. apply adj_linked. exact H.
Qed.
(** when all inputs coincide there is no edge *)
Lemma none_reached ps order root : inv n (fun u v => positive (adj u v)) root ps order [] -> (forall i j, i < n -> j < n -> same_input d x i j) -> order = [root].
Proof.
intros I S. destruct I as [I1 I2 I3 I4 I5 I6 I7]. rewrite app_nil_r in *.
assert (A : forall v, In v order -> v = root). { intros v H. destruct (Nat.eq_dec v root) as [E|E]; [exact E|exfalso]. destruct (I6 v H E) as (u & _ & B & P). apply before_in in B as [B _].
  unfold positive in P. destruct (Rlt_dec 0 (adj u v)) as [Q|]; [|discriminate]. destruct (adj_cases u v (I3 u B) (I3 v H)) as [Z|Z]; [lra|]. assert (D : dist d x u v = 0%R) by (apply dist_zero; auto). lra. }
destruct order as [|r [|s o]]; [discriminate| |].
- cbn in I4. congruence.
- exfalso. inversion I1; subst. apply H1. left. rewrite (A s) by (right; left; reflexivity). symmetry. apply A. left. reflexivity.
Qed.
End Inputs.

(** ** the contracts can be met *)
Fixpoint ins_all (a : nat) (l : list nat) : list (list nat) := match l with [] => [[a]] | b :: r => (a :: l) :: map (cons b) (ins_all a r) end.
Fixpoint perms (l : list nat) : list (list nat) := match l with [] => [[]] | a :: r => flat_map (ins_all a) (perms r) end.
Lemma ins_in a p q : In (p ++ a :: q) (ins_all a (p ++ q)).
Proof. induction p as [|b p IH]; [destruct q; left; reflexivity|]. right. exact (in_map (cons b) _ _ IH). Qed.
Lemma ins_perm a l : forall p, In p (ins_all a l) -> Permutation p (a :: l).
Proof. induction l as [|b l IH]; cbn; intros p [<-|H]; try reflexivity; [contradiction|]. apply in_map_iff in H as (q & <- & H). rewrite (IH q H). apply perm_swap. Qed.
Lemma perms_complete l : forall p, Permutation p l -> In p (perms l).
Proof.
induction l as [|a l IH]; intros p P; [apply Permutation_sym, Permutation_nil in P as ->; left; reflexivity|].
assert (I : In a p) by (apply (Permutation_in _ (Permutation_sym P)); left; reflexivity). apply in_split in I as (p1 & p2 & ->). cbn. apply in_flat_map. exists (p1 ++ p2). split; [|apply ins_in].
apply IH. apply Permutation_sym in P. apply Permutation_cons_app_inv in P. apply Permutation_sym. exact P.
Qed.
Lemma perms_sound l : forall p, In p (perms l) -> Permutation p l.
Proof. induction l as [|a l IH]; cbn; intros p H; [destruct H as [<-|[]]; reflexivity|]. apply in_flat_map in H as (q & Q & H). rewrite (ins_perm _ _ _ H), (IH q Q). reflexivity. Qed.
Fixpoint best (f : list nat -> R) (b : list nat) (l : list (list nat)) : list nat := match l with [] => b | p :: r => if Rlt_dec (f p) (f b) then best f p r else best f b r end.
Lemma best_spec f l : forall b, (best f b l = b \/ In (best f b l) l) /\ (f (best f b l) <= f b)%R /\ forall p, In p l -> (f (best f b l) <= f p)%R.
Proof.
induction l as [|p l IH]; intros b; cbn; [repeat split; auto; [lra|easy]|]. destruct (Rlt_dec (f p) (f b)) as [H|H].
- destruct (IH p) as ([E|E] & L & A); (split; [|split; [lra|intros q [<-|Q]; [lra|auto]]]); [right; left; congruence|right; right; exact E].
- destruct (IH b) as ([E|E] & L & A); (split; [|split; [lra|intros q [<-|Q]; [lra|auto]]]); [left; exact E|right; right; exact E].
Qed.
Definition lsa_any (K : nat) (cost : nat -> nat -> R) : list nat := best (total_cost K cost) (seq 0 K) (perms (seq 0 K)).
Lemma lsa_any_contract : lsa_contract lsa_any.
Proof.
intros K cost. unfold lsa_any. destruct (best_spec (total_cost K cost) (perms (seq 0 K)) (seq 0 K)) as ([E|E] & L & A).
- rewrite E in *. split; [reflexivity|]. intros p P. apply A. apply perms_complete. exact P.
- split; [apply perms_sound; exact E|]. intros p P. apply A. apply perms_complete. exact P.
Qed.
Definition mst_any (n : nat) (a : nat -> nat -> R) (i j : nat) : R := if i <? j then a i j else if Req_EM_T (a j i) 0 then a i j else 0%R.
Lemma mst_any_contract : mst_contract mst_any.
Proof.
intros n a P. unfold mst_any. split; [|split].
- intros i j _ _. destruct (i <? j); [right; reflexivity|]. destruct (Req_EM_T (a j i) 0); auto.
- intros i j _ _. destruct (Nat.ltb_spec i j), (Nat.ltb_spec j i); try lia.
  + intros H1. destruct (Req_EM_T (a i j) 0); [contradiction|reflexivity].
  + destruct (Req_EM_T (a j i) 0); congruence.
  + assert (i = j) as -> by lia. destruct (Req_EM_T (a j j) 0); congruence.
- intros i j (I & J & H). destruct (Nat.eq_dec i j) as [<-|NE]; [apply rt_refl|]. apply rt_step. split; [exact I|]. split; [exact J|]. destruct (Nat.ltb_spec i j), (Nat.ltb_spec j i); try lia.
  + destruct (Req_EM_T (a i j) 0); [right|left]; intuition congruence.
  + destruct (Req_EM_T (a j i) 0); [left|right]; intuition congruence.
Qed.
