From Verif Require Import Model.Prelude Model.Gp2Scale Spec.Gp2ScaleSpec.
From Coq Require Import Sorting.Sorted.
Local Open Scope nat_scope.

(** * ranges *)
Lemma clamp1_pos b : 1 <= clamp1 b.
Proof. unfold clamp1. lia. Qed.
Lemma clamp1_nat n : 1 <= n -> clamp1 (Z.of_nat n) = n.
Proof. unfold clamp1. lia. Qed.

Lemma ceil_bounds n b : 1 <= b -> let m := (n + b - 1) / b in n <= m * b /\ (forall k, k < m -> k * b < n).
Proof.
  intros Hb. cbv zeta. pose proof (Nat.div_mod (n + b - 1) b ltac:(lia)) as E.
  pose proof (Nat.mod_upper_bound (n + b - 1) b ltac:(lia)) as U. set (m := (n + b - 1) / b) in *.
  split; [nia|]. intros k Hk. nia.
Qed.

Lemma ranges_chain n batch : let b := clamp1 batch in
  chain 0 (ranges n batch) n /\ forall r, In r (ranges n batch) -> snd r - fst r <= b.
Proof.
  cbv zeta. set (b := clamp1 batch). pose proof (clamp1_pos batch) as Hb. fold b in Hb.
  unfold ranges, range_starts. fold b. set (m := (n + b - 1) / b).
  destruct (ceil_bounds n b Hb) as [C1 C2]. fold m in C1, C2. split.
  - rewrite map_map.
    assert (G : forall c k, k + c = m -> chain (Nat.min (k * b) n) (map (fun i => (i * b, Nat.min (i * b + b) n)) (seq k c)) n).
    { induction c as [|c IH]; intros k Hk.
      - cbn. assert (k = m) by lia. subst k. lia.
      - cbn. pose proof (C2 k ltac:(lia)). split; [lia|]. split; [lia|].
        specialize (IH (S k) ltac:(lia)). cbn in IH. replace (k * b + b) with (b + k * b) by lia. exact IH. }
    specialize (G m 0 eq_refl). cbn [Nat.mul] in G. rewrite Nat.min_0_l in G. exact G.
  - intros r Hr. apply in_map_iff in Hr as (s & <- & _). cbn. lia.
Qed.

Lemma chain_bounds l : forall a n, chain a l n -> a <= n /\ forall r, In r l -> a <= fst r /\ fst r < snd r /\ snd r <= n.
Proof.
  induction l as [|[s e] l IH]; cbn; intros a n H; [subst; split; [lia|tauto]|].
  destruct H as (-> & H1 & H2). destruct (IH _ _ H2) as [H3 H4]. split; [lia|].
  intros r [<-|Hr]; cbn; [lia|]. specialize (H4 r Hr). lia.
Qed.

Lemma chain_pick l : forall a n i, chain a l n -> a <= i < n ->
  exists l1 r l2, l = l1 ++ r :: l2 /\ fst r <= i < snd r /\
    forall q, In q (l1 ++ l2) -> ~ (fst q <= i < snd q).
Proof.
  induction l as [|[s e] l IH]; cbn; intros a n i H Hi; [lia|].
  destruct H as (-> & H1 & H2). destruct (Nat.lt_ge_cases i e).
  - exists [], (a, e), l. repeat split; cbn; try lia. intros q Hq.
    pose proof (proj2 (chain_bounds _ _ _ H2) q Hq). lia.
  - destruct (IH e n i H2 ltac:(lia)) as (l1 & r & l2 & -> & Hr & Hq).
    exists ((a, e) :: l1), r, l2. repeat split; try lia. intros q [<-|Hin]; cbn; [lia|auto].
Qed.

Lemma chain_sorted l : forall a n, chain a l n -> StronglySorted lt (map fst l).
Proof.
  induction l as [|[s e] l IH]; cbn; intros a n H; [constructor|].
  destruct H as (-> & H1 & H2). constructor; [eapply IH; eauto|].
  apply Forall_forall. intros x Hx. apply in_map_iff in Hx as (r & <- & Hr).
  pose proof (proj2 (chain_bounds _ _ _ H2) r Hr). lia.
Qed.

Lemma cast_id dt z n1 n2 : dt = index_dtype_for n1 n2 -> (Z.of_nat n1 < 2 ^ 63)%Z -> (Z.of_nat n2 < 2 ^ 63)%Z ->
  (0 <= z < Z.of_nat (Nat.max n1 n2) \/ z = 0)%Z -> cast dt z = z.
Proof.
  intros -> H1 H2 H3. unfold cast, index_dtype_for.
  destruct (Z.ltb_spec (Z.of_nat (Nat.max n1 n2)) (2 ^ 31)); cbn [bits];
    [change (32 - 1)%Z with 31%Z|change (64 - 1)%Z with 63%Z]; rewrite Z.mod_small; lia.
Qed.

Ltac eqbs := repeat match goal with |- context [Z.eqb ?a ?b] => destruct (Z.eqb_spec a b) end; cbn [andb]; try reflexivity; try lia.
Arguments Gp2ScaleSpec.get : simpl never.
Section S.
  Context {P H F : Type} (f0 : F) (fadd : F -> F -> F) (isz : F -> bool).
  Hypothesis Hcomm : forall a b, fadd a b = fadd b a.
  Hypothesis Hassoc : forall a b c, fadd a (fadd b c) = fadd (fadd a b) c.
  Hypothesis H0 : forall a, fadd f0 a = a.
  Hypothesis Hz : forall v, isz v = true <-> v = f0.
  Notation fsum := (fsum f0 fadd).
  Notation get := (get f0 fadd).
  Notation trip := (@trip F).
  Notation spm := (@spm F).
  Notation is_matrix := (is_matrix f0 fadd).

  Lemma H0r a : fadd a f0 = a. Proof. now rewrite Hcomm. Qed.
  Lemma fsum_app a b : fsum (a ++ b) = fadd (fsum a) (fsum b).
  Proof. induction a as [|x a IH]; cbn; [now rewrite H0|]. now rewrite IH, Hassoc. Qed.
  Lemma fsum_perm a b : Permutation a b -> fsum a = fsum b.
  Proof.
    induction 1; cbn; congruence.
  Qed.
  Lemma fsum_zero {A} (f : A -> F) l : (forall x, In x l -> f x = f0) -> fsum (map f l) = f0.
  Proof. induction l as [|x l IH]; cbn; intros; [reflexivity|]. rewrite H1, IH, H0; auto. Qed.
  Lemma fsum_single {A} (f : A -> F) l1 r l2 : (forall x, In x (l1 ++ l2) -> f x = f0) ->
    fsum (map f (l1 ++ r :: l2)) = f r.
  Proof.
    intros Hx. rewrite map_app, fsum_app. cbn. rewrite !fsum_zero.
    - now rewrite H0, H0r.
    - intros; apply Hx, in_or_app; auto.
    - intros; apply Hx, in_or_app; auto.
  Qed.
  Lemma fsum_prod {A B} (f : A * B -> F) la lb :
    fsum (map f (list_prod la lb)) = fsum (map (fun a => fsum (map (fun b => f (a, b)) lb)) la).
  Proof.
    induction la as [|a la IH]; cbn; [reflexivity|].
    rewrite map_app, fsum_app, IH, map_map. reflexivity.
  Qed.
  Lemma fsum_filter {A} (f : A -> F) p l : fsum (map f (filter p l)) = fsum (map (fun x => if p x then f x else f0) l).
  Proof. induction l as [|x l IH]; cbn; [reflexivity|]. destruct (p x); cbn; rewrite IH, ?H0; reflexivity. Qed.
  Lemma fsum_add {A} (f g : A -> F) l : fsum (map (fun x => fadd (f x) (g x)) l) = fadd (fsum (map f l)) (fsum (map g l)).
  Proof.
    induction l as [|x l IH]; cbn; [now rewrite H0|]. rewrite IH, <- !Hassoc. f_equal. rewrite !Hassoc. f_equal. apply Hcomm.
  Qed.

  Definition at_ (i j : nat) (t : trip) : bool := Z.eqb (tr t) (Z.of_nat i) && Z.eqb (tc t) (Z.of_nat j).
  Lemma get_app a b i j : get (a ++ b) i j = fadd (get a i j) (get b i j).
  Proof. unfold Gp2ScaleSpec.get. now rewrite filter_app, map_app, fsum_app. Qed.
  Lemma get_concat ls i j : get (concat ls) i j = fsum (map (fun l => get l i j) ls).
  Proof. induction ls as [|l ls IH]; cbn; [reflexivity|]. now rewrite get_app, IH. Qed.
  Lemma get_cons t l i j : get (t :: l) i j = fadd (if at_ i j t then td t else f0) (get l i j).
  Proof. unfold Gp2ScaleSpec.get, at_. cbn. destruct (_ && _)%bool; cbn; now rewrite ?H0. Qed.
  Lemma get_none l i j : (forall t, In t l -> at_ i j t = false) -> get l i j = f0.
  Proof. induction l as [|t l IH]; intros Hn; [reflexivity|]. rewrite get_cons, Hn, H0; [apply IH; intros; apply Hn|]; cbn; auto. Qed.
  Lemma get_out r c l i j : in_shape r c l -> r <= i \/ c <= j -> get l i j = f0.
  Proof. intros Hs Ho. apply get_none. intros t Ht. specialize (Hs t Ht). unfold at_. lia. Qed.
  (** relocating triplets *)
  Lemma get_map (f : trip -> trip) l i j i' j' : (forall t, In t l -> td (f t) = td t) ->
    (forall t, In t l -> at_ i j (f t) = at_ i' j' t) -> get (map f l) i j = get l i' j'.
  Proof.
    induction l as [|t l IH]; intros Hd Hp; [reflexivity|]. cbn [map]. rewrite !get_cons.
    rewrite (Hp t), (Hd t), IH; [reflexivity|..]; intros; auto with datatypes.
  Qed.
  Lemma get_filter p l i j : get (filter p l) i j = fsum (map (fun t => if p t && at_ i j t then td t else f0) l).
  Proof.
    induction l as [|t l IH]; [reflexivity|]. cbn [filter map]. destruct (p t); cbn [andb Gp2ScaleSpec.fsum];
    rewrite ?get_cons, IH; [reflexivity|]. now rewrite H0.
  Qed.
  Lemma get_fsum l i j : get l i j = fsum (map (fun t => if at_ i j t then td t else f0) l).
  Proof. induction l as [|t l IH]; [reflexivity|]. rewrite get_cons, IH. reflexivity. Qed.

  (** * dense blocks *)
  Lemma dense_row s (r : list F) z i j :
    get (map (fun q => let '(c, v) := q in T v (Z.of_nat z) (Z.of_nat c))
             (filter (fun q => negb (isz (snd q))) (combine (seq s (length r)) r))) i j
    = if (z =? i) && (s <=? j) then nth (j - s) r f0 else f0.
  Proof.
    revert s. induction r as [|v r IH]; intros s; cbn [length seq combine filter map].
    - destruct ((z =? i) && (s <=? j)); [now destruct (j - s)|reflexivity].
    - cbn [snd]. destruct (isz v) eqn:E; cbn [negb map]; rewrite ?get_cons, IH; unfold at_; cbn [td tr tc].
      + apply Hz in E. subst v. destruct (Nat.eqb_spec z i); cbn [andb]; [|reflexivity].
        destruct (Nat.leb_spec (S s) j), (Nat.leb_spec s j); try lia; [|replace (j - s) with 0 by lia; reflexivity|reflexivity].
        replace (j - s) with (S (j - S s)) by lia. reflexivity.
      + destruct (Nat.eqb_spec z i).
        * subst z. rewrite Z.eqb_refl. cbn [andb].
          destruct (Z.eqb_spec (Z.of_nat s) (Z.of_nat j)).
          -- assert (s = j) by lia. subst s. rewrite Nat.leb_refl, Nat.sub_diag.
             destruct (Nat.leb_spec (S j) j); [lia|]. cbn [nth]. now rewrite H0r.
          -- rewrite H0. destruct (Nat.leb_spec (S s) j), (Nat.leb_spec s j); try lia; [|reflexivity].
             replace (j - s) with (S (j - S s)) by lia. reflexivity.
        * destruct (Z.eqb_spec (Z.of_nat z) (Z.of_nat i)); [lia|]. cbn [andb]. now rewrite H0.
  Qed.
  Lemma dense_get_s s rows i j :
    get (concat (map (fun p => let '(z, r) := p in
              map (fun q => let '(c, v) := q in T v (Z.of_nat z) (Z.of_nat c))
                  (filter (fun q => negb (isz (snd q))) (combine (seq 0 (length r)) r)))
            (combine (seq s (length rows)) rows))) i j
    = if s <=? i then nth j (nth (i - s) rows []) f0 else f0.
  Proof.
    revert s. induction rows as [|r rows IH]; intros s; cbn [length seq combine map concat].
    - destruct (s <=? i); [|reflexivity]. destruct (i - s); now destruct j.
    - rewrite get_app, dense_row, IH. change (0 <=? j) with true. rewrite andb_true_r, Nat.sub_0_r.
      destruct (Nat.eqb_spec s i).
      + subst i. destruct (Nat.leb_spec (S s) s); [lia|]. rewrite Nat.leb_refl, Nat.sub_diag. now rewrite H0r.
      + rewrite H0. destruct (Nat.leb_spec (S s) i), (Nat.leb_spec s i); try lia; [|reflexivity].
        replace (i - s) with (S (i - S s)) by lia. reflexivity.
  Qed.
  Lemma dense_get rows i j : get (dense_trips isz rows) i j = nth j (nth i rows []) f0.
  Proof. unfold dense_trips. rewrite dense_get_s. cbn [Nat.leb]. now rewrite Nat.sub_0_r. Qed.
  Lemma dense_shape rows c : (forall r, In r rows -> length r = c) -> in_shape (length rows) c (dense_trips isz rows).
  Proof.
    intros Hc t Ht. unfold dense_trips in Ht. apply in_concat in Ht as (l & Hl & Ht).
    apply in_map_iff in Hl as ([z r] & <- & Hp). apply in_map_iff in Ht as ([q v] & <- & Hq).
    apply filter_In in Hq as [Hq _]. pose proof (in_combine_r _ _ _ _ Hp) as Hr. apply Hc in Hr.
    apply in_combine_l in Hp. apply in_combine_l in Hq. apply in_seq in Hp. apply in_seq in Hq. cbn [tr tc]. lia.
  Qed.

  (** * one kernel call *)
  Variable kernel : list P -> list P -> H -> res cexn (@kout F).
  Variable k : P -> P -> H -> F.
  Hypothesis Hk : kernel_is f0 fadd kernel k.
  Notation cov := (cov f0 k).

  Definition kents (o : @kout F) : list trip := match o with KDense _ rows => dense_trips isz rows | KSparse m => ents m end.
  Lemma kernel_ents xs ys h o : kernel xs ys h = Ok o ->
    in_shape (length xs) (length ys) (kents o) /\
    forall i j, i < length xs -> j < length ys -> get (kents o) i j = cov xs ys h i j.
  Proof.
    intros E. specialize (Hk _ _ _ _ E). destruct o as [c rows|m]; cbn [kents].
    - destruct Hk as (_ & L & R & G). split.
      + rewrite <- L. now apply dense_shape.
      + intros. rewrite dense_get. auto.
    - destruct Hk as (_ & _ & S & G). auto.
  Qed.
  Lemma as_csr_matrix xs ys h o : kernel xs ys h = Ok o -> is_matrix (as_csr isz o) (length xs) (length ys) (cov xs ys h).
  Proof.
    intros E. destruct (kernel_ents _ _ _ _ E) as [S G]. specialize (Hk _ _ _ _ E). destruct o as [c rows|m]; cbn in *.
    - destruct Hk as (-> & L & R & _). rewrite L in *. repeat split; auto; try apply (S t); auto.
    - destruct Hk as (L1 & L2 & _). repeat split; auto; apply (S t); auto.
  Qed.

  Lemma nth_error_slice (x : list P) s e i : e <= length x -> i < e - s -> nth_error (slice s e x) i = nth_error x (s + i).
  Proof.
    intros He Hi. unfold slice.
    assert (forall (l : list P) n, i < n -> nth_error (firstn n l) i = nth_error l i) as ->; try lia.
    { clear. intros l n. revert l i. induction n; intros l i Hi; [lia|]. destruct l; [reflexivity|]. destruct i; [reflexivity|].
      cbn. apply IHn. lia. }
    clear. revert x. induction s as [|s IH]; intros x; [reflexivity|]. destruct x; [now destruct i|]. apply IH.
  Qed.
  Lemma slice_len (x : list P) s e : s <= e -> e <= length x -> length (slice s e x) = e - s.
  Proof. intros. unfold slice. rewrite firstn_length, skipn_length. lia. Qed.
  Lemma slice_all (x : list P) : slice 0 (length x) x = x.
  Proof. unfold slice. cbn [skipn]. rewrite Nat.sub_0_r. apply firstn_all. Qed.
  Lemma cov_slice x1 x2 s e s' e' h i j : e <= length x1 -> e' <= length x2 -> i < e - s -> j < e' - s' ->
    cov (slice s e x1) (slice s' e' x2) h i j = cov x1 x2 h (s + i) (s' + j).
  Proof. intros. unfold Gp2ScaleSpec.cov. now rewrite !nth_error_slice by assumption. Qed.

  (** * index types *)
  Variables n1 n2 : nat.
  Hypothesis B1 : (Z.of_nat n1 < 2 ^ 63)%Z.
  Hypothesis B2 : (Z.of_nat n2 < 2 ^ 63)%Z.
  Notation dt := (index_dtype_for n1 n2).
  Notation castt := (fun t : trip => T (td t) (cast dt (tr t)) (cast dt (tc t))).

  Lemma cast_ents l : in_shape n1 n2 l \/ in_shape n2 n1 l \/ in_shape n1 n1 l -> map castt l = l.
  Proof.
    intros Hs. rewrite <- (map_id l) at 2. apply map_ext_in. intros t Ht. destruct t as [d r c].
    assert ((0 <= r < Z.of_nat (Nat.max n1 n2)) /\ (0 <= c < Z.of_nat (Nat.max n1 n2)))%Z.
    { destruct Hs as [Hs|[Hs|Hs]]; specialize (Hs _ Ht); cbn in Hs; lia. }
    cbn. rewrite !(cast_id dt _ n1 n2) by (auto; lia). reflexivity.
  Qed.
  Lemma in_shape_mono r c r' c' (l : list trip) : r <= r' -> c <= c' -> in_shape r c l -> in_shape r' c' l.
  Proof. intros Hr Hc Hs t Ht. specialize (Hs t Ht). lia. Qed.

  (** * blocks *)
  Lemma block_ok x1 x2 h sym s e s' e' l :
    length x1 = n1 -> length x2 = n2 -> s < e -> e <= n1 -> s' < e' -> e' <= n2 ->
    block_triplets isz kernel (s, e) (s', e') x1 x2 h sym dt = Ok l ->
    (forall t, In t l -> (Z.of_nat s <= tr t < Z.of_nat e)%Z /\ (Z.of_nat s' <= tc t < Z.of_nat e')%Z) /\
    forall i j, get l i j = if (s <=? i) && (i <? e) && ((s' <=? j) && (j <? e')) && (negb (sym && (s =? s')) || (i <=? j))
                            then cov x1 x2 h i j else f0.
  Proof.
    intros L1 L2 Hse He Hse' He' E. unfold block_triplets in E.
    destruct (kernel (slice s e x1) (slice s' e' x2) h) as [o|] eqn:Eo; [|discriminate]. cbn [rbind] in E.
    destruct (kernel_ents _ _ _ _ Eo) as [S G]. rewrite !slice_len in * by lia.
    assert (Ec : block_to_coo isz o dt = kents o).
    { unfold block_to_coo. apply cast_ents. left. eapply in_shape_mono; [| |exact S]; lia. }
    rewrite Ec in E. set (l0 := if sym && (s =? s') then filter (fun t => (tr t <=? tc t)%Z) (kents o) else kents o) in E.
    injection E as <-.
    assert (S0 : in_shape (e - s) (e' - s') l0).
    { unfold l0. destruct (sym && (s =? s')); [|assumption]. intros t Ht. apply filter_In in Ht as [Ht _]. auto. }
    assert (El : map (fun t => T (td t) (cast dt (tr t + Z.of_nat s)) (cast dt (tc t + Z.of_nat s'))) l0
                 = map (fun t => T (td t) (tr t + Z.of_nat s) (tc t + Z.of_nat s')) l0).
    { apply map_ext_in. intros t Ht. specialize (S0 t Ht).
      rewrite !(cast_id dt _ n1 n2) by (auto; lia). reflexivity. }
    rewrite El. split.
    - intros t Ht. apply in_map_iff in Ht as (u & <- & Hu). specialize (S0 u Hu). cbn. lia.
    - intros i j. destruct (Nat.leb_spec s i) as [A|A]; cbn [andb].
      2:{ apply get_none. intros t Ht. apply in_map_iff in Ht as (u & <- & Hu). specialize (S0 u Hu). unfold at_. cbn [tr tc td]. lia. }
      destruct (Nat.leb_spec s' j) as [A'|A']; cbn [andb].
      2:{ rewrite andb_false_r. cbn [andb]. apply get_none. intros t Ht. apply in_map_iff in Ht as (u & <- & Hu). specialize (S0 u Hu). unfold at_. cbn [tr tc td]. lia. }
      rewrite (get_map _ l0 i j (i - s) (j - s')); [|reflexivity|intros t Ht; unfold at_; cbn [tr tc td]; eqbs].
      destruct (Nat.ltb_spec i e) as [C|C]; cbn [andb].
      2:{ eapply get_out; [exact S0|]. lia. }
      destruct (Nat.ltb_spec j e') as [C'|C']; cbn [andb].
      2:{ eapply get_out; [exact S0|]. lia. }
      assert (Gk : get (kents o) (i - s) (j - s') = cov x1 x2 h i j).
      { rewrite G by lia. rewrite cov_slice by lia. f_equal; lia. }
      unfold l0. destruct (sym && (s =? s')) eqn:Ed; cbn [negb orb]; [|exact Gk].
      apply andb_prop in Ed as [_ Ed]. apply Nat.eqb_eq in Ed. subst s'.
      destruct (Nat.leb_spec i j).
      + rewrite <- Gk, get_filter, get_fsum. f_equal. apply map_ext. intros t. unfold at_.
        destruct (Z.eqb_spec (tr t) (Z.of_nat (i - s))), (Z.eqb_spec (tc t) (Z.of_nat (j - s))); cbn [andb]; rewrite ?andb_true_r, ?andb_false_r; auto.
        destruct (Z.leb_spec (tr t) (tc t)); [reflexivity|lia].
      + rewrite get_filter. apply fsum_zero. intros t _. unfold at_.
        destruct (Z.leb_spec (tr t) (tc t)); cbn [andb]; [|reflexivity].
        destruct (Z.eqb_spec (tr t) (Z.of_nat (i - s))), (Z.eqb_spec (tc t) (Z.of_nat (j - s))); cbn [andb]; auto. lia.
  Qed.

  Lemma mirror_get l i j : get (mirror l) i j = if i =? j then f0 else get l j i.
  Proof.
    unfold mirror. rewrite (get_map _ _ i j j i); [|reflexivity|intros; unfold at_; cbn; apply andb_comm].
    rewrite get_filter, get_fsum. destruct (Nat.eqb_spec i j).
    - apply fsum_zero. intros t _. unfold at_.
      destruct (Z.eqb_spec (tr t) (tc t)); cbn [negb andb]; [reflexivity|].
      destruct (Z.eqb_spec (tr t) (Z.of_nat j)), (Z.eqb_spec (tc t) (Z.of_nat i)); cbn [andb]; auto. lia.
    - f_equal. apply map_ext. intros t. unfold at_.
      destruct (Z.eqb_spec (tr t) (Z.of_nat j)), (Z.eqb_spec (tc t) (Z.of_nat i)); cbn [andb]; rewrite ?andb_false_r; auto.
      destruct (Z.eqb_spec (tr t) (tc t)); [lia|reflexivity].
  Qed.

  Lemma filter_nonempty (parts : list (list trip)) (f : list trip -> list trip) : f [] = [] ->
    concat (map f (filter (fun l => negb (is_nil l)) parts)) = concat (map f parts).
  Proof. intros E. induction parts as [|[|t l] ps IH]; cbn; [reflexivity| |now rewrite IH]. now rewrite E, IH. Qed.

  Lemma coo_ok r c (l : list trip) : in_shape r c l -> coo_matrix r c l = Ok (Sp r c l).
  Proof.
    intros Hs. unfold coo_matrix. assert (forallb (fun t : trip => (0 <=? tr t)%Z && (tr t <? Z.of_nat r)%Z && (0 <=? tc t)%Z && (tc t <? Z.of_nat c)%Z) l = true) as ->; [|reflexivity].
    apply forallb_forall. intros t Ht. specialize (Hs t Ht). lia.
  Qed.

  (** parts whose union over all schedules is the upper triangle *)
  Lemma assemble_sym parts : n1 = n2 -> (forall l, In l parts -> in_shape n1 n1 l) ->
    exists m, assemble_triplets parts n1 n2 true dt = Ok m /\ nr m = n1 /\ nc m = n2 /\ in_shape n1 n2 (ents m) /\
      forall i j, get (ents m) i j =
        fadd (fsum (map (fun l => get l i j) parts)) (if i =? j then f0 else fsum (map (fun l => get l j i) parts)).
  Proof.
    intros Hn Hs. unfold assemble_triplets. set (ps := filter (fun l => negb (is_nil l)) parts).
    set (all := concat (map (fun l => l ++ mirror l) (rev ps))).
    assert (Sall : in_shape n1 n1 all).
    { intros t Ht. apply in_concat in Ht as (l & Hl & Ht). apply in_map_iff in Hl as (q & <- & Hq).
      apply in_rev in Hq. apply filter_In in Hq as [Hq _]. apply in_app_or in Ht as [Ht|Ht]; [now apply (Hs q)|].
      unfold mirror in Ht. apply in_map_iff in Ht as (u & <- & Hu). apply filter_In in Hu as [Hu _].
      specialize (Hs q Hq u Hu). cbn. lia. }
    assert (Gall : forall i j, get all i j = fadd (fsum (map (fun l => get l i j) parts)) (if i =? j then f0 else fsum (map (fun l => get l j i) parts))).
    { intros i j. unfold all. rewrite get_concat, map_map.
      rewrite (fsum_perm _ (map (fun l => get (l ++ mirror l) i j) ps)) by (apply Permutation_map, Permutation_sym, Permutation_rev).
      assert (fsum (map (fun l => get (l ++ mirror l) i j) ps) = fsum (map (fun l => get (l ++ mirror l) i j) parts)) as ->.
      { unfold ps. rewrite fsum_filter. f_equal. apply map_ext. intros [|t l]; reflexivity. }
      assert (map (fun l => get (l ++ mirror l) i j) parts = map (fun l => fadd (get l i j) (if i =? j then f0 else get l j i)) parts) as ->.
      { apply map_ext. intros l. now rewrite get_app, mirror_get. }
      rewrite fsum_add. f_equal. destruct (i =? j); [|reflexivity]. apply fsum_zero. auto. }
    destruct ps as [|p ps'] eqn:Ep.
    - cbn [is_nil]. exists (Sp n1 n2 []). cbn [nr nc ents]. split; [reflexivity|]. split; [reflexivity|]. split; [reflexivity|].
      split; [intros t []|]. intros i j. rewrite <- Gall. reflexivity.
    - cbn [is_nil]. fold all.
      rewrite cast_ents by (right; right; exact Sall). rewrite coo_ok by (rewrite <- Hn; exact Sall).
      eexists. split; [reflexivity|]. cbn [nr nc ents]. rewrite <- Hn. auto.
  Qed.

  Lemma sym_sum (rr : list (nat * nat)) (f : nat * nat -> nat * nat -> F) g i j :
    chain 0 rr n1 -> i < n1 -> j < n1 ->
    (forall a b, In a rr -> In b rr -> f a b =
       if (fst a <=? i) && (i <? snd a) && ((fst b <=? j) && (j <? snd b)) && (negb (fst a =? fst b) || (i <=? j)) then g else f0) ->
    fsum (map (fun p => f (fst p) (snd p)) (filter (fun p : (nat * nat) * (nat * nat) => fst (fst p) <=? fst (snd p)) (list_prod rr rr)))
    = if i <=? j then g else f0.
  Proof.
    intros Hc Hi Hj Hf. rewrite fsum_filter, fsum_prod.
    destruct (chain_pick _ _ _ i Hc ltac:(lia)) as (a1 & a & a2 & Ea & Ia & Na).
    destruct (chain_pick _ _ _ j Hc ltac:(lia)) as (b1 & b & b2 & Eb & Ib & Nb).
    assert (Ha : In a rr) by (rewrite Ea; apply in_or_app; cbn; auto).
    assert (Hb : In b rr) by (rewrite Eb; apply in_or_app; cbn; auto).
    match goal with |- Gp2ScaleSpec.fsum _ _ (map ?f rr) = _ =>
      transitivity (fsum (map f (a1 ++ a :: a2))); [now rewrite <- Ea|] end. rewrite fsum_single.
    - match goal with |- Gp2ScaleSpec.fsum _ _ (map ?f rr) = _ =>
        transitivity (fsum (map f (b1 ++ b :: b2))); [now rewrite <- Eb|] end. rewrite fsum_single; cbn [fst snd].
      + rewrite Hf by assumption.
        assert ((fst a <=? i) = true) as -> by (apply Nat.leb_le; lia). assert ((i <? snd a) = true) as -> by (apply Nat.ltb_lt; lia).
        assert ((fst b <=? j) = true) as -> by (apply Nat.leb_le; lia). assert ((j <? snd b) = true) as -> by (apply Nat.ltb_lt; lia). cbn [andb].
        (* relation between the two ranges and i, j *)
        assert (Hord : (fst a <= fst b -> fst a = fst b \/ snd a <= fst b) /\ (fst b < fst a -> snd b <= fst a)).
        { assert (G : forall l x y, chain x l y -> forall p q, In p l -> In q l -> fst p < fst q -> snd p <= fst q).
          { induction l as [|[s e] l IH]; cbn; intros x y Hx p q Hp Hq Hlt; [tauto|].
            destruct Hx as (-> & Hx1 & Hx2). pose proof (chain_bounds _ _ _ Hx2) as [_ Bd].
            destruct Hp as [<-|Hp], Hq as [<-|Hq]; cbn in *; try lia.
            - specialize (Bd q Hq). lia.
            - specialize (Bd p Hp). lia.
            - eapply IH; eauto. }
          split; intros.
          - destruct (Nat.eq_dec (fst a) (fst b)); [auto|]. right. apply (G rr 0 n1 Hc a b); auto. lia.
          - apply (G rr 0 n1 Hc b a); auto. }
        destruct (Nat.leb_spec (fst a) (fst b)), (Nat.leb_spec i j), (Nat.eqb_spec (fst a) (fst b)); cbn [negb orb]; try reflexivity; try lia.
      + intros q Hq. destruct (fst a <=? fst q); [|reflexivity].
        rewrite Hf; [|assumption|rewrite Eb; apply in_app_or in Hq; apply in_or_app; cbn; tauto].
        specialize (Nb q Hq). destruct (Nat.leb_spec (fst q) j), (Nat.ltb_spec j (snd q)); cbn [andb]; try lia; rewrite ?andb_false_r; reflexivity.
    - intros q Hq. apply fsum_zero. intros r Hr. cbn [fst snd]. destruct (fst q <=? fst r); [|reflexivity].
      rewrite Hf; [|rewrite Ea; apply in_app_or in Hq; apply in_or_app; cbn; tauto|assumption].
      specialize (Na q Hq). destruct (Nat.leb_spec (fst q) i), (Nat.ltb_spec i (snd q)); cbn [andb]; try lia; reflexivity.
  Qed.

  (** * strips *)
  Lemma insert_head p l : (forall q, In q l -> fst p <= fst q) -> insert (F:=F) p l = p :: l.
  Proof. destruct l as [|q l]; intros Hq; cbn; [reflexivity|]. destruct (Nat.leb_spec (fst p) (fst q)); [reflexivity|]. specialize (Hq q (or_introl eq_refl)). lia. Qed.
  Lemma insert_perm p l : Permutation (insert (F:=F) p l) (p :: l).
  Proof.
    induction l as [|q l IH]; cbn; [reflexivity|]. destruct (fst p <=? fst q); [reflexivity|].
    rewrite IH. apply perm_swap.
  Qed.
  Lemma sort_perm l : Permutation (sort_keys (F:=F) l) l.
  Proof. induction l as [|p l IH]; cbn; [reflexivity|]. rewrite insert_perm. now constructor. Qed.
  Lemma insert_sorted p l : StronglySorted (fun a b => fst a <= fst b) l -> StronglySorted (fun a b => fst a <= fst b) (insert (F:=F) p l).
  Proof.
    induction l as [|q l IH]; cbn; intros Hs; [repeat constructor|]. inversion Hs; subst.
    destruct (Nat.leb_spec (fst p) (fst q)).
    - constructor; [assumption|]. constructor; [assumption|]. eapply Forall_impl; [|eassumption]. cbn. intros; lia.
    - constructor; [auto|]. apply Forall_forall. intros x Hx. apply (Permutation_in _ (insert_perm p l)) in Hx as [<-|Hx]; [lia|].
      rewrite Forall_forall in H4. auto.
  Qed.
  Lemma sort_sorted l : StronglySorted (fun a b => fst a <= fst b) (sort_keys (F:=F) l).
  Proof. induction l; cbn; [constructor|]. now apply insert_sorted. Qed.
  Lemma sorted_unique (l1 : list (nat * spm)) : forall l2, StronglySorted (fun a b => fst a < fst b) l2 ->
    StronglySorted (fun a b => fst a <= fst b) l1 -> Permutation l1 l2 -> l1 = l2.
  Proof.
    induction l1 as [|p l1 IH]; intros l2 S2 S1 Hp.
    - apply Permutation_nil in Hp. now subst.
    - destruct l2 as [|q l2]; [apply Permutation_sym, Permutation_nil in Hp; discriminate|].
      inversion S1; subst. inversion S2; subst. rewrite Forall_forall in *.
      assert (p = q).
      { assert (I1 : In p (q :: l2)) by (eapply Permutation_in; [exact Hp|left; reflexivity]).
        assert (I2 : In q (p :: l1)) by (eapply Permutation_in; [apply Permutation_sym; exact Hp|left; reflexivity]).
        destruct I1 as [|I1]; [auto|]. destruct I2 as [|I2]; [auto|]. specialize (H6 _ I1). specialize (H4 _ I2). lia. }
      subst q. f_equal. apply IH; auto. eapply Permutation_cons_inv; eauto.
  Qed.
  Lemma dict_nodup (l : list (nat * spm)) : NoDup (map fst l) -> to_dict l = l.
  Proof.
    unfold to_dict. intros Hn.
    assert (G : forall l d, NoDup (map fst (d ++ l)) -> fold_left (fun d p => dict_set (F:=F) (fst p) (snd p) d) l d = d ++ l).
    { clear. induction l as [|p l IH]; intros d Hn; cbn; [now rewrite app_nil_r|].
      unfold dict_set at 2. assert (existsb (fun p0 : nat * spm => fst p0 =? fst p) d = false) as ->.
      { apply not_true_is_false. intros E. apply existsb_exists in E as (q & Hq & Eq). apply Nat.eqb_eq in Eq.
        rewrite map_app in Hn. cbn in Hn. apply NoDup_remove_2 in Hn. apply Hn. apply in_or_app. left. rewrite <- Eq. now apply in_map. }
      rewrite <- surjective_pairing, IH; rewrite <- app_assoc; [reflexivity|exact Hn]. }
    apply (G l []). exact Hn.
  Qed.

  (** any completion order of strips keyed by the starts of a chain gives them back in order *)
  Lemma strips_order (l l' : list (nat * spm)) : StronglySorted lt (map fst l) -> Permutation l' l ->
    map snd (sort_keys (to_dict l')) = map snd l.
  Proof.
    intros Hs Hp. assert (Hn : NoDup (map fst l)).
    { clear -Hs. induction Hs as [|a l' Hs IH Hf]; constructor; auto. intros Hin. rewrite Forall_forall in Hf. specialize (Hf _ Hin). lia. }
    rewrite dict_nodup.
    - f_equal. apply sorted_unique.
      + clear -Hs. induction l as [|p l IH]; [constructor|]. cbn in Hs. inversion Hs as [|a b Hs1 Hs2]; subst. constructor; [auto|].
        apply Forall_forall. intros q Hq. rewrite Forall_forall in Hs2. apply Hs2. now apply in_map.
      + apply sort_sorted.
      + now rewrite sort_perm.
    - eapply Permutation_NoDup; [|exact Hn]. apply Permutation_map. now apply Permutation_sym.
  Qed.

  Lemma vstack_get c g rr : forall a n (ms : list spm), chain a rr n ->
    Forall2 (fun r m => is_matrix m (snd r - fst r) c (fun i j => g (fst r + i) j)) rr ms ->
    list_sum (map nr ms) = n - a /\ (forall m, In m ms -> nc m = c) /\
    (forall t, In t (vstack_ents a ms) -> (Z.of_nat a <= tr t < Z.of_nat n)%Z /\ (0 <= tc t < Z.of_nat c)%Z) /\
    forall i j, a <= i < n -> j < c -> get (vstack_ents a ms) i j = g i j.
  Proof.
    induction rr as [|[s e] rr IH]; cbn; intros a n ms Hc Hf; inversion Hf; subst; clear Hf.
    - subst. cbn. repeat split; try lia; try tauto.
    - destruct Hc as (-> & Hse & Hc). cbn [fst snd] in *. rename l' into ms, y into m.
      destruct (IH _ _ _ Hc H5) as (I1 & I2 & I3 & I4). destruct H3 as (M1 & M2 & M3 & M4).
      pose proof (chain_bounds _ _ _ Hc) as [Hen _]. cbn [map list_sum fold_right vstack_ents]. fold (list_sum (map nr ms)).
      rewrite M1. replace (a + (e - a)) with e by lia.
      split; [lia|]. split; [intros q [<-|Hq]; auto|]. split.
      + intros t Ht. apply in_app_or in Ht as [Ht|Ht]; [|apply I3 in Ht; lia].
        apply in_map_iff in Ht as (u & <- & Hu). specialize (M3 u Hu). cbn [tr tc]. lia.
      + intros i j Hi Hj. rewrite get_app. destruct (Nat.lt_ge_cases i e).
        * rewrite (get_none (vstack_ents e ms)), H0r by (intros t Ht; apply I3 in Ht; unfold at_; lia).
          rewrite (get_map _ (ents m) i j (i - a) j); [|reflexivity|intros t Ht; unfold at_; cbn [tr tc td]; eqbs].
          rewrite M4 by lia. f_equal. lia.
        * rewrite I4 by lia. rewrite get_none, H0; [reflexivity|].
          intros t Ht. apply in_map_iff in Ht as (u & <- & Hu). specialize (M3 u Hu). unfold at_. cbn [tr tc td]. lia.
  Qed.

  Lemma hstack_get c g rr : forall a n (ms : list spm), chain a rr n ->
    Forall2 (fun r m => is_matrix m c (snd r - fst r) (fun i j => g i (fst r + j))) rr ms ->
    list_sum (map nc ms) = n - a /\ (forall m, In m ms -> nr m = c) /\
    (forall t, In t (hstack_ents a ms) -> (Z.of_nat a <= tc t < Z.of_nat n)%Z /\ (0 <= tr t < Z.of_nat c)%Z) /\
    forall i j, a <= j < n -> i < c -> get (hstack_ents a ms) i j = g i j.
  Proof.
    induction rr as [|[s e] rr IH]; cbn; intros a n ms Hc Hf; inversion Hf; subst; clear Hf.
    - subst. cbn. repeat split; try lia; try tauto.
    - destruct Hc as (-> & Hse & Hc). cbn [fst snd] in *. rename l' into ms, y into m.
      destruct (IH _ _ _ Hc H5) as (I1 & I2 & I3 & I4). destruct H3 as (M1 & M2 & M3 & M4).
      pose proof (chain_bounds _ _ _ Hc) as [Hen _]. cbn [map list_sum fold_right hstack_ents]. fold (list_sum (map nc ms)).
      rewrite M2. replace (a + (e - a)) with e by lia.
      split; [lia|]. split; [intros q [<-|Hq]; auto|]. split.
      + intros t Ht. apply in_app_or in Ht as [Ht|Ht]; [|apply I3 in Ht; lia].
        apply in_map_iff in Ht as (u & <- & Hu). specialize (M3 u Hu). cbn [tr tc]. lia.
      + intros i j Hj Hi. rewrite get_app. destruct (Nat.lt_ge_cases j e).
        * rewrite (get_none (hstack_ents e ms)), H0r by (intros t Ht; apply I3 in Ht; unfold at_; lia).
          rewrite (get_map _ (ents m) i j i (j - a)); [|reflexivity|intros t Ht; unfold at_; cbn [tr tc td]; eqbs].
          rewrite M4 by lia. f_equal. lia.
        * rewrite I4 by lia. rewrite get_none, H0; [reflexivity|].
          intros t Ht. apply in_map_iff in Ht as (u & <- & Hu). specialize (M3 u Hu). unfold at_. cbn [tr tc td]. lia.
  Qed.

  Lemma rep_in_shape m r c g : is_matrix m r c g -> in_shape r c (ents m).
  Proof. now intros (_ & _ & ? & _). Qed.

  (** * task results *)
  Variables x1 x2 : list P.
  Variable h : H.
  Hypothesis L1 : length x1 = n1.
  Hypothesis L2 : length x2 = n2.

  Lemma row_strip_ok s e o : s < e -> e <= n1 -> kernel (slice s e x1) x2 h = Ok o ->
    exists m, row_strip_csr isz kernel (s, e) x1 x2 h n2 dt = Ok (WStrip s m) /\
      is_matrix m (e - s) n2 (fun i j => cov x1 x2 h (s + i) j).
  Proof.
    intros Hse He Eo. unfold row_strip_csr. rewrite Eo. cbn [rbind].
    destruct (kernel_ents _ _ _ _ Eo) as [Sh G]. rewrite slice_len, L2 in * by lia.
    assert (Ec : block_to_coo isz o dt = kents o).
    { unfold block_to_coo. apply cast_ents. left. eapply in_shape_mono; [| |exact Sh]; lia. }
    rewrite Ec, coo_ok by exact Sh. cbn [rbind]. eexists. split; [reflexivity|].
    repeat split; cbn [nr nc ents]; try apply (Sh t); auto. intros i j Hi Hj. rewrite G by lia.
    unfold Gp2ScaleSpec.cov. now rewrite nth_error_slice by lia.
  Qed.
  Lemma col_strip_ok s e o : s < e -> e <= n2 -> kernel x1 (slice s e x2) h = Ok o ->
    exists m, col_strip_csc isz kernel (s, e) x1 x2 h n1 dt = Ok (WStrip s m) /\
      is_matrix m n1 (e - s) (fun i j => cov x1 x2 h i (s + j)).
  Proof.
    intros Hse He Eo. unfold col_strip_csc. rewrite Eo. cbn [rbind].
    destruct (kernel_ents _ _ _ _ Eo) as [Sh G]. rewrite slice_len, L1 in * by lia.
    assert (Ec : block_to_coo isz o dt = kents o).
    { unfold block_to_coo. apply cast_ents. left. eapply in_shape_mono; [| |exact Sh]; lia. }
    rewrite Ec, coo_ok by exact Sh. cbn [rbind]. eexists. split; [reflexivity|].
    repeat split; cbn [nr nc ents]; try apply (Sh t); auto. intros i j Hi Hj. rewrite G by lia.
    unfold Gp2ScaleSpec.cov. now rewrite nth_error_slice by lia.
  Qed.

  Lemma strips_perm a b : Permutation a b -> Permutation (strips (F:=F) a) (strips b).
  Proof.
    unfold strips. induction 1; cbn; auto.
    - now apply Permutation_app_head.
    - rewrite !app_assoc. apply Permutation_app_tail, Permutation_app_comm.
    - etransitivity; eauto.
  Qed.
  Lemma trips_perm a b : Permutation a b -> Permutation (trips (F:=F) a) (trips b).
  Proof.
    unfold trips. induction 1; cbn; auto.
    - now apply Permutation_app_head.
    - rewrite !app_assoc. apply Permutation_app_tail, Permutation_app_comm.
    - etransitivity; eauto.
  Qed.

  Lemma map_ok_inv {A} (f : A -> res (@cexn) wres) l rs : map f l = map (@Ok cexn wres) rs -> Forall2 (fun a w => f a = Ok (w : @wres F)) l rs.
  Proof.
    revert rs. induction l as [|a l IH]; intros [|r rs]; cbn; intros E; try discriminate; constructor.
    - now injection E.
    - apply IH. now injection E.
  Qed.

  Lemma row_results rr rs : (forall r, In r rr -> fst r < snd r /\ snd r <= n1) ->
    map (fun r => row_strip_csr isz kernel r x1 x2 h n2 dt) rr = map (@Ok cexn wres) rs ->
    exists ms, strips rs = combine (map fst rr) ms /\
      Forall2 (fun r m => is_matrix m (snd r - fst r) n2 (fun i j => cov x1 x2 h (fst r + i) j)) rr ms.
  Proof.
    intros Hb E. apply map_ok_inv in E. revert Hb. induction E as [|[s e] w rr rs Ew E IH]; intros Hb.
    - exists []. split; [reflexivity|constructor].
    - destruct IH as (ms & IH1 & IH2); [intros; apply Hb; now right|].
      destruct (Hb (s, e) (or_introl eq_refl)) as [B3 B4]. cbn [fst snd] in *.
      destruct (kernel (slice s e x1) x2 h) as [o|] eqn:Eo.
      2:{ unfold row_strip_csr in Ew. rewrite Eo in Ew. discriminate. }
      destruct (row_strip_ok s e o B3 B4 Eo) as (m & Em & Hm). rewrite Em in Ew. injection Ew as <-.
      exists (m :: ms). split; [cbn; unfold strips in IH1; now rewrite IH1|]. constructor; auto.
  Qed.
  Lemma col_results rr rs : (forall r, In r rr -> fst r < snd r /\ snd r <= n2) ->
    map (fun r => col_strip_csc isz kernel r x1 x2 h n1 dt) rr = map (@Ok cexn wres) rs ->
    exists ms, strips rs = combine (map fst rr) ms /\
      Forall2 (fun r m => is_matrix m n1 (snd r - fst r) (fun i j => cov x1 x2 h i (fst r + j))) rr ms.
  Proof.
    intros Hb E. apply map_ok_inv in E. revert Hb. induction E as [|[s e] w rr rs Ew E IH]; intros Hb.
    - exists []. split; [reflexivity|constructor].
    - destruct IH as (ms & IH1 & IH2); [intros; apply Hb; now right|].
      destruct (Hb (s, e) (or_introl eq_refl)) as [B3 B4]. cbn [fst snd] in *.
      destruct (kernel x1 (slice s e x2) h) as [o|] eqn:Eo.
      2:{ unfold col_strip_csc in Ew. rewrite Eo in Ew. discriminate. }
      destruct (col_strip_ok s e o B3 B4 Eo) as (m & Em & Hm). rewrite Em in Ew. injection Ew as <-.
      exists (m :: ms). split; [cbn; unfold strips in IH1; now rewrite IH1|]. constructor; auto.
  Qed.

  Lemma combine_fst {A B} (a : list A) (b : list B) : length a = length b -> map fst (combine a b) = a.
  Proof. revert b; induction a; intros [|y b]; cbn; intros; try lia; [reflexivity|]. f_equal. apply IHa. lia. Qed.
  Lemma combine_snd {A B} (a : list A) (b : list B) : length a = length b -> map snd (combine a b) = b.
  Proof. revert b; induction a; intros [|y b]; cbn; intros; try lia; [reflexivity|]. f_equal. apply IHa. lia. Qed.

  Lemma assemble_rows_ok rr rs ws : chain 0 rr n1 ->
    map (fun r => row_strip_csr isz kernel r x1 x2 h n2 dt) rr = map (@Ok cexn wres) rs -> Permutation ws rs ->
    exists K, assemble_row_strips ws n1 n2 = Ok K /\ is_matrix K n1 n2 (cov x1 x2 h).
  Proof.
    intros Hc E Hp. pose proof (chain_bounds _ _ _ Hc) as [_ Bd].
    destruct (row_results rr rs) as (ms & Es & Hf); [intros r Hr; specialize (Bd r Hr); lia|exact E|].
    assert (Lm : length rr = length ms) by (clear -Hf; induction Hf; cbn; lia).
    assert (Ho : map snd (sort_keys (to_dict (strips ws))) = ms).
    { rewrite <- (combine_snd (map fst rr) ms) by (now rewrite map_length). rewrite <- Es.
      apply strips_order.
      - rewrite Es, combine_fst by (now rewrite map_length). eapply chain_sorted; eauto.
      - now apply strips_perm. }
    destruct (vstack_get n2 (cov x1 x2 h) rr 0 n1 ms Hc Hf) as (V1 & V2 & V3 & V4).
    unfold assemble_row_strips. destruct (to_dict (strips ws)) as [|d ds] eqn:Ed; cbn [is_nil].
    - cbn in Ho. subst ms. destruct rr; [|discriminate]. cbn in Hc.
      eexists. split; [reflexivity|]. unfold Gp2ScaleSpec.is_matrix, Gp2ScaleSpec.in_shape. cbn [nr nc ents]. split; [reflexivity|]. split; [reflexivity|]. split; [intros ? []|intros; lia].
    - rewrite <- Ed in *. rewrite Ho. unfold vstack. destruct ms as [|m ms'] eqn:Em.
      { exfalso. assert (length (sort_keys (to_dict (strips ws))) = 0) by (rewrite <- (map_length snd), Ho; reflexivity).
        rewrite (Permutation_length (sort_perm _)), Ed in H1. discriminate. }
      rewrite <- Em in *. assert (forallb (fun q : spm => nc q =? nc m) ms = true) as ->.
      { apply forallb_forall. intros q Hq. apply Nat.eqb_eq. rewrite !V2; auto. rewrite Em. now left. }
      eexists. split; [reflexivity|]. unfold Gp2ScaleSpec.is_matrix. cbn [nr nc ents].
      split; [lia|]. split; [apply V2; rewrite Em; now left|]. split; [intros t Ht; apply V3 in Ht; lia|].
      intros; apply V4; lia.
  Qed.
  Lemma assemble_cols_ok rr rs ws : chain 0 rr n2 ->
    map (fun r => col_strip_csc isz kernel r x1 x2 h n1 dt) rr = map (@Ok cexn wres) rs -> Permutation ws rs ->
    exists K, assemble_col_strips ws n1 n2 = Ok K /\ is_matrix K n1 n2 (cov x1 x2 h).
  Proof.
    intros Hc E Hp. pose proof (chain_bounds _ _ _ Hc) as [_ Bd].
    destruct (col_results rr rs) as (ms & Es & Hf); [intros r Hr; specialize (Bd r Hr); lia|exact E|].
    assert (Lm : length rr = length ms) by (clear -Hf; induction Hf; cbn; lia).
    assert (Ho : map snd (sort_keys (to_dict (strips ws))) = ms).
    { rewrite <- (combine_snd (map fst rr) ms) by (now rewrite map_length). rewrite <- Es.
      apply strips_order.
      - rewrite Es, combine_fst by (now rewrite map_length). eapply chain_sorted; eauto.
      - now apply strips_perm. }
    destruct (hstack_get n1 (cov x1 x2 h) rr 0 n2 ms Hc Hf) as (V1 & V2 & V3 & V4).
    unfold assemble_col_strips. destruct (to_dict (strips ws)) as [|d ds] eqn:Ed; cbn [is_nil].
    - cbn in Ho. subst ms. destruct rr; [|discriminate]. cbn in Hc.
      eexists. split; [reflexivity|]. unfold Gp2ScaleSpec.is_matrix, Gp2ScaleSpec.in_shape. cbn [nr nc ents]. split; [reflexivity|]. split; [reflexivity|]. split; [intros ? []|intros; lia].
    - rewrite <- Ed in *. rewrite Ho. unfold hstack. destruct ms as [|m ms'] eqn:Em.
      { exfalso. assert (length (sort_keys (to_dict (strips ws))) = 0) by (rewrite <- (map_length snd), Ho; reflexivity).
        rewrite (Permutation_length (sort_perm _)), Ed in H1. discriminate. }
      rewrite <- Em in *. assert (forallb (fun q : spm => nr q =? nr m) ms = true) as ->.
      { apply forallb_forall. intros q Hq. apply Nat.eqb_eq. rewrite !V2; auto. rewrite Em. now left. }
      eexists. split; [reflexivity|]. unfold Gp2ScaleSpec.is_matrix. cbn [nr nc ents].
      split; [apply V2; rewrite Em; now left|]. split; [lia|]. split; [intros t Ht; apply V3 in Ht; lia|].
      intros; apply V4; lia.
  Qed.

  Definition blk (p : (nat * nat) * (nat * nat)) : list trip :=
    match block_triplets isz kernel (fst p) (snd p) x1 x2 h true dt with Ok l => l | Err _ => [] end.
  Lemma block_results ps rs :
    map (fun p => rbind (block_triplets isz kernel (fst p) (snd p) x1 x2 h true dt) (fun l => Ok (WTrips l))) ps = map (@Ok cexn wres) rs ->
    trips rs = map blk ps /\ forall p, In p ps -> block_triplets isz kernel (fst p) (snd p) x1 x2 h true dt = Ok (blk p).
  Proof.
    intros E. apply map_ok_inv in E. induction E as [|p w ps rs Ew E [IH1 IH2]].
    - split; [reflexivity|intros ? []].
    - destruct (block_triplets isz kernel (fst p) (snd p) x1 x2 h true dt) as [l|] eqn:Eb; [|discriminate].
      assert (Hl : blk p = l) by (unfold blk; now rewrite Eb).
      cbn [rbind] in Ew. injection Ew as <-. split.
      + cbn [map]. rewrite Hl, <- IH1. reflexivity.
      + intros q [<-|Hq]; [now rewrite Hl|]. now apply IH2.
  Qed.

  Lemma cov_sym : x1 = x2 -> (forall a b, k a b h = k b a h) -> forall i j, cov x1 x2 h i j = cov x1 x2 h j i.
  Proof. intros <- Hs i j. unfold Gp2ScaleSpec.cov. destruct (nth_error x1 i), (nth_error x1 j); auto. Qed.

  Lemma assemble_blocks_ok rr rs ws : n1 = n2 -> x1 = x2 -> (forall a b, k a b h = k b a h) -> chain 0 rr n1 ->
    let ps := filter (fun p : (nat * nat) * (nat * nat) => fst (fst p) <=? fst (snd p)) (list_prod rr rr) in
    map (fun p => rbind (block_triplets isz kernel (fst p) (snd p) x1 x2 h true dt) (fun l => Ok (WTrips l))) ps = map (@Ok cexn wres) rs ->
    Permutation ws rs ->
    exists K, assemble_triplets (trips ws) n1 n2 true dt = Ok K /\ is_matrix K n1 n2 (cov x1 x2 h).
  Proof.
    intros Hn Hx Hs Hc ps E Hp. pose proof (chain_bounds _ _ _ Hc) as [_ Bd].
    destruct (block_results ps rs E) as [Et Eb].
    assert (Hb : forall p, In p ps -> In (fst p) rr /\ In (snd p) rr /\ fst (fst p) <= fst (snd p)).
    { intros [a b] Hin. apply filter_In in Hin as [Hin Hle]. apply in_prod_iff in Hin as [Ia Ib]. cbn in *.
      apply Nat.leb_le in Hle. auto. }
    assert (Hg : forall a b, In a rr -> In b rr -> forall l, block_triplets isz kernel a b x1 x2 h true dt = Ok l ->
       in_shape n1 n1 l /\ forall i j, get l i j = if (fst a <=? i) && (i <? snd a) && ((fst b <=? j) && (j <? snd b)) && (negb (fst a =? fst b) || (i <=? j)) then cov x1 x2 h i j else f0).
    { intros [s e] [s' e'] Ia Ib l El. pose proof (Bd _ Ia). pose proof (Bd _ Ib). cbn [fst snd] in *.
      destruct (block_ok x1 x2 h true s e s' e' l) as [S1 S2]; try lia; auto. split; [|exact S2].
      intros t Ht. specialize (S1 t Ht). lia. }
    destruct (assemble_sym (trips ws)) as (K & EK & R1 & R2 & R3 & R4); [exact Hn| |].
    { intros l Hl. apply (Permutation_in _ (trips_perm _ _ Hp)) in Hl. rewrite Et in Hl.
      apply in_map_iff in Hl as (p & <- & Hin). destruct (Hb p Hin) as (I1 & I2 & _).
      exact (proj1 (Hg _ _ I1 I2 _ (Eb p Hin))). }
    exists K. split; [exact EK|]. repeat split; auto; try apply (R3 t); auto.
    intros i j Hi Hj. rewrite R4.
    assert (Hsum : forall a b, a < n1 -> b < n1 -> fsum (map (fun l => get l a b) (trips ws)) = if a <=? b then cov x1 x2 h a b else f0).
    { intros a b Ha Hb'. rewrite (fsum_perm _ (map (fun l => get l a b) (map blk ps))).
      2:{ apply Permutation_map. rewrite <- Et. now apply trips_perm. }
      rewrite map_map.
      rewrite <- (sym_sum rr (fun p q => if fst p <=? fst q then get (blk (p, q)) a b else
          if (fst p <=? a) && (a <? snd p) && ((fst q <=? b) && (b <? snd q)) && (negb (fst p =? fst q) || (a <=? b)) then cov x1 x2 h a b else f0) (cov x1 x2 h a b) a b Hc Ha Hb').
      - fold ps. f_equal. apply map_ext_in. intros p Hin. destruct (Hb p Hin) as (_ & _ & Hle).
        apply Nat.leb_le in Hle. rewrite Hle. now rewrite <- surjective_pairing.
      - intros p q Ip Iq. destruct (fst p <=? fst q) eqn:Hle; [|reflexivity].
        assert (Hin : In (p, q) ps). { apply filter_In. split; [now apply in_prod|exact Hle]. }
        exact (proj2 (Hg p q Ip Iq _ (Eb _ Hin)) a b). }
    rewrite !Hsum by lia. destruct (Nat.eqb_spec i j).
    - subst j. rewrite Nat.leb_refl. apply H0r.
    - destruct (Nat.leb_spec i j), (Nat.leb_spec j i); try lia; [apply H0r|]. rewrite H0. now apply cov_sym.
  Qed.
End S.

(** * the entry point *)
Section Main.
  Context {P H F : Type} (f0 : F) (fadd : F -> F -> F) (isz : F -> bool).
  Variable kernel : list P -> list P -> H -> res cexn (@kout F).

  Lemma harvest_spec (l : list (nat * res cexn (@wres F))) ev ws : harvest l = (ev, Ok ws) ->
    map snd l = map (@Ok cexn wres) ws /\ ev = map EvTaskRelease (map fst l).
  Proof.
    revert ev ws. induction l as [|[i [w|e]] l IH]; cbn; intros ev ws E.
    - injection E as <- <-. auto.
    - destruct (harvest l) as [ev' [ws'|]]; cbn in E; [|discriminate]. injection E as <- <-.
      destruct (IH _ _ eq_refl) as [I1 I2]. cbn. rewrite I1, I2. auto.
    - discriminate.
  Qed.
  Lemma harvest_total (l : list (nat * res cexn (@wres F))) ws : map snd l = map (@Ok cexn wres) ws ->
    harvest l = (map EvTaskRelease (map fst l), Ok ws).
  Proof.
    revert ws. induction l as [|[i [w|e]] l IH]; intros [|w' ws]; cbn; intros E; try discriminate; [reflexivity|].
    injection E as -> E. now rewrite (IH ws E).
  Qed.

  Lemma lossy_ok (cl : @cluster_t F) l ev ws : lossy cl -> harvest (cl l) = (ev, Ok ws) ->
    exists rs, map snd l = map (@Ok cexn wres) rs /\ Permutation ws rs /\ Permutation ev (map EvTaskRelease (map fst l)).
  Proof.
    intros Hl E. apply harvest_spec in E as [E1 E2]. destruct (Hl l) as (l' & Hp & Hf).
    assert (l' = l).
    { assert (Hall : forall p, In p l' -> exists w, snd p = Ok w).
      { intros p Hin. apply Permutation_sym in Hp. apply (Permutation_in _ Hp) in Hin. apply (in_map snd) in Hin.
        rewrite E1 in Hin. apply in_map_iff in Hin as (w & <- & _). eauto. }
      clear -Hf Hall. induction Hf as [|[i a] [j b] l l' [Hi Hv] Hf IH]; [reflexivity|]. cbn in *. subst j.
      rewrite IH by (intros; apply Hall; now right). destruct Hv as [->|(e & ->)]; [reflexivity|].
      destruct (Hall (i, Err e) (or_introl eq_refl)) as (w & Ew). discriminate. }
    subst l'. pose proof (Permutation_map snd Hp) as Hq. rewrite E1 in Hq.
    apply Permutation_sym, Permutation_map_inv in Hq as (rs & -> & Hr).
    exists rs. split; [reflexivity|]. split; [now apply Permutation_sym|].
    subst ev. now repeat apply Permutation_map.
  Qed.

  Lemma combine_seq_snd {A B} (f : A -> B) s l : map snd (combine (seq s (length l)) (map f l)) = map f l.
  Proof. revert s; induction l; intros; cbn; [reflexivity|]. now rewrite IHl. Qed.
  Lemma combine_seq_fst {A B} (f : A -> B) s l : map fst (combine (seq s (length l)) (map f l)) = seq s (length l).
  Proof. revert s; induction l; intros; cbn; [reflexivity|]. now rewrite IHl. Qed.

  Section Alg.
  Hypothesis Hcomm : forall a b, fadd a b = fadd b a.
  Hypothesis Hassoc : forall a b c, fadd a (fadd b c) = fadd (fadd a b) c.
  Hypothesis H0 : forall a, fadd f0 a = a.
  Hypothesis Hz : forall v, isz v = true <-> v = f0.
  Variable k : P -> P -> H -> F.
  Hypothesis Hk : kernel_is f0 fadd kernel k.

  Lemma assembled x1 x2 n1 n2 h batch sym d rs ws :
    (Z.of_nat n1 < 2 ^ 63)%Z -> (Z.of_nat n2 < 2 ^ 63)%Z -> length x1 = n1 -> length x2 = n2 ->
    (sym = true -> x1 = x2 /\ forall a b, k a b h = k b a h) ->
    let '(strat, tasks) := plan n1 n2 batch sym d in
    map (run_task isz kernel x1 x2 h n1 n2 sym (index_dtype_for n1 n2)) tasks = map (@Ok cexn wres) rs ->
    Permutation ws rs ->
    exists K, match strat with
              | SBlock => assemble_triplets (trips ws) n1 n2 sym (index_dtype_for n1 n2)
              | SCol => assemble_col_strips ws n1 n2
              | SRow => assemble_row_strips ws n1 n2
              end = Ok K /\ is_matrix f0 fadd K n1 n2 (cov f0 k x1 x2 h).
  Proof.
    intros B1 B2 L1 L2 Hs. unfold plan. destruct sym.
    - destruct (Hs eq_refl) as [Hx Hsym]. destruct d.
      + intros E Hp. rewrite map_map in E. cbn [run_task] in E.
        eapply (assemble_blocks_ok f0 fadd isz Hcomm Hassoc H0 Hz kernel k Hk n1 n2 B1 B2 x1 x2 h L1 L2 (ranges n1 batch)); eauto.
        * congruence.
        * apply ranges_chain.
      + intros E Hp. rewrite map_map in E. cbn [run_task] in E.
        eapply (assemble_rows_ok f0 fadd isz Hcomm Hassoc H0 Hz kernel k Hk n1 n2 B1 B2 x1 x2 h L1 L2 (ranges n1 batch)); eauto.
        apply ranges_chain.
    - destruct (n2 <=? n1); intros E Hp; rewrite map_map in E; cbn [run_task] in E.
      + eapply (assemble_cols_ok f0 fadd isz Hcomm Hassoc H0 Hz kernel k Hk n1 n2 B1 B2 x1 x2 h L1 L2); eauto. apply ranges_chain.
      + eapply (assemble_rows_ok f0 fadd isz Hcomm Hassoc H0 Hz kernel k Hk n1 n2 B1 B2 x1 x2 h L1 L2); eauto. apply ranges_chain.
  Qed.

  Lemma distributed_sound cl x1 x2 n1 n2 same h batch sym d ev K :
    lossy cl -> (Z.of_nat n1 < 2 ^ 63)%Z -> (Z.of_nat n2 < 2 ^ 63)%Z -> length x1 = n1 -> length x2 = n2 ->
    (sym = true -> x1 = x2 /\ forall a b, k a b h = k b a h) ->
    distributed_covariance isz kernel cl h x1 n1 x2 n2 same batch sym d = (ev, Ok K) ->
    is_matrix f0 fadd K n1 n2 (cov f0 k x1 x2 h).
  Proof.
    intros Hl B1 B2 L1 L2 Hs E. unfold distributed_covariance in E.
    destruct (sym && negb (n1 =? n2)); [discriminate|]. destruct (sym && negb same); [discriminate|].
    pose proof (assembled x1 x2 n1 n2 h batch sym d) as A.
    destruct (plan n1 n2 batch sym d) as [strat tasks].
    destruct (harvest _) as [ev' [ws|]] eqn:Eh; [|discriminate]. cbn [rbind] in E.
    apply (lossy_ok cl) in Eh as (rs & Er & Hp & _); [|exact Hl]. rewrite combine_seq_snd in Er.
    destruct (A rs ws B1 B2 L1 L2 Hs Er Hp) as (K' & EK & HK). rewrite EK in E. cbn [rbind] in E.
    destruct (n1 * n2 =? 0); [discriminate|]. injection E as _ <-. exact HK.
  Qed.

  Lemma run_task_total x1 x2 n1 n2 h sym batch d t :
    (forall xs ys, exists o, kernel xs ys h = Ok o) ->
    (Z.of_nat n1 < 2 ^ 63)%Z -> (Z.of_nat n2 < 2 ^ 63)%Z -> length x1 = n1 -> length x2 = n2 -> (sym = true -> n1 = n2) ->
    In t (snd (plan n1 n2 batch sym d)) -> exists w, run_task isz kernel x1 x2 h n1 n2 sym (index_dtype_for n1 n2) t = Ok w.
  Proof.
    intros Ht B1 B2 L1 L2 Hs Hin. unfold plan in Hin.
    assert (Hrow : forall n b r, In r (ranges n b) -> fst r < snd r /\ snd r <= n).
    { intros n b r Hr. pose proof (proj2 (chain_bounds _ _ _ (proj1 (ranges_chain n b))) r Hr). lia. }
    assert (Hblk : forall a b, exists w, run_task isz kernel x1 x2 h n1 n2 sym (index_dtype_for n1 n2) (TBlock a b) = Ok w).
    { intros [s e] [s' e']. cbn. destruct (Ht (slice s e x1) (slice s' e' x2)) as (o & ->). cbn. eauto. }
    assert (HR : forall r b, In r (ranges n1 b) -> exists w, run_task isz kernel x1 x2 h n1 n2 sym (index_dtype_for n1 n2) (TRow r) = Ok w).
    { intros [s e] b Hr. destruct (Hrow _ _ _ Hr) as [R1 R2]. cbn [fst snd] in *. destruct (Ht (slice s e x1) x2) as (o & Eo).
      destruct (row_strip_ok f0 fadd isz Hcomm Hassoc H0 Hz kernel k Hk n1 n2 B1 B2 x1 x2 h L1 L2 s e o R1 R2 Eo) as (m & Em & _).
      cbn [run_task]. eauto. }
    assert (HC : forall r b, In r (ranges n2 b) -> exists w, run_task isz kernel x1 x2 h n1 n2 sym (index_dtype_for n1 n2) (TCol r) = Ok w).
    { intros [s e] b Hr. destruct (Hrow _ _ _ Hr) as [R1 R2]. cbn [fst snd] in *. destruct (Ht x1 (slice s e x2)) as (o & Eo).
      destruct (col_strip_ok f0 fadd isz Hcomm Hassoc H0 Hz kernel k Hk n1 n2 B1 B2 x1 x2 h L1 L2 s e o R1 R2 Eo) as (m & Em & _).
      cbn [run_task]. eauto. }
    destruct sym.
    - destruct d; cbn [snd] in Hin; apply in_map_iff in Hin as (p & <- & Hp); [apply Hblk|eapply HR; eauto].
    - destruct (n2 <=? n1); cbn [snd] in Hin; apply in_map_iff in Hin as (p & <- & Hp); [eapply HC|eapply HR]; eauto.
  Qed.

  Lemma distributed_total cl x1 x2 n1 n2 h batch sym d :
    faithful cl -> (forall xs ys, exists o, kernel xs ys h = Ok o) ->
    (Z.of_nat n1 < 2 ^ 63)%Z -> (Z.of_nat n2 < 2 ^ 63)%Z -> length x1 = n1 -> length x2 = n2 ->
    (sym = true -> x1 = x2 /\ forall a b, k a b h = k b a h) -> 0 < n1 -> 0 < n2 ->
    exists ev K, distributed_covariance isz kernel cl h x1 n1 x2 n2 true batch sym d = (ev, Ok K).
  Proof.
    intros Hl Ht B1 B2 L1 L2 Hs P1 P2. unfold distributed_covariance.
    assert (sym = true -> n1 = n2) as Hn by (intros E; destruct (Hs E); congruence).
    assert (sym && negb (n1 =? n2) = false) as ->.
    { destruct sym; [|reflexivity]. rewrite (Hn eq_refl), Nat.eqb_refl. reflexivity. }
    cbn [negb]. rewrite andb_false_r.
    pose proof (assembled x1 x2 n1 n2 h batch sym d) as A.
    pose proof (fun t => run_task_total x1 x2 n1 n2 h sym batch d t Ht B1 B2 L1 L2 Hn) as T.
    destruct (plan n1 n2 batch sym d) as [strat tasks]. cbn [snd] in T.
    assert (exists rs, map (run_task isz kernel x1 x2 h n1 n2 sym (index_dtype_for n1 n2)) tasks = map (@Ok cexn wres) rs) as (rs & Er).
    { clear A. induction tasks as [|t ts IH]; [now exists []|].
      destruct (T t (or_introl eq_refl)) as (w & Ew). destruct IH as (rs & Er); [intros; apply T; now right|].
      exists (w :: rs). cbn. now rewrite Ew, Er. }
    set (results := combine _ _).
    assert (Es : map snd results = map (@Ok cexn wres) rs) by (unfold results; now rewrite combine_seq_snd).
    pose proof (Permutation_map snd (Hl results)) as Hp. rewrite Es in Hp.
    apply Permutation_map_inv in Hp as (ws & Ew & Hw).
    rewrite (harvest_total _ ws Ew). cbn [rbind].
    destruct (A rs ws B1 B2 L1 L2 Hs Er (Permutation_sym Hw)) as (K & EK & _). rewrite EK. cbn [rbind].
    assert (n1 * n2 =? 0 = false) as -> by (apply Nat.eqb_neq; nia). eauto.
  Qed.

  Lemma shift_get a b l i j : get f0 fadd (shift (F:=F) a b l) i j =
    if (a <=? i) && (b <=? j) then get f0 fadd l (i - a) (j - b)
    else get f0 fadd (shift (F:=F) a b l) i j.
  Proof.
    destruct (Nat.leb_spec a i), (Nat.leb_spec b j); cbn [andb]; auto.
    apply get_map; auto. intros t _. unfold at_. cbn [tr tc]. eqbs.
  Qed.

  Lemma augmented_ok K B D x1 x2 h : is_matrix f0 fadd K (length x1) (length x1) (cov f0 k x1 x1 h) ->
    is_matrix f0 fadd B (length x1) (length x2) (cov f0 k x1 x2 h) ->
    is_matrix f0 fadd D (length x2) (length x2) (cov f0 k x2 x2 h) ->
    (forall a b, k a b h = k b a h) ->
    exists M, stack_augmented K B D = Ok M /\
      is_matrix f0 fadd M (length (x1 ++ x2)) (length (x1 ++ x2)) (cov f0 k (x1 ++ x2) (x1 ++ x2) h).
  Proof.
    intros (K1 & K2 & K3 & K4) (B1 & B2 & B3 & B4) (D1 & D2 & D3 & D4) Hs.
    unfold stack_augmented. rewrite K1, K2, B1, B2, D1, D2, !Nat.eqb_refl. cbn [andb].
    eexists. split; [reflexivity|]. unfold is_matrix. cbn [nr nc ents]. rewrite app_length.
    assert (SBt : in_shape (length x2) (length x1) (ents (transpose_sp B))).
    { intros t Ht. unfold transpose_sp in Ht. cbn in Ht. apply in_map_iff in Ht as (u & <- & Hu). specialize (B3 u Hu). cbn. lia. }
    assert (GBt : forall i j, get f0 fadd (ents (transpose_sp B)) i j = get f0 fadd (ents B) j i).
    { intros i j. unfold transpose_sp. cbn [ents]. apply get_map; auto. intros t _. unfold at_. cbn. apply andb_comm. }
    split; [reflexivity|]. split; [reflexivity|]. split.
    { intros t Ht. apply in_app_or in Ht as [Ht|Ht]; [specialize (K3 t Ht); lia|].
      apply in_app_or in Ht as [Ht|Ht]; [|apply in_app_or in Ht as [Ht|Ht]];
      unfold shift in Ht; apply in_map_iff in Ht as (u & <- & Hu); cbn [tr tc];
      [specialize (B3 u Hu)|specialize (SBt u Hu)|specialize (D3 u Hu)]; lia. }
    intros i j Hi Hj. rewrite !get_app by assumption.
    assert (Zs : forall a b r c l, in_shape r c l -> i < a \/ j < b \/ a + r <= i \/ b + c <= j -> get f0 fadd (shift (F:=F) a b l) i j = f0).
    { intros a b r c l Hl Hout. apply get_none; auto. intros t Ht. unfold shift in Ht. apply in_map_iff in Ht as (u & <- & Hu).
      specialize (Hl u Hu). unfold at_. cbn [tr tc]. lia. }
    assert (Es : forall a b l, a <= i -> b <= j -> get f0 fadd (shift (F:=F) a b l) i j = get f0 fadd l (i - a) (j - b)).
    { intros a b l Ha Hb. apply get_map; auto. intros t _. unfold at_. cbn [tr tc]. eqbs. }
    unfold cov. destruct (Nat.lt_ge_cases i (length x1)), (Nat.lt_ge_cases j (length x1)).
    - rewrite (Zs _ _ _ _ _ B3), (Zs _ _ _ _ _ SBt), (Zs _ _ _ _ _ D3), K4 by lia.
      rewrite !(H0r f0 fadd Hcomm H0). unfold cov. now rewrite !nth_error_app1 by lia.
    - rewrite (get_out f0 fadd H0 _ _ _ _ _ K3), (Zs _ _ _ _ _ SBt), (Zs _ _ _ _ _ D3), Es, B4 by lia.
      rewrite H0, !(H0r f0 fadd Hcomm H0). unfold cov.
      rewrite (nth_error_app1 x1 x2), (nth_error_app2 x1 x2) by lia. now replace (i - 0) with i by lia.
    - rewrite (get_out f0 fadd H0 _ _ _ _ _ K3), (Zs _ _ _ _ _ B3), (Zs _ _ _ _ _ D3), Es, GBt, B4 by lia.
      rewrite !H0, !(H0r f0 fadd Hcomm H0). unfold cov.
      rewrite (nth_error_app2 x1 x2), (nth_error_app1 x1 x2) by lia. replace (j - 0) with j by lia.
      destruct (nth_error x1 j), (nth_error x2 (i - length x1)); auto.
    - rewrite (get_out f0 fadd H0 _ _ _ _ _ K3), (Zs _ _ _ _ _ B3), (Zs _ _ _ _ _ SBt), Es, D4 by lia.
      rewrite !H0. unfold cov. now rewrite !nth_error_app2 by lia.
  Qed.

  (** ** _gp2Scale_covariance *)
  Lemma gp2scale_cov_sound cl batch dist next x1 x2 h sym f1 f2 n ev K :
    lossy cl -> (Z.of_nat (length x1) < 2 ^ 63)%Z -> (Z.of_nat (length x2) < 2 ^ 63)%Z ->
    (sym = true -> x1 = x2 /\ forall a b, k a b h = k b a h) ->
    (forall f, f1 = Some f -> fdata f = x1) -> (forall f, f2 = Some f -> fdata f = x2) ->
    gp2scale_cov isz kernel batch dist cl next x1 x2 h sym f1 f2 = (n, (ev, Ok K)) ->
    is_matrix f0 fadd K (length x1) (length x2) (cov f0 k x1 x2 h).
  Proof.
    intros Hl B1 B2 Hs F1 F2 E. unfold gp2scale_cov in E.
    destruct (negb (should_distribute _ _ _ _)).
    - destruct (kernel x1 x2 h) as [o|] eqn:Eo; [|discriminate]. cbn in E. injection E as _ _ <-.
      eapply as_csr_matrix; eauto.
    - assert (G : forall n0 ev1 u1 own1 n0' ev2 u2 own2, fdata u1 = x1 -> fdata u2 = x2 ->
        (if sym && negb (length x2 =? length x1) then (n0', (ev1 ++ ev2, Err EAssertSame)) else
         let '(ev, r) := distributed_covariance isz kernel cl h (fdata u1) (length x1) (fdata u2) (length x2)
                        (fid u1 =? fid u2) batch sym dist in
         (n0', (ev1 ++ ev2 ++ ev ++ (if own1 : bool then [EvRelease (fid u1)] else []) ++
              (if own2 : bool then [EvRelease (fid u2)] else []), r))) = ((n0 : nat), (ev, Ok K)) ->
        is_matrix f0 fadd K (length x1) (length x2) (cov f0 k x1 x2 h)).
      { intros n0 ev1 u1 own1 n0' ev2 u2 own2 U1 U2 E'. destruct (sym && _); [discriminate|].
        rewrite U1, U2 in E'. destruct (distributed_covariance _ _ _ _ _ _ _ _ _ _ _ _) as [ev' r] eqn:Ed.
        injection E' as _ _ ->. eapply distributed_sound; [..|exact Ed]; auto. }
      destruct f1 as [g1|]; [pose proof (F1 _ eq_refl) as Hg1|]; (destruct sym; [destruct (Hs eq_refl) as [<- _]|destruct f2 as [g2|]; [pose proof (F2 _ eq_refl) as Hg2|]]).
      + exact (G n [] g1 false next [] g1 false Hg1 Hg1 E).
      + exact (G n [] g1 false next [] g2 false Hg1 Hg2 E).
      + exact (G n [] g1 false (S next) [EvScatter next] (Fut next x2) true Hg1 eq_refl E).
      + exact (G n [EvScatter next] (Fut next x1) true (S next) [] (Fut next x1) false eq_refl eq_refl E).
      + exact (G n [EvScatter next] (Fut next x1) true (S next) [] g2 false eq_refl Hg2 E).
      + exact (G n [EvScatter next] (Fut next x1) true (S (S next)) [EvScatter (S next)] (Fut (S next) x2) true eq_refl eq_refl E).
  Qed.
  End Alg.
End Main.
