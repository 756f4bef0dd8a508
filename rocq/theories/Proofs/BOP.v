(** Proofs about the Bayesian optimizer. *)
From Coq Require Import Reals Lra.
From Verif Require Import Model.Prelude Model.Ext Model.BO Spec.BOSpec.
Local Open Scope R_scope.

Lemma rltb_spec a b : rltb a b = true <-> a < b.
Proof. unfold rltb. destruct (Rlt_dec a b); split; auto; try discriminate; contradiction. Qed.
Lemma rltb_false a b : rltb a b = false <-> b <= a.
Proof. unfold rltb. destruct (Rlt_dec a b); split; intros; auto; try discriminate; lra. Qed.
Lemma rleb_spec a b : rleb a b = true <-> a <= b.
Proof. unfold rleb. destruct (Rle_dec a b); split; auto; try discriminate; contradiction. Qed.

Lemma clip_range u : 0 <= clip u <= 1.
Proof. unfold clip, Rmin, Rmax. destruct (Rle_dec u 0); destruct (Rle_dec _ 1); lra. Qed.
Lemma clip_id u : 0 <= u <= 1 -> clip u = u.
Proof. intros. unfold clip, Rmin, Rmax. destruct (Rle_dec u 0); destruct (Rle_dec _ 1); lra. Qed.

Lemma argbest_spec gt l : (forall a, gt a a = false) -> (forall a b c, gt a b = true -> gt b c = true -> gt a c = true) ->
  (forall a b c, gt a b = false -> gt b c = false -> gt a c = false) ->
  forall best bi pre, nth bi pre 0 = best -> (bi < length pre)%nat -> (forall x, In x pre -> gt x best = false) ->
  let r := argbest gt best bi (length pre) l in
  (r < length (pre ++ l))%nat /\ forall x, In x (pre ++ l) -> gt x (nth r (pre ++ l) 0) = false.
Proof.
  intros Hir Htr Hnt. induction l as [|a l IH]; intros best bi pre Hb Hl Hm; cbn [argbest].
  - rewrite app_nil_r, Hb. auto.
  - replace (pre ++ a :: l) with ((pre ++ [a]) ++ l) by (rewrite <- app_assoc; reflexivity).
    replace (S (length pre)) with (length (pre ++ [a])) by (rewrite app_length; cbn; lia).
    destruct (gt a best) eqn:E.
    + apply IH; [rewrite app_nth2, Nat.sub_diag by lia; reflexivity|rewrite app_length; cbn; lia|].
      intros x Hx. apply in_app_or in Hx as [Hx|[<-|[]]]; [|apply Hir]. destruct (gt x a) eqn:E2; [|reflexivity].
      specialize (Hm x Hx). rewrite (Htr _ _ _ E2 E) in Hm. discriminate Hm.
    + apply IH; [rewrite app_nth1 by lia; exact Hb|rewrite app_length; cbn; lia|].
      intros x Hx. apply in_app_or in Hx as [Hx|[<-|[]]]; auto.
Qed.
Lemma argmin_spec l : l <> [] -> (argmin l < length l)%nat /\ forall x, In x l -> nth (argmin l) l 0 <= x.
Proof.
  destruct l as [|a l]; [congruence|]. intros _. unfold argmin.
  destruct (argbest_spec rltb l) with (best := a) (bi := 0%nat) (pre := [a]) as [A B]; cbn; auto.
  - intros x. apply rltb_false. lra.
  - intros x y z. rewrite !rltb_spec. lra.
  - intros x y z. rewrite !rltb_false. lra.
  - intros x [<-|[]]. apply rltb_false. lra.
  - cbn in A, B. split; [exact A|]. intros x Hx. apply rltb_false. now apply B.
Qed.
Lemma argbest_first l : forall best bi pre, nth bi pre 0 = best -> (bi < length pre)%nat -> (forall j, (j < bi)%nat -> best < nth j pre 0) ->
  (forall x, In x pre -> best <= x) ->
  let r := argbest rltb best bi (length pre) l in forall j, (j < r)%nat -> nth r (pre ++ l) 0 < nth j (pre ++ l) 0.
Proof.
  induction l as [|a l IH]; intros best bi pre Hb Hl Hm Hp; cbn [argbest].
  - rewrite app_nil_r. intros j Hj. rewrite Hb. now apply Hm.
  - replace (pre ++ a :: l) with ((pre ++ [a]) ++ l) by (rewrite <- app_assoc; reflexivity).
    replace (S (length pre)) with (length (pre ++ [a])) by (rewrite app_length; cbn; lia).
    destruct (rltb a best) eqn:E.
    + apply rltb_spec in E. apply IH; [rewrite app_nth2, Nat.sub_diag by lia; reflexivity|rewrite app_length; cbn; lia| |].
      * intros j Hj. rewrite app_nth1 by lia. specialize (Hp (nth j pre 0) (nth_In _ _ Hj)). lra.
      * intros x Hx. apply in_app_or in Hx as [Hx|[<-|[]]]; [|lra]. specialize (Hp x Hx). lra.
    + apply rltb_false in E. apply IH; [rewrite app_nth1 by lia; exact Hb|rewrite app_length; cbn; lia| |].
      * intros j Hj. rewrite app_nth1 by lia. now apply Hm.
      * intros x Hx. apply in_app_or in Hx as [Hx|[<-|[]]]; auto.
Qed.
Lemma argmin_first l j : (j < argmin l)%nat -> nth (argmin l) l 0 < nth j l 0.
Proof.
  destruct l as [|a l]; [cbn; lia|]. unfold argmin. intros Hj.
  refine (argbest_first l a 0%nat [a] eq_refl (Nat.lt_0_succ 0) _ _ j Hj); [intros k Hk; lia|]. intros x [<-|[]]. lra.
Qed.
Lemma argmaxr_spec l : l <> [] -> (argmaxr l < length l)%nat /\ forall x, In x l -> x <= nth (argmaxr l) l 0.
Proof.
  destruct l as [|a l]; [congruence|]. intros _. unfold argmaxr.
  destruct (argbest_spec (fun x y => rltb y x) l) with (best := a) (bi := 0%nat) (pre := [a]) as [A B]; cbn; auto.
  - intros x. apply rltb_false. lra.
  - intros x y z. rewrite !rltb_spec. lra.
  - intros x y z. rewrite !rltb_false. lra.
  - intros x [<-|[]]. apply rltb_false. lra.
  - cbn in A, B. split; [exact A|]. intros x Hx. apply rltb_false. now apply (B x).
Qed.

(** ** the transform of one dimension *)
Lemma exp_le_mono a b : a <= b -> exp a <= exp b.
Proof. intros [H| ->]; [left; now apply exp_increasing|apply Rle_refl]. Qed.

Lemma from_unit1_in lo hi ls u : lo < hi -> lo <= from_unit1 (make_dim lo hi ls) u <= hi.
Proof.
  intros H. pose proof (clip_range u) as [C0 C1]. unfold from_unit1, make_dim. cbn.
  set (m := match ls with None => _ | Some r => _ end). assert (Hm : m = true -> 0 < lo).
  { unfold m. destruct ls as [[|]|]; cbn; try discriminate; intros E; apply andb_true_iff in E as [E _]; now apply rltb_spec. }
  destruct m.
  - specialize (Hm eq_refl). assert (L : ln lo < ln hi) by (apply ln_increasing; lra). rewrite (proj2 (rltb_spec _ _) L).
    assert (0 <= clip u * (ln hi - ln lo) <= 1 * (ln hi - ln lo)) by (split; [apply Rmult_le_pos|apply Rmult_le_compat_r]; lra).
    split; [apply (Rle_trans _ (exp (ln lo))); [rewrite exp_ln; lra|]|apply (Rle_trans _ (exp (ln hi))); [|rewrite exp_ln; lra]]; apply exp_le_mono; lra.
  - rewrite (proj2 (rltb_spec _ _) H). assert (0 <= clip u * (hi - lo) <= 1 * (hi - lo)) by (split; [apply Rmult_le_pos|apply Rmult_le_compat_r]; lra). lra.
Qed.
Lemma round_trip1 lo hi ls x : lo <= x <= hi -> (0 < lo -> tiny <= lo) -> from_unit1 (make_dim lo hi ls) (to_unit1 (make_dim lo hi ls) x) = x.
Proof.
  intros H Ht. unfold from_unit1, to_unit1, make_dim. cbn.
  set (m := match ls with None => _ | Some r => _ end). assert (Hm : m = true -> 0 < lo).
  { unfold m. destruct ls as [[|]|]; cbn; try discriminate; intros E; apply andb_true_iff in E as [E _]; now apply rltb_spec. }
  assert (K : forall l h w, l <= w <= h -> l + clip (clip ((w - l) / (if rltb l h then h - l else 1))) * (if rltb l h then h - l else 1) = w).
  { intros l h w Hw. rewrite (clip_id _ (clip_range _)). destruct (rltb l h) eqn:E.
    - apply rltb_spec in E. rewrite clip_id; [field; lra|]. split; [apply Rmult_le_pos; [lra|left; apply Rinv_0_lt_compat; lra]|].
      apply (Rmult_le_reg_r (h - l)); [lra|]. field_simplify; lra.
    - apply rltb_false in E. replace (w - l) with 0 by lra. rewrite clip_id by lra. lra. }
  destruct m.
  - specialize (Hm eq_refl). specialize (Ht Hm). rewrite Rmax_left by lra. rewrite K; [apply exp_ln; lra|].
    assert (M : forall a b, 0 < a -> a <= b -> ln a <= ln b). { intros a b H1 [H2| ->]; [left; now apply ln_increasing|lra]. }
    split; apply M; lra.
  - now apply K.
Qed.
Lemma round_trip2 lo hi ls u : lo < hi -> 0 <= u <= 1 -> (0 < lo -> tiny <= lo) -> to_unit1 (make_dim lo hi ls) (from_unit1 (make_dim lo hi ls) u) = u.
Proof.
  intros H Hu Ht. unfold from_unit1, to_unit1, make_dim. cbn. rewrite (clip_id u Hu).
  set (m := match ls with None => _ | Some r => _ end). assert (Hm : m = true -> 0 < lo).
  { unfold m. destruct ls as [[|]|]; cbn; try discriminate; intros E; apply andb_true_iff in E as [E _]; now apply rltb_spec. }
  destruct m.
  - specialize (Hm eq_refl). specialize (Ht Hm). assert (L : ln lo < ln hi) by (apply ln_increasing; lra). rewrite (proj2 (rltb_spec _ _) L).
    assert (0 <= u * (ln hi - ln lo)) by (apply Rmult_le_pos; lra).
    assert (lo <= exp (ln lo + u * (ln hi - ln lo))).
    { apply (Rle_trans _ (exp (ln lo))); [rewrite exp_ln; lra|]. apply exp_le_mono. lra. }
    rewrite Rmax_left by lra. rewrite ln_exp. rewrite clip_id; [field; lra|]. split.
    + apply Rmult_le_pos; [lra|]. left. apply Rinv_0_lt_compat. lra.
    + replace ((ln lo + u * (ln hi - ln lo) - ln lo) / (ln hi - ln lo)) with u by (field; lra). lra.
  - rewrite (proj2 (rltb_spec _ _) H). replace ((lo + u * (hi - lo) - lo) / (hi - lo)) with u by (field; lra). now apply clip_id.
Qed.

(** ** the search *)
Section S.
Variables (c : bo_cfg) (tf : list dimt) (objective : nat -> list R -> option ext)
  (noise_function : option (nat -> list R -> option ext)) (fixed_noise : option R) (early_stop : nat -> bool)
  (G : Type) (fit : list ev -> option G) (acquire : G -> list ev -> option (list R * ext)) (post_mean : G -> list (list R) -> option (list R)).

Definition value_of (v : ext) : R := match v with Fin r => r | _ => big end.
(** the trace is what happened: one call of the objective per entry, in order, one callback each, with the best so far *)
Definition honest (evs : list ev) (cbs : list cb) : Prop :=
  length cbs = length evs /\
  (forall i e, nth_error evs i = Some e ->
     ev_theta e = from_unit tf (ev_u e) /\ (exists v, objective i (ev_theta e) = Some v /\ ev_y e = value_of v) /\
     ev_v e = noise_for noise_function fixed_noise i (ev_theta e)) /\
  (forall i b, nth_error cbs i = Some b -> cb_iter b = i /\ cb_n b = (i + 1)%nat /\
     (exists e, In e (firstn (i + 1) evs) /\ cb_x b = ev_theta e /\ cb_f b = ev_y e) /\
     forall e, In e (firstn (i + 1) evs) -> cb_f b <= ev_y e).

Lemma best_In evs : evs <> [] -> exists e, In e evs /\ nth (argmin (map ev_y evs)) (map ev_theta evs) [] = ev_theta e /\
  nth (argmin (map ev_y evs)) (map ev_y evs) 0 = ev_y e /\ forall e', In e' evs -> ev_y e <= ev_y e'.
Proof.
  intros Hne. destruct (argmin_spec (map ev_y evs)) as [A B]; [destruct evs; [congruence|discriminate]|]. rewrite map_length in A.
  destruct (nth_error evs (argmin (map ev_y evs))) as [e|] eqn:E; [|apply nth_error_None in E; lia].
  exists e. split; [exact (nth_error_In _ _ E)|].
  assert (Y : nth (argmin (map ev_y evs)) (map ev_y evs) 0 = ev_y e) by (apply nth_error_nth; now apply map_nth_error).
  split; [apply nth_error_nth; now apply map_nth_error|]. split; [exact Y|].
  intros e' He'. rewrite <- Y. apply B. now apply in_map.
Qed.

Lemma evaluate_honest u evs cbs evs' cbs' : honest evs cbs ->
  evaluate tf objective noise_function fixed_noise u (length evs) evs cbs = Some (evs', cbs') ->
  honest evs' cbs' /\ exists e, evs' = evs ++ [e] /\ ev_u e = u.
Proof.
  intros (H1 & H2 & H3). unfold evaluate. destruct (objective _ _) as [v|] eqn:Eob; [|discriminate]. intros [= <- <-].
  set (e := Ev u (from_unit tf u) (finite_value v) _). split; [|exists e; auto].
  split; [rewrite !app_length; cbn; lia|]. split.
  - intros i e0 Hi. destruct (Nat.lt_ge_cases i (length evs)) as [L|L].
    + rewrite nth_error_app1 in Hi by exact L. now apply H2.
    + rewrite nth_error_app2 in Hi by exact L. destruct (i - length evs)%nat as [|k] eqn:E; [|destruct k; discriminate Hi].
      injection Hi as <-. assert (i = length evs) by lia. subst i. cbn. repeat split. exists v. split; [exact Eob|]. now destruct v.
  - intros i b Hi. destruct (Nat.lt_ge_cases i (length cbs)) as [L|L].
    + rewrite nth_error_app1 in Hi by exact L. rewrite firstn_app. replace (i + 1 - length evs)%nat with 0%nat by lia. cbn [firstn]. rewrite app_nil_r. now apply H3.
    + rewrite nth_error_app2 in Hi by exact L. destruct (i - length cbs)%nat as [|k] eqn:E; [|destruct k; discriminate Hi].
      injection Hi as <-. assert (i = length evs) by lia. subst i. rewrite firstn_all2 by (rewrite app_length; cbn; lia).
      destruct (best_In (evs ++ [e])) as (e1 & B1 & B2 & B3 & B4); [destruct evs; discriminate|].
      split; [reflexivity|]. split; [cbn; rewrite app_length; reflexivity|]. cbn [cb_f cb_x]. rewrite B3. split; [exists e1; auto|exact B4].
Qed.

Lemma design_spec us : forall evs cbs polls evs' cbs' polls' st, honest evs cbs -> polls = length evs ->
  design tf objective noise_function fixed_noise early_stop us evs cbs polls = Some (evs', cbs', polls', st) ->
  honest evs' cbs' /\ (length evs <= length evs' <= length evs + length us)%nat /\
  (forall k, (polls <= k < length evs')%nat -> early_stop k = false) /\
  (exists pre, us = pre ++ skipn (length evs' - length evs) us /\ map ev_u evs' = map ev_u evs ++ pre) /\
  (st = true -> early_stop (length evs') = true /\ (length evs' < length evs + length us)%nat) /\ (st = false -> length evs' = (length evs + length us)%nat /\ polls' = length evs').
Proof.
  induction us as [|u us IH]; intros evs cbs polls evs' cbs' polls' st Hh Hp; cbn [design].
  - intros [= <- <- <- <-]. split; [exact Hh|]. split; [cbn; lia|]. split; [intros; lia|]. split; [exists []; rewrite skipn_nil, !app_nil_r; auto|]. split; [intros Q; discriminate Q|]. cbn. lia.
  - destruct (early_stop polls) eqn:Es.
    + intros [= <- <- <- <-]. split; [exact Hh|]. split; [lia|]. split; [intros; lia|]. split; [exists []; rewrite Nat.sub_diag, !app_nil_r; auto|].
      split; [intros _; rewrite <- Hp; cbn; split; [auto|lia]|discriminate].
    + destruct (evaluate _ _ _ _ u (length evs) evs cbs) as [[evs1 cbs1]|] eqn:E; [|discriminate]. intros HD.
      destruct (evaluate_honest _ _ _ _ _ Hh E) as [Hh1 (e & -> & Hu)].
      assert (Hp1 : S polls = length (evs ++ [e])) by (rewrite app_length; cbn; lia).
      destruct (IH _ _ _ _ _ _ _ Hh1 Hp1 HD) as (J1 & J2 & J3 & (pre & J4 & J5) & J6 & J7).
      rewrite app_length in *. cbn [length] in *. split; [exact J1|]. split; [lia|]. split; [|split; [|split]].
      * intros k Hk. destruct (Nat.eq_dec k polls) as [->|]; [exact Es|]. apply J3. lia.
      * exists (u :: pre). replace (length evs' - length evs)%nat with (S (length evs' - (length evs + 1))) by lia. cbn [skipn app]. rewrite <- J4.
        split; [reflexivity|]. rewrite J5, map_app. cbn. rewrite Hu, <- app_assoc. reflexivity.
      * intros H. destruct (J6 H). split; [assumption|lia].
      * intros H. destruct (J7 H). lia.
Qed.

Lemma search_spec left : forall gp stall pb pu evs cbs polls evs' cbs' polls' st why gp', honest evs cbs -> polls = length evs ->
  search c tf objective noise_function fixed_noise early_stop G fit acquire left gp stall pb pu evs cbs polls = Ok (evs', cbs', polls', st, why, gp') ->
  honest evs' cbs' /\ (length evs <= length evs' <= length evs + left)%nat /\ (exists tl, evs' = evs ++ tl) /\
  (forall k, (polls <= k < length evs')%nat -> early_stop k = false) /\
  (st = true <-> why = Stopped) /\ (st = true -> early_stop (length evs') = true) /\
  (why = Converged -> (0 < patience c)%Z).
Proof.
  induction left as [|left IH]; intros gp stall pb pu evs cbs polls evs' cbs' polls' st why gp' Hh Hp; cbn [search].
  - intros [= <- <- <- <- <- <-]. split; [exact Hh|]. split; [lia|]. split; [exists []; now rewrite app_nil_r|]. repeat split; intros; try discriminate; lia.
  - destruct (early_stop polls) eqn:Es.
    { intros [= <- <- <- <- <- <-]. split; [exact Hh|]. split; [lia|]. split; [exists []; now rewrite app_nil_r|]. repeat split; intros; try discriminate; try lia. now rewrite <- Hp. }
    destruct (match gp with Some g => _ | None => _ end) as [g|].
    2:{ intros [= <- <- <- <- <- <-]. split; [exact Hh|]. split; [lia|]. split; [exists []; now rewrite app_nil_r|]. repeat split; intros; try discriminate; lia. }
    destruct (acquire g evs) as [[u ei]|]; [|discriminate]. destruct (rltb 0 (ei_tol c) && eltb ei (Fin (ei_tol c))).
    { intros [= <- <- <- <- <- <-]. split; [exact Hh|]. split; [lia|]. split; [exists []; now rewrite app_nil_r|]. repeat split; intros; try discriminate; lia. }
    destruct (evaluate _ _ _ _ u (length evs) evs cbs) as [[evs1 cbs1]|] eqn:E; [|discriminate].
    destruct (evaluate_honest _ _ _ _ _ Hh E) as [Hh1 (e & -> & Hu)].
    destruct (Z.ltb 0 (patience c) && Z.leb (patience c) _) eqn:EP.
    + intros [= <- <- <- <- <- <-]. rewrite app_length. cbn [length]. split; [exact Hh1|]. split; [lia|]. split; [exists [e]; reflexivity|].
      apply andb_true_iff in EP as [EP _]. apply Z.ltb_lt in EP.
      split; [intros k Hk; assert (k = polls) by lia; congruence|]. repeat split; intros; try discriminate; lia.
    + intros HS. assert (Hp1 : S polls = length (evs ++ [e])) by (rewrite app_length; cbn; lia).
      destruct (IH _ _ _ _ _ _ _ _ _ _ _ _ _ Hh1 Hp1 HS) as (J1 & J2 & (tl & J3) & J4 & J5).
      rewrite app_length in *. cbn [length] in *. split; [exact J1|]. split; [lia|]. split; [exists (e :: tl); rewrite J3, <- app_assoc; reflexivity|].
      split; [|exact J5]. intros k Hk. destruct (Nat.eq_dec k polls) as [->|]; [exact Es|]. apply J4. lia.
Qed.

Lemma incumbent_unique evs e : incumbent evs e -> best_y evs = ev_y e /\ best_u evs = ev_u e.
Proof.
  intros (i & Hi & Hm & Hf). assert (Hl : (i < length evs)%nat) by (apply nth_error_Some; congruence).
  destruct (argmin_spec (map ev_y evs)) as [A B]; [destruct evs; [cbn in Hl; lia|discriminate]|]. rewrite map_length in A.
  destruct (nth_error evs (argmin (map ev_y evs))) as [e'|] eqn:E; [|apply nth_error_None in E; lia].
  assert (Y : nth (argmin (map ev_y evs)) (map ev_y evs) 0 = ev_y e') by (apply nth_error_nth; now apply map_nth_error).
  assert (Yi : nth i (map ev_y evs) 0 = ev_y e) by (apply nth_error_nth; now apply map_nth_error).
  assert (argmin (map ev_y evs) = i).
  { destruct (Nat.lt_trichotomy (argmin (map ev_y evs)) i) as [L|[L|L]]; [|exact L|].
    - specialize (Hf _ _ L E). specialize (B (ev_y e)). rewrite Y in B. assert (In (ev_y e) (map ev_y evs)) by (apply in_map; exact (nth_error_In _ _ Hi)). specialize (B H). lra.
    - apply argmin_first in L. rewrite Y, Yi in L. specialize (Hm _ (nth_error_In _ _ E)). lra. }
  unfold best_y, best_u. rewrite H. split; [exact Yi|]. apply nth_error_nth. now apply map_nth_error.
Qed.
Lemma worst_unique evs w : In w evs -> (forall e, In e evs -> ev_y e <= ev_y w) -> worst_y evs = ev_y w.
Proof.
  intros Hw Hm. destruct (argmaxr_spec (map ev_y evs)) as [A B]; [destruct evs; [destruct Hw|discriminate]|]. rewrite map_length in A.
  unfold worst_y. specialize (B (ev_y w) (in_map _ _ _ Hw)). apply Rle_antisym; [|exact B].
  destruct (nth_error evs (argmaxr (map ev_y evs))) as [e'|] eqn:E; [|apply nth_error_None in E; lia].
  rewrite (nth_error_nth _ _ 0 (map_nth_error ev_y _ _ E)). apply Hm. exact (nth_error_In _ _ E).
Qed.
Lemma no_gain_progress evs k : no_gain c (best_y (firstn k evs)) (best_u (firstn k evs)) (firstn (S k) evs) = true ->
  no_progress (f_rtol c) (x_tol c) evs k.
Proof.
  intros H old new w Ho Hn Hw Hwm. destruct (incumbent_unique _ _ Ho) as [O1 O2]. destruct (incumbent_unique _ _ Hn) as [N1 N2].
  unfold no_gain in H. rewrite (worst_unique _ _ Hw Hwm), O1, O2, N1, N2 in H. apply andb_true_iff in H as [H1 H2].
  apply rleb_spec in H1, H2. split; [|exact H2].
  assert (P : forall q, 0 < q -> (ev_y old - ev_y new) / q <= f_rtol c -> ev_y old - ev_y new <= f_rtol c * q).
  { intros q Hq Hd. apply (Rmult_le_compat_r q) in Hd; [|lra]. unfold Rdiv in Hd. rewrite Rmult_assoc, Rinv_l, Rmult_1_r in Hd by lra. exact Hd. }
  destruct (Rlt_dec (ev_y new) (ev_y w)) as [L|L].
  - apply P; [lra|]. replace (rltb 0 (ev_y w - ev_y new)) with true in H1 by (symmetry; apply rltb_spec; lra). exact H1.
  - apply P; [apply Rlt_le_trans with 1; [lra|apply Rmax_r]|]. replace (rltb 0 (ev_y w - ev_y new)) with false in H1 by (symmetry; apply rltb_false; lra). exact H1.
Qed.

(** the last [stall] evaluations brought no progress *)
Lemma search_converged left : forall gp stall evs cbs polls evs' cbs' polls' st gp', honest evs cbs ->
  (0 <= stall)%Z -> (forall k, (Z.of_nat (length evs) - stall <= Z.of_nat k)%Z -> (k < length evs)%nat ->
     no_gain c (best_y (firstn k evs)) (best_u (firstn k evs)) (firstn (S k) evs) = true) ->
  search c tf objective noise_function fixed_noise early_stop G fit acquire left gp stall (best_y evs) (best_u evs) evs cbs polls = Ok (evs', cbs', polls', st, Converged, gp') ->
  (0 < patience c)%Z /\ (Z.of_nat (length evs) - stall + patience c <= Z.of_nat (length evs'))%Z /\
  (forall k, (Z.of_nat (length evs') - patience c <= Z.of_nat k)%Z -> (k < length evs')%nat ->
     no_gain c (best_y (firstn k evs')) (best_u (firstn k evs')) (firstn (S k) evs') = true).
Proof.
  induction left as [|left IH]; intros gp stall evs cbs polls evs' cbs' polls' st gp' Hh Hs Hk; cbn [search]; [discriminate|].
  destruct (early_stop polls); [discriminate|]. destruct (match gp with Some g => _ | None => _ end) as [g|]; [|discriminate].
  destruct (acquire g evs) as [[u ei]|]; [|discriminate]. destruct (rltb 0 (ei_tol c) && eltb ei (Fin (ei_tol c))); [discriminate|].
  destruct (evaluate _ _ _ _ u (length evs) evs cbs) as [[evs1 cbs1]|] eqn:E; [|discriminate].
  destruct (evaluate_honest _ _ _ _ _ Hh E) as [Hh1 (e & -> & Hu)].
  set (stall' := if no_gain _ _ _ _ then (stall + 1)%Z else 0%Z).
  assert (L1 : length (evs ++ [e]) = S (length evs)) by (rewrite app_length; cbn; lia).
  assert (S' : (0 <= stall' <= stall + 1)%Z) by (unfold stall'; destruct (no_gain _ _ _ _); lia).
  assert (Hk' : forall k, (Z.of_nat (length (evs ++ [e])) - stall' <= Z.of_nat k)%Z -> (k < length (evs ++ [e]))%nat ->
     no_gain c (best_y (firstn k (evs ++ [e]))) (best_u (firstn k (evs ++ [e]))) (firstn (S k) (evs ++ [e])) = true).
  { rewrite L1. intros k A B. unfold stall' in A. destruct (no_gain _ _ _ (evs ++ [e])) eqn:EN; [|lia].
    destruct (Nat.eq_dec k (length evs)) as [->|Hne].
    - rewrite firstn_app, firstn_all, Nat.sub_diag, firstn_O, app_nil_r. rewrite <- L1, firstn_all. exact EN.
    - rewrite !firstn_app. replace (k - length evs)%nat with 0%nat by lia. replace (S k - length evs)%nat with 0%nat by lia. rewrite firstn_O, !app_nil_r. apply Hk; lia. }
  destruct (Z.ltb 0 (patience c) && Z.leb (patience c) stall') eqn:EP.
  - intros [= <- <- <- <- <-]. apply andb_true_iff in EP as [EP1 EP2]. apply Z.ltb_lt in EP1. apply Z.leb_le in EP2.
    split; [exact EP1|]. split; [lia|]. intros k A B. apply Hk'; lia.
  - intros HS. destruct (IH _ _ _ _ _ _ _ _ _ _ Hh1 (proj1 S') Hk' HS) as (J1 & J2 & J3). split; [exact J1|]. split; [lia|exact J3].
Qed.
End S.
