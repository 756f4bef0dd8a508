From Verif Require Import Model.Prelude Spec.SharingSpec Model.Sharing Spec.SharingRules.

Section P.
  Context {A W : Type} (dummy : A).
  Variables (join : A -> A -> A) (kern : A -> A -> A) (kern_block : A -> A -> A -> A -> A) (mean : A -> A -> A -> A)
    (mean_append : A -> A -> A -> A -> A -> A) (factor : A -> A -> A -> A -> W) (refactor : W -> A -> A -> A -> A -> W)
    (post : A -> A -> A -> W -> A -> A).
  Hypothesis kern_ok : forall xo xn h, kern_block (kern xo h) xo xn h = kern (join xo xn) h.
  Hypothesis mean_ok : forall xo yo xn yn h,
    mean_append (mean xo yo h) xn (join xo xn) (join yo yn) h = mean (join xo xn) (join yo yn) h.
  Hypothesis factor_ok : forall xo yo no xn yn nn h,
    refactor (factor (kern xo h) (mean xo yo h) no yo)
             (kern (join xo xn) h) (mean (join xo xn) (join yo yn) h) (join no nn) (join yo yn)
    = factor (kern (join xo xn) h) (mean (join xo xn) (join yo yn) h) (join no nn) (join yo yn).

  Notation state := (@st A W).
  Notation Exec := (exec dummy join kern kern_block mean mean_append factor refactor post).
  Notation Emit := (emit dummy join kern kern_block mean mean_append factor refactor post).
  Notation Events := (events dummy join kern kern_block mean mean_append factor refactor post).
  Notation Rd := (rd dummy).
  Notation runs := (runs dummy join kern kern_block mean mean_append factor refactor post).
  Notation safe := (safe dummy join kern kern_block mean mean_append factor refactor post).
  Notation fresh_answer := (fresh_answer kern mean factor post).

  Lemma rd_app : forall hp l a, a < length hp -> Rd (hp ++ l) a = Rd hp a.
  Proof. intros; unfold rd; apply app_nth1; assumption. Qed.
  Lemma rd_at : forall hp l i, Rd (hp ++ l) (i + length hp) = nth i l dummy.
  Proof. intros; unfold rd; rewrite app_nth2 by lia; f_equal; lia. Qed.
  Lemma wr_length : forall (l : list A) a v, length (wr l a v) = length l.
  Proof. induction l as [|z l IH]; intros [|a] v; simpl; auto. Qed.
  Lemma rd_wr : forall hp a b v, a <> b -> Rd (wr hp a v) b = Rd hp b.
  Proof.
    unfold rd; induction hp as [|z hp IH]; destruct a, b; simpl; intros; auto; try lia.
  Qed.

  Definition wf (s : state) : Prop :=
    (forall a, In a (env s) -> a < length (hp s)) /\
    (forall o, gp s = Some o -> forall a, In a (held o) -> a < length (hp s)).
  Lemma wf_loc : forall s x, wf s -> x < length (env s) -> loc s x < length (hp s).
  Proof. intros s x [H _] Hx; apply H; unfold loc; apply nth_In; assumption. Qed.

  Ltac heldin H := unfold held in H; cbn [In ox oy on oh oK om] in H; repeat (destruct H as [<-|H]); [..|destruct H].

  Lemma wf_rebuild : forall s x y n h, wf s -> x < length (hp s) -> y < length (hp s) -> n < length (hp s) -> h < length (hp s) ->
    wf (rebuild dummy kern mean factor s x y n h).
  Proof.
    intros s x y n h [H1 H2] Hx Hy Hn Hh; split; cbn [rebuild env hp gp].
    - intros a Ha; rewrite app_length; specialize (H1 a Ha); lia.
    - intros o [= <-] a Ha; rewrite app_length; cbn [length]; heldin Ha; lia.
  Qed.
  Lemma wf_alloc : forall s v, wf s -> wf (alloc s v).
  Proof.
    intros s v [H1 H2]; split; cbn [alloc env hp gp].
    - intros a Ha; rewrite app_length; cbn [length]; apply in_app_or in Ha; destruct Ha as [Ha|[<-|[]]]; [specialize (H1 a Ha)|]; lia.
    - intros o Ho a Ha; rewrite app_length; specialize (H2 o Ho a Ha); lia.
  Qed.
  Lemma wf_share : forall s f, wf s -> (forall o : @obj W, In (f o) (held o)) -> wf (share s f).
  Proof.
    intros s f [H1 H2] Hf; unfold share; destruct (gp s) as [o|] eqn:E; [|split; rewrite ?E; auto].
    split; cbn [env hp gp].
    - intros a Ha; apply in_app_or in Ha; destruct Ha as [Ha|[<-|[]]]; auto. apply (H2 o eq_refl), Hf.
    - intros o' Ho' a Ha. apply (H2 o' ltac:(congruence) a Ha).
  Qed.
  Lemma wf_exec : forall s c, wf s -> bound s c -> wf (Exec s c).
  Proof.
    intros s c Hs Hc; destruct c; cbn [exec].
    - apply wf_alloc, Hs.
    - destruct Hs as [H1 H2]; split; cbn [env hp gp]; intros; rewrite wr_length; eauto.
    - destruct Hc as (?&?&?&?); apply wf_rebuild; auto using wf_loc.
    - destruct Hc as (_&Bx&By&Bn). destruct (gp s) as [o|] eqn:E; [|assumption].
      destruct Hs as [H1 H2]; split; cbn [extend env hp gp].
      + intros a Ha; rewrite app_length; specialize (H1 a Ha); lia.
      + intros o' [= <-] a Ha; rewrite app_length; cbn [length]. pose proof (H2 o E (oh o)) as Hh.
        assert (oh o < length (hp s)) by (apply Hh; cbn; auto).
        heldin Ha; lia.
    - destruct Hc as (_&?&?&?). destruct (gp s) as [o|] eqn:E; [|assumption].
      apply wf_rebuild; auto using wf_loc. apply (proj2 Hs o E); cbn; auto.
    - destruct Hc as (_&?). destruct (gp s) as [o|] eqn:E; [|assumption].
      apply wf_rebuild; auto using wf_loc; apply (proj2 Hs o E); cbn; auto.
    - destruct (gp s) as [o|] eqn:E; [|assumption].
      pose proof (wf_alloc s v Hs) as Ha.
      apply wf_rebuild; [exact Ha|apply (proj2 Ha o E); cbn; auto..|cbn [alloc hp]; rewrite app_length; cbn; lia].
    - apply wf_share; cbn; auto.
    - apply wf_share; cbn; auto.
    - apply wf_share; cbn; auto.
    - apply wf_share; cbn; auto 10.
    - apply wf_share; cbn; auto 10.
    - apply wf_share; cbn; auto 10.
    - destruct (gp s) as [o|] eqn:E; [|assumption]. apply wf_alloc, Hs.
  Qed.

  (** the object agrees with what it was given *)
  Definition agrees (s : state) (g : option (A * A * A * A)) : Prop :=
    match gp s with
    | None => True
    | Some o => exists x y n h, g = Some (x, y, n, h) /\ Rd (hp s) (ox o) = x /\ Rd (hp s) (oy o) = y /\
        Rd (hp s) (on o) = n /\ Rd (hp s) (oh o) = h /\ Rd (hp s) (oK o) = kern x h /\ Rd (hp s) (om o) = mean x y h /\
        oW o = factor (kern x h) (mean x y h) n y
    end.
  Lemma agrees_mono : forall s s' g, gp s' = gp s -> (forall o, gp s = Some o -> forall a, In a (held o) -> Rd (hp s') a = Rd (hp s) a) ->
    agrees s g -> agrees s' g.
  Proof.
    intros s s' g E H Hs; unfold agrees in *; rewrite E; destruct (gp s) as [o|]; [|exact I].
    specialize (H o eq_refl). destruct Hs as (x&y&n&h&Hg&H1&H2&H3&H4&H5&H6&H7). exists x, y, n, h.
    rewrite !H by (cbn; auto 10). auto 10.
  Qed.
  Lemma agrees_rebuild : forall s x y n h, wf s -> x < length (hp s) -> y < length (hp s) -> n < length (hp s) -> h < length (hp s) ->
    agrees (rebuild dummy kern mean factor s x y n h) (Some (Rd (hp s) x, Rd (hp s) y, Rd (hp s) n, Rd (hp s) h)).
  Proof.
    intros s x y n h Hs Hx Hy Hn Hh. unfold agrees; cbn [rebuild gp ox oy on oh oK om oW hp].
    do 4 eexists; split; [reflexivity|]. rewrite !rd_app by assumption.
    rewrite (rd_at (hp s) _ 0 : Rd _ (length (hp s)) = _), (rd_at (hp s) _ 1 : Rd _ (S (length (hp s))) = _). auto 10.
  Qed.

  Lemma given_snoc : forall l e, given join (l ++ [e]) = note join (given join l) e.
  Proof. intros; unfold given; rewrite fold_left_app; reflexivity. Qed.
  Lemma given_nil : forall l, given join (l ++ []) = given join l.
  Proof. intros; rewrite app_nil_r; reflexivity. Qed.

  Lemma agrees_share : forall s f g, agrees s g -> agrees (share s f) g.
  Proof. intros s f g H; unfold share; destruct (gp s) eqn:E; [|assumption]. apply (agrees_mono s); auto. Qed.
  Lemma agrees_alloc : forall s v g, wf s -> agrees s g -> agrees (alloc s v) g.
  Proof.
    intros s v g Hs H; apply (agrees_mono s); auto. cbn [alloc hp]; intros o E a Ha; apply rd_app, (proj2 Hs o E a Ha).
  Qed.

  Lemma agrees_exec : forall s c l, wf s -> bound s c -> harmless s c -> agrees s (given join l) ->
    agrees (Exec s c) (given join (l ++ Emit s c)).
  Proof.
    intros s c l Hs Hb Hh H; destruct c; cbn [exec emit].
    - rewrite given_nil; apply agrees_alloc; auto.
    - rewrite given_nil. destruct (gp s) as [o|] eqn:E; [|exact I].
      apply (agrees_mono s); [cbn [gp]; congruence| |assumption].
      intros o' E' a Ha. cbn [hp]. unfold harmless in Hh; rewrite E in Hh. rewrite E in E'; injection E' as <-.
      apply rd_wr. intros Hl; apply Hh; rewrite Hl; exact Ha.
    - destruct Hb as (?&?&?&?). rewrite given_snoc. cbn [note].
      replace (Some (val dummy s x, _, _, _)) with (Some (Rd (hp s) (loc s x), Rd (hp s) (loc s y), Rd (hp s) (loc s n), Rd (hp s) (loc s h))) by reflexivity.
      apply agrees_rebuild; auto using wf_loc.
    - destruct Hb as (_&Bx&By&Bn). destruct (gp s) as [o|] eqn:E; [|unfold agrees; rewrite E; exact I].
      rewrite given_snoc. pose proof H as H'. unfold agrees in H'; rewrite E in H'.
      destruct H' as (x0&y0&n0&h0&Hg&H1&H2&H3&H4&H5&H6&H7).
      rewrite Hg; cbn [note]. unfold agrees; cbn [extend gp ox oy on oh oK om oW hp].
      do 4 eexists; split; [reflexivity|].
      assert (oh o < length (hp s)) by (apply (proj2 Hs o E); cbn; auto).
      rewrite (rd_at (hp s) _ 0 : Rd _ (length (hp s)) = _), (rd_at (hp s) _ 1 : Rd _ (1 + length (hp s)) = _),
        (rd_at (hp s) _ 2 : Rd _ (2 + length (hp s)) = _), (rd_at (hp s) _ 3 : Rd _ (3 + length (hp s)) = _),
        (rd_at (hp s) _ 4 : Rd _ (4 + length (hp s)) = _), rd_app by assumption. cbn [nth].
      rewrite H1, H2, H3, H4, H5, H6, H7. unfold val.
      rewrite !kern_ok, !mean_ok. destruct rank_n; rewrite ?factor_ok; auto 10.
    - destruct Hb as (_&Bx&By&Bn). destruct (gp s) as [o|] eqn:E; [|unfold agrees; rewrite E; exact I].
      rewrite given_snoc. pose proof H as H'. unfold agrees in H'; rewrite E in H'.
      destruct H' as (x0&y0&n0&h0&Hg&H1&H2&H3&H4&H5&H6&H7). rewrite Hg; cbn [note]. rewrite <- H4.
      apply agrees_rebuild; auto using wf_loc. apply (proj2 Hs o E); cbn; auto.
    - destruct Hb as (_&Bx). destruct (gp s) as [o|] eqn:E; [|unfold agrees; rewrite E; exact I].
      rewrite given_snoc. pose proof H as H'. unfold agrees in H'; rewrite E in H'.
      destruct H' as (x0&y0&n0&h0&Hg&H1&H2&H3&H4&H5&H6&H7). rewrite Hg; cbn [note]. rewrite <- H1, <- H2, <- H3.
      apply agrees_rebuild; auto using wf_loc; apply (proj2 Hs o E); cbn; auto.
    - destruct (gp s) as [o|] eqn:E; [|unfold agrees; rewrite E; exact I].
      rewrite given_snoc. pose proof H as H'. unfold agrees in H'; rewrite E in H'.
      destruct H' as (x0&y0&n0&h0&Hg&H1&H2&H3&H4&H5&H6&H7). rewrite Hg; cbn [note].
      pose proof (wf_alloc s v Hs) as Ha.
      assert (L : forall a, In a (held o) -> a < length (hp s)) by (apply (proj2 Hs o E)).
      pose proof (agrees_rebuild (alloc s v) (ox o) (oy o) (on o) (length (hp s)) Ha) as R.
      cbn [alloc hp] in R. rewrite app_length in R; cbn [length] in R.
      assert (Lx : ox o < length (hp s)) by (apply L; cbn; auto).
      assert (Ly : oy o < length (hp s)) by (apply L; cbn; auto).
      assert (Ln : on o < length (hp s)) by (apply L; cbn; auto).
      specialize (R ltac:(lia) ltac:(lia) ltac:(lia) ltac:(lia)).
      rewrite !(rd_app (hp s) [v]) in R by assumption.
      rewrite (rd_at (hp s) [v] 0 : Rd _ (length (hp s)) = _) in R. rewrite H1, H2, H3 in R. exact R.
    - destruct (gp s) eqn:E; rewrite given_nil; apply agrees_share; auto.
    - destruct (gp s) eqn:E; rewrite given_nil; apply agrees_share; auto.
    - destruct (gp s) eqn:E; rewrite given_nil; apply agrees_share; auto.
    - destruct (gp s) eqn:E; rewrite given_nil; apply agrees_share; auto.
    - destruct (gp s) eqn:E; rewrite given_nil; apply agrees_share; auto.
    - destruct (gp s) eqn:E; rewrite given_nil; apply agrees_share; auto.
    - destruct (gp s) as [o|] eqn:E; [|unfold agrees; rewrite E; exact I].
      rewrite given_snoc; cbn [note]. destruct (given join l) as [[[[? ?] ?] ?]|] eqn:G; apply agrees_alloc; auto.
  Qed.

  Lemma emit_predict : forall s c l q r, wf s -> bound s c -> agrees s (given join l) ->
    In (CPredict q r) (Emit s c) -> Emit s c = [CPredict q r] /\
    exists x y n h, given join l = Some (x, y, n, h) /\ r = fresh_answer x y n h q.
  Proof.
    intros s c l q r Hs Hb H Hi; destruct c; cbn [emit] in *; destruct (gp s) as [o|] eqn:E; cbn [In] in Hi;
      try contradiction; try (destruct Hi as [Hi|Hi]; [discriminate|contradiction]).
    - destruct Hi as [Hi|[]]. injection Hi as Hq Hr. split; [f_equal; f_equal; assumption|].
      unfold agrees in H; rewrite E in H. destruct H as (x0&y0&n0&h0&Hg&H1&H2&H3&H4&H5&H6&H7).
      exists x0, y0, n0, h0; split; [assumption|]. rewrite <- Hr. cbn [exec]. rewrite E. cbn [alloc env hp].
      rewrite last_last. rewrite (rd_at (hp s) _ 0 : Rd _ (length (hp s)) = _). cbn [nth].
      unfold SharingRules.fresh_answer. rewrite H1, H2, H4, H7, Hq. reflexivity.
  Qed.

  Lemma emit_short : forall s c, Emit s c = [] \/ exists e, Emit s c = [e].
  Proof. intros s c; destruct c; cbn [emit]; destruct (gp s); eauto. Qed.

  Lemma events_ok : forall p s l, wf s -> runs s p -> safe s p -> agrees s (given join l) ->
    forall before q r after, Events s p = before ++ CPredict q r :: after ->
    exists x y n h, given join (l ++ before) = Some (x, y, n, h) /\ r = fresh_answer x y n h q.
  Proof.
    induction p as [|c p IH]; intros s l Hs Hr Hsafe H before q r after E.
    - destruct before; discriminate.
    - destruct Hr as [Hb Hr]; destruct Hsafe as [Hh Hsafe]. cbn [events] in E.
      assert (K : forall b', Events (Exec s c) p = b' ++ CPredict q r :: after ->
        exists x y n h, given join ((l ++ Emit s c) ++ b') = Some (x, y, n, h) /\ r = fresh_answer x y n h q).
      { intros b' Eb. apply (IH (Exec s c) (l ++ Emit s c) (wf_exec s c Hs Hb) Hr Hsafe (agrees_exec s c l Hs Hb Hh H) b' q r after Eb). }
      destruct (emit_short s c) as [En|[e En]]; rewrite En in E.
      + destruct (K before E) as (x&y&n&h&G&R). rewrite En, app_nil_r in G. eauto 10.
      + destruct before as [|b before]; cbn [app] in E; injection E as E1 E2.
        * rewrite app_nil_r. subst e. apply (emit_predict s c l q r Hs Hb H). rewrite En; left; reflexivity.
        * subst b. destruct (K before E2) as (x&y&n&h&G&R). rewrite En, <- app_assoc in G. eauto 10.
  Qed.

  Lemma wf_start : wf (@start A W).
  Proof. split; [intros a []|discriminate]. Qed.

  Theorem safe_owns : forall p, runs (@start A W) p -> safe (@start A W) p ->
    owns join fresh_answer (Events (@start A W) p).
  Proof.
    intros p Hr Hs before q r after E.
    destruct (events_ok p start [] wf_start Hr Hs I before q r after E) as (x&y&n&h&G&R). cbn [app] in G. eauto 10.
  Qed.

  (** appending detaches the data from every array of the caller *)
  Lemma append_detaches : forall s x y n rk o, wf s -> gp (Exec s (Append x y n rk)) = Some o -> gp s <> None ->
    forall v, v < length (env s) -> ~ In (loc (Exec s (Append x y n rk)) v) [ox o; oy o; on o; oK o; om o].
  Proof.
    intros s x y n rk o Hs Ho Hg v Hv. cbn [exec] in *. destruct (gp s) as [o'|] eqn:E; [|congruence].
    cbn [extend gp] in Ho. injection Ho as <-. cbn [ox oy on oK om]. unfold loc; cbn [extend env].
    assert (L : nth v (env s) 0 < length (hp s)) by (apply (wf_loc s v Hs Hv)).
    cbn [In]. intros H; repeat (destruct H as [H|H]); try lia; destruct H.
  Qed.

  Definition apart (s : state) (kept : list var) : Prop := forall v, v < length (env s) -> ~ In v kept ->
    (forall w, w < length (env s) -> w <> v -> loc s w <> loc s v) /\
    (forall o, gp s = Some o -> ~ In (loc s v) (held o)).

  Lemma loc_old : forall (s : state) a, forall v, v < length (env s) -> nth v (env s ++ [a]) 0 = loc s v.
  Proof. intros; unfold loc; apply app_nth1; assumption. Qed.
  Lemma loc_new : forall (s : state) a, nth (length (env s)) (env s ++ [a]) 0 = a.
  Proof. intros; rewrite app_nth2, Nat.sub_diag by lia; reflexivity. Qed.

  (** a new variable bound to a new array *)
  Lemma apart_fresh : forall s s' kept v, wf s -> apart s kept -> env s' = env s ++ [length (hp s)] -> gp s' = gp s -> v = tt ->
    apart s' kept.
  Proof.
    intros s s' kept _ Hs H Ee Eg _ v Hv Hk. unfold loc; rewrite Ee in *; rewrite Eg. rewrite app_length in Hv; cbn [length] in Hv.
    destruct (Nat.eq_dec v (length (env s))) as [->|Hne].
    - rewrite loc_new. split.
      + intros w Hw Hn. rewrite app_length in Hw; cbn [length] in Hw. rewrite loc_old by lia.
        pose proof (wf_loc s w Hs ltac:(lia)). lia.
      + intros o Ho Hi. pose proof (proj2 Hs o Ho _ Hi). lia.
    - assert (L : v < length (env s)) by lia. destruct (H v L Hk) as [H1 H2]. rewrite loc_old by assumption. split.
      + intros w Hw Hn. rewrite app_length in Hw; cbn [length] in Hw.
        destruct (Nat.eq_dec w (length (env s))) as [->|Hw'].
        * rewrite loc_new. pose proof (wf_loc s v Hs L). lia.
        * rewrite loc_old by lia. apply H1; [lia|assumption].
      + exact H2.
  Qed.
  (** a new variable bound to a held array *)
  Lemma apart_share : forall s f kept, wf s -> apart s kept -> gp s <> None -> (forall o : @obj W, In (f o) (held o)) ->
    apart (share s f) (length (env s) :: kept).
  Proof.
    intros s f kept Hs H Hg Hf v Hv Hk. unfold share in *. destruct (gp s) as [o|] eqn:E; [|congruence]. cbn [env gp] in *.
    rewrite app_length in Hv; cbn [length] in Hv. assert (Hne : v <> length (env s)) by (intros ->; apply Hk; left; reflexivity).
    assert (L : v < length (env s)) by lia. destruct (H v L) as [H1 H2]; [intros Hi; apply Hk; right; exact Hi|].
    unfold loc at 2 3; cbn [env]. rewrite loc_old by assumption. split.
    - intros w Hw Hn. rewrite app_length in Hw; cbn [length] in Hw. unfold loc; cbn [env].
      destruct (Nat.eq_dec w (length (env s))) as [->|Hw'].
      + rewrite loc_new. intros Hbad. apply (H2 o E). unfold loc; rewrite <- Hbad. apply Hf.
      + rewrite (app_nth1 (env s) [f o]) by lia. apply (H1 w); [lia|assumption].
    - intros o' [= <-]. apply H2, E.
  Qed.
  (** the object is rebuilt around arrays of kept variables, arrays it held, and new ones *)
  Lemma apart_rebuild : forall s x y n h kept new, wf s -> apart s kept ->
    (forall v, v < length (env s) -> ~ In v (new ++ kept) -> ~ In (loc s v) [x; y; n; h]) ->
    apart (rebuild dummy kern mean factor s x y n h) (new ++ kept).
  Proof.
    intros s x y n h kept new Hs H Hout v Hv Hk. cbn [rebuild env] in Hv.
    assert (Hk' : ~ In v kept) by (intros Hi; apply Hk, in_or_app; right; exact Hi).
    destruct (H v Hv Hk') as [H1 H2]. split; [exact H1|].
    intros o Ho Hi. cbn [rebuild gp] in Ho. injection Ho as <-. cbn [held ox oy on oh oK om] in Hi.
    change (loc (rebuild dummy kern mean factor s x y n h) v) with (loc s v) in Hi.
    pose proof (wf_loc s v Hs Hv) as L. specialize (Hout v Hv Hk). cbn [In] in *.
    unfold held in Hi; cbn [In ox oy on oh oK om] in Hi.
    destruct Hi as [Hi|[Hi|[Hi|[Hi|[Hi|[Hi|[]]]]]]]; try (apply Hout; auto 10; fail); lia.
  Qed.

  Lemma apart_exec : forall s c kept, wf s -> bound s c -> apart s kept ->
    apart (Exec s c) (keeps (length (env s)) c ++ kept) /\ length (env (Exec s c)) = binds c + length (env s).
  Proof.
    intros s c kept Hs Hb H. destruct c; cbn [exec keeps binds bound] in *; cbv zeta in *.
    - split; [apply (apart_fresh s _ kept tt Hs H); reflexivity|]. cbn [alloc env]; rewrite app_length; cbn; lia.
    - split; [exact H|reflexivity].
    - split; [|reflexivity]. apply apart_rebuild; auto. destruct Hb as (Bx&By&Bn&Bh).
      intros v Hv Hk Hi. assert (Hk' : ~ In v kept) by (intros Hk'; apply Hk, in_or_app; right; exact Hk').
      destruct (H v Hv Hk') as [H1 _]. cbn [In app] in *.
      destruct Hi as [Hi|[Hi|[Hi|[Hi|[]]]]];
        (eapply H1; [| |exact Hi]; [assumption|intros ->; apply Hk; auto 10]).
    - destruct Hb as (Hg&Bx&By&Bn). destruct (gp s) as [o|] eqn:E; [|congruence]. split; [|reflexivity].
      intros v Hv Hk. cbn [extend env app] in *. destruct (H v Hv Hk) as [H1 H2]. split; [exact H1|].
      intros o' [= <-] Hi. pose proof (wf_loc s v Hs Hv) as L. specialize (H2 o E).
      change (In (loc s v) [length (hp s); 1 + length (hp s); 2 + length (hp s); oh o; 3 + length (hp s); 4 + length (hp s)]) in Hi.
      cbn [In] in Hi. destruct Hi as [Hi|[Hi|[Hi|[Hi|[Hi|[Hi|[]]]]]]]; try lia. apply H2; cbn; auto.
    - destruct Hb as (Hg&Bx&By&Bn). destruct (gp s) as [o|] eqn:E; [|congruence]. split; [|reflexivity].
      apply apart_rebuild; auto.
      intros v Hv Hk Hi. assert (Hk' : ~ In v kept) by (intros Hk'; apply Hk, in_or_app; right; exact Hk').
      destruct (H v Hv Hk') as [H1 H2]. cbn [In app] in *.
      destruct Hi as [Hi|[Hi|[Hi|[Hi|[]]]]];
        [eapply H1; [| |exact Hi]; [assumption|intros ->; apply Hk; auto 10] .. |apply (H2 o E); cbn; auto].
    - destruct Hb as (Hg&Bh). destruct (gp s) as [o|] eqn:E; [|congruence]. split; [|reflexivity].
      apply apart_rebuild; auto.
      intros v Hv Hk Hi. assert (Hk' : ~ In v kept) by (intros Hk'; apply Hk, in_or_app; right; exact Hk').
      destruct (H v Hv Hk') as [H1 H2]. specialize (H2 o E). cbn [In app] in *.
      destruct Hi as [Hi|[Hi|[Hi|[Hi|[]]]]]; try (apply H2; cbn; auto; fail).
      eapply H1; [| |exact Hi]; [assumption|intros ->; apply Hk; auto 10].
    - destruct (gp s) as [o|] eqn:E; [|congruence]. split.
      + change (length (env s) :: kept) with ([length (env s)] ++ kept). apply apart_rebuild.
        * apply wf_alloc, Hs.
        * apply (apart_fresh s _ kept tt Hs H); reflexivity.
        * intros u Hv Hk Hi. cbn [alloc env] in Hv. rewrite app_length in Hv; cbn [length In app] in *.
          assert (L : u < length (env s)) by (assert (u <> length (env s)) by (intros ->; apply Hk; auto); lia).
          destruct (H u L ltac:(auto)) as [H1 H2]. specialize (H2 o E).
          unfold loc in Hi; cbn [alloc env] in Hi; rewrite loc_old in Hi by assumption.
          pose proof (wf_loc s u Hs L).
          destruct Hi as [Hi|[Hi|[Hi|[Hi|[]]]]]; try lia; apply H2; cbn; auto.
      + cbn [rebuild alloc env]. rewrite app_length; cbn; lia.
    - split; [apply apart_share; cbn; auto 10|]. unfold share; destruct (gp s); [cbn [env]; rewrite app_length; cbn; lia|congruence].
    - split; [apply apart_share; cbn; auto 10|]. unfold share; destruct (gp s); [cbn [env]; rewrite app_length; cbn; lia|congruence].
    - split; [apply apart_share; cbn; auto 10|]. unfold share; destruct (gp s); [cbn [env]; rewrite app_length; cbn; lia|congruence].
    - split; [apply apart_share; cbn; auto 10|]. unfold share; destruct (gp s); [cbn [env]; rewrite app_length; cbn; lia|congruence].
    - split; [apply apart_share; cbn; auto 10|]. unfold share; destruct (gp s); [cbn [env]; rewrite app_length; cbn; lia|congruence].
    - split; [apply apart_share; cbn; auto 10|]. unfold share; destruct (gp s); [cbn [env]; rewrite app_length; cbn; lia|congruence].
    - destruct Hb as (Hg&Bq). destruct (gp s) as [o|] eqn:E; [|congruence].
      split; [apply (apart_fresh s _ kept tt Hs H); reflexivity|]. cbn [alloc env]; rewrite app_length; cbn; lia.
  Qed.

  Lemma tame_safe : forall p s kept, wf s -> runs s p -> apart s kept -> tame (length (env s)) kept p -> safe s p.
  Proof.
    induction p as [|c p IH]; intros s kept Hs Hr Ha Ht; [exact I|].
    destruct Hr as [Hb Hr]. destruct Ht as [Hw Ht]. destruct (apart_exec s c kept Hs Hb Ha) as [Ha' El].
    split.
    - unfold harmless. destruct c; auto. destruct (gp s) as [o|] eqn:E; auto. apply (Ha x Hb Hw), E.
    - apply (IH (Exec s c) (keeps (length (env s)) c ++ kept)); auto using wf_exec. rewrite El. exact Ht.
  Qed.
  Theorem tame_owns : forall p, runs (@start A W) p -> tame 0 [] p -> owns join fresh_answer (Events (@start A W) p).
  Proof.
    intros p Hr Ht. apply safe_owns; auto. apply (tame_safe p start []); auto using wf_start.
    intros v Hv; cbn in Hv; lia.
  Qed.
  Lemma wf_run : forall p s, wf s -> runs s p -> wf (run dummy join kern kern_block mean mean_append factor refactor post s p).
  Proof.
    induction p as [|c p IH]; intros s Hs Hr; [exact Hs|]. destruct Hr as [Hb Hr]. cbn [run fold_left].
    apply (IH (Exec s c)); auto using wf_exec.
  Qed.
End P.
