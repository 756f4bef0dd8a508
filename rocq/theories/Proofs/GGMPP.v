(** Lemmas about the containers and the call order of the GGMP. *)
From Verif Require Import Model.Prelude Model.GGMP Spec.GGMPSpec.

Lemma upto_ok {X} (l : list X) : upto l (length l) = Ok l.
Proof. unfold upto. rewrite Nat.ltb_irrefl, firstn_all. reflexivity. Qed.
Lemma flatten_ok {X} (h : list (list X)) : flatten h (map (@length X) h) = Ok (concat h).
Proof. induction h as [|x h IH]; cbn; [reflexivity|]. rewrite upto_ok, IH. reflexivity. Qed.
Lemma vectorize_ok {X} nw nh (w : list X) h : length w = nw -> map (@length X) h = nh -> vectorize nw nh w h = Ok (flat w h).
Proof. intros <- <-. unfold vectorize. rewrite upto_ok, flatten_ok. reflexivity. Qed.
Lemma split_concat {X} (h : list (list X)) : split_at (concat h) (map (@length X) h) = h.
Proof. induction h as [|x h IH]; cbn; [reflexivity|]. rewrite firstn_app, Nat.sub_diag, firstn_all, skipn_app, Nat.sub_diag, skipn_all. cbn. rewrite app_nil_r, IH. reflexivity. Qed.
Lemma devectorize_flat {X} nw nh (w : list X) h : length w = nw -> map (@length X) h = nh -> devectorize nw nh (flat w h) = (w, h).
Proof.
intros <- <-. unfold devectorize, flat. rewrite firstn_app, Nat.sub_diag, firstn_all, skipn_app, Nat.sub_diag, skipn_all. cbn. rewrite app_nil_r, split_concat. reflexivity.
Qed.
Lemma split_length {X} ns : forall v : list X, length v = list_sum ns -> map (@length X) (split_at v ns) = ns /\ concat (split_at v ns) = v.
Proof.
induction ns as [|n ns IH]; intros v L; [destruct v; [auto|discriminate]|]. change (length v = n + list_sum ns) in L. cbn [split_at map concat].
destruct (IH (skipn n v)) as [E1 E2]; [rewrite skipn_length; lia|]. rewrite E1, E2, firstn_length_le by lia. split; [reflexivity|apply firstn_skipn].
Qed.
Lemma devectorize_shape {X} nw nh (v : list X) w h : length v = nw + list_sum nh -> devectorize nw nh v = (w, h) -> length w = nw /\ map (@length X) h = nh /\ flat w h = v.
Proof.
unfold devectorize. intros L [= <- <-]. destruct (split_length nh (skipn nw v)) as [E1 E2]; [rewrite skipn_length; lia|].
split; [apply firstn_length_le; lia|]. split; [exact E1|]. unfold flat. rewrite E2. apply firstn_skipn.
Qed.

Section Hps.
Context {A B : Type}.
Implicit Types o : hpo A B.
Definition hinv o := length (h_wbounds o) = h_nw o /\ length (h_bounds o) = length (h_nh o).
Lemma init_inv (w : list A) (wb : list B) h hb o : hps_init w wb h hb = Ok o ->
  hinv o /\ h_nw o = length w /\ h_nh o = map (@length A) h /\ h_weights o = w /\ h_hps o = h /\ h_vec o = flat w h.
Proof.
unfold hps_init. destruct (negb (length h =? length hb)) eqn:E1; [discriminate|]. destruct (negb (length w =? length wb)) eqn:E2; [discriminate|].
apply negb_false_iff, Nat.eqb_eq in E1. apply negb_false_iff, Nat.eqb_eq in E2.
rewrite (vectorize_ok (length w) (map (@length A) h) w h eq_refl eq_refl). destruct (vectorize _ _ wb hb) as [vb|]; [|discriminate]. intros [= <-]. unfold hinv. cbn. rewrite map_length. auto 10.
Qed.
Lemma set_inv o w h : hinv o -> hinv (fst (hps_set o w h)) /\ h_nw (fst (hps_set o w h)) = h_nw o /\ h_nh (fst (hps_set o w h)) = h_nh o.
Proof.
intros I. unfold hps_set. destruct (negb (length h =? _)); [auto|]. destruct (negb (length w =? _)); [auto|]. destruct (vectorize _ _ w h); cbn; auto.
Qed.
Lemma set_shape o w h : hinv o -> length w = h_nw o -> map (@length A) h = h_nh o ->
  let o' := fst (hps_set o w h) in snd (hps_set o w h) = Ok tt /\ h_weights o' = w /\ h_hps o' = h /\ h_vec o' = flat w h.
Proof.
intros [I1 I2] L1 L2. unfold hps_set. assert (L3 : length h = length (h_bounds o)) by (rewrite I2, <- L2, map_length; reflexivity).
rewrite L3, I1, L1, !Nat.eqb_refl. cbn [negb]. rewrite (vectorize_ok _ _ w h L1 L2). cbn. auto.
Qed.
Lemma sets_shape l : forall o, hinv o -> length (h_weights o) = h_nw o -> map (@length A) (h_hps o) = h_nh o -> h_vec o = flat (h_weights o) (h_hps o) ->
  Forall (fun x => length (fst x) = h_nw o /\ map (@length A) (snd x) = h_nh o) l ->
  let o' := hps_sets o l in h_nw o' = h_nw o /\ h_nh o' = h_nh o /\ h_vec o' = flat (h_weights o') (h_hps o') /\ length (h_weights o') = h_nw o /\ map (@length A) (h_hps o') = h_nh o /\
    (h_weights o', h_hps o') = last l (h_weights o, h_hps o).
Proof.
induction l as [|[w h] l IH]; intros o I L1 L2 V F; cbn; [auto 10|]. inversion F as [|? ? [F1 F2] F3]; subst. cbn in F1, F2.
destruct (set_inv o w h I) as [I' [N1 N2]]. destruct (set_shape o w h I F1 F2) as [_ [S1 [S2 S3]]].
specialize (IH (fst (hps_set o w h)) I'). rewrite N1, N2, S1, S2, S3 in IH. destruct (IH F1 F2 eq_refl F3) as [H1 [H2 [H3 [H4 [H5 H6]]]]].
unfold hps_sets in *. cbn in *. split; [exact H1|]. split; [exact H2|]. split; [exact H3|]. split; [exact H4|]. split; [exact H5|].
rewrite H6. destruct l; [reflexivity|]. cbn. clear. revert p. induction l as [|a l IHl]; intros p; cbn; [reflexivity|apply IHl].
Qed.
End Hps.

Section Order.
Definition ginv (g : gstate) (l : list (gcall * res gexn unit)) : Prop :=
  (g_liks g = None \/ g_liks g = Some (g_terms g)) /\ (g_gps g = None \/ g_gps g = Some (g_terms g)) /\
  (g_liks g = Some (g_terms g) <-> succeeded is_init_lik l) /\ (g_gps g = Some (g_terms g) <-> succeeded is_init_gps l).
Lemma succ_snoc p l c r : succeeded p (l ++ [(c, r)]) <-> succeeded p l \/ (r = Ok tt /\ p c).
Proof.
unfold succeeded. split.
- intros [d [H P]]. apply in_app_or in H as [H|[[= -> ->]|[]]]; [left; eauto|right; auto].
- intros [[d [H P]]|[-> P]]; [exists d; split; [apply in_or_app; left; exact H|exact P]|exists c; split; [apply in_or_app; right; left; reflexivity|exact P]].
Qed.
Lemma indices_list n ks : (forall k, In k ks -> k < n) -> indices (AList n) ks = Ok tt.
Proof. induction ks as [|k ks IH]; intros H; [reflexivity|]. cbn [indices index]. destruct (Nat.ltb_spec k n) as [L|L]; [apply IH; intros; apply H; right; assumption|]. specialize (H k (or_introl eq_refl)). lia. Qed.
Lemma indices_seq n : indices (AList n) (seq 0 n) = Ok tt.
Proof. apply indices_list. intros k H. apply in_seq in H. lia. Qed.
Lemma indices_fun K : 0 < K -> indices AFun (seq 0 K) = Err GType.
Proof. intros H. destruct K; [lia|]. reflexivity. Qed.
Lemma falsy_pos K : 0 < K -> falsy (AList K) = false.
Proof. intros H. destruct K; [lia|reflexivity]. Qed.

(** what a step does, given the invariant *)
Lemma step_ready g l c : 0 < g_terms g -> ginv g l ->
  (ready c l -> snd (gstep g c) <> Err GValue /\ snd (gstep g c) <> Err GType) /\
  (~ ready c l -> fst (gstep g c) = g /\ snd (gstep g c) = Err GType).
Proof.
intros P [IL [IG [SL SG]]]. assert (LF : forall f, later f <> Err GValue /\ later f <> Err GType) by (intros [|]; split; discriminate).
assert (RL : (succeeded is_init_lik l /\ read (g_liks g) = AList (g_terms g)) \/ (~ succeeded is_init_lik l /\ read (g_liks g) = AFun)).
{ destruct IL as [E|E]; [right|left]; rewrite E; split; try reflexivity; [intros H; apply SL in H; congruence|apply SL; exact E]. }
assert (RG : (succeeded is_init_gps l /\ read (g_gps g) = AList (g_terms g)) \/ (~ succeeded is_init_gps l /\ read (g_gps g) = AFun)).
{ destruct IG as [E|E]; [right|left]; rewrite E; split; try reflexivity; [intros H; apply SG in H; congruence|apply SG; exact E]. }
destruct c as [f|f|f|f|f|ir f]; cbn [ready gstep]; unfold then_.
- split; [intros _; destruct f; cbn; split; discriminate|intros H; destruct (H I)].
- destruct RL as [[HL ->]|[HL ->]]; cbn [has negb orb].
  + rewrite (falsy_pos _ P), indices_seq. split; [intros _; destruct f; cbn; split; discriminate|intros H; contradiction].
  + cbn [falsy]. rewrite (indices_fun _ P). split; [intros H; contradiction|auto].
- destruct RG as [[HG ->]|[HG ->]]; cbn [has negb orb iterate]; [rewrite (falsy_pos _ P)|cbn [falsy]; split; [intros [_ H]; contradiction|auto]].
  destruct RL as [[HL ->]|[HL ->]]; [rewrite indices_seq; split; [intros _; apply LF|intros H; destruct H; auto]|rewrite (indices_fun _ P); split; [intros [H _]; contradiction|auto]].
- destruct RG as [[HG ->]|[HG ->]]; cbn [has negb orb iterate]; [rewrite (falsy_pos _ P)|cbn [falsy]];
  (destruct RL as [[HL ->]|[HL ->]]; [rewrite indices_seq|rewrite (indices_fun _ P); split; [intros [H _]; contradiction|auto]]).
  + split; [intros _; apply LF|intros H; destruct H; auto].
  + split; [intros [_ H]; contradiction|auto].
- destruct RG as [[HG ->]|[HG ->]]; cbn [has negb orb iterate]; [rewrite (falsy_pos _ P)|cbn [falsy]];
  (destruct RL as [[HL ->]|[HL ->]]; [rewrite indices_seq|rewrite (indices_fun _ P); split; [intros [H _]; contradiction|auto]]).
  + split; [intros _; apply LF|intros H; destruct H; auto].
  + split; [intros [_ H]; contradiction|auto].
- destruct RL as [[HL ->]|[HL ->]]; cbn [has negb len]; [|split; [intros H; contradiction|auto]].
  destruct (Nat.eqb_spec (g_terms g) 0) as [Z|Z]; [lia|]. destruct ir; cbn [negb]; [rewrite indices_seq; split; [intros _; apply LF|intros H; contradiction]|].
  split; [intros _; split; discriminate|intros H; contradiction].
Qed.
Lemma step_inv g l c : 0 < g_terms g -> ginv g l -> ginv (fst (gstep g c)) (l ++ [(c, snd (gstep g c))]) /\ g_terms (fst (gstep g c)) = g_terms g.
Proof.
intros P I. destruct I as [IL [IG [SL SG]]].
assert (S : forall r, (r = Ok tt -> ~ is_init_lik c /\ ~ is_init_gps c) -> ginv g (l ++ [(c, r)])).
{ intros r H. split; [exact IL|]. split; [exact IG|]. rewrite !succ_snoc, SL, SG. intuition. }
destruct c as [f|f|f|f|f|ir f].
- cbn. destruct f; cbn; [|split; [apply S; discriminate|reflexivity]]. split; [|reflexivity]. split; [right; reflexivity|]. split; [exact IG|]. cbn [g_liks g_gps g_terms]. rewrite !succ_snoc. split; [split; [intros _; right; split; [reflexivity|exists true; reflexivity]|reflexivity]|].
  rewrite SG. split; [auto|]. intros [H|[_ [b H]]]; [exact H|discriminate].
- cbn. destruct (falsy _); [cbn; split; [apply S; discriminate|reflexivity]|]. unfold then_. destruct (indices _ _); [|cbn; split; [apply S; discriminate|reflexivity]]. destruct f; cbn; [|split; [apply S; discriminate|reflexivity]]. split; [|reflexivity]. split; [exact IL|]. split; [right; reflexivity|].
  cbn [g_liks g_gps g_terms]. rewrite !succ_snoc. split; [|split; [intros _; right; split; [reflexivity|exists true; reflexivity]|reflexivity]].
  rewrite SL. split; [auto|]. intros [H|[_ [b H]]]; [exact H|discriminate].
- assert (N : forall r : res gexn unit, r = Ok tt -> ~ is_init_lik (Train f) /\ ~ is_init_gps (Train f)) by (intros ? _; split; intros [b H]; discriminate).
  assert (E : fst (gstep g (Train f)) = g). { cbn. destruct (falsy _); [reflexivity|]. destruct (iterate _); [|reflexivity]. unfold then_. destruct (indices _ _); reflexivity. }
  rewrite E. split; [apply S; apply N|reflexivity].
- assert (N : forall r : res gexn unit, r = Ok tt -> ~ is_init_lik (PostMean f) /\ ~ is_init_gps (PostMean f)) by (intros ? _; split; intros [b H]; discriminate).
  assert (E : fst (gstep g (PostMean f)) = g). { cbn. destruct (falsy _); [reflexivity|]. unfold then_. destruct (indices _ _); [|reflexivity]. destruct (iterate _); reflexivity. }
  rewrite E. split; [apply S; apply N|reflexivity].
- assert (N : forall r : res gexn unit, r = Ok tt -> ~ is_init_lik (PostVar f) /\ ~ is_init_gps (PostVar f)) by (intros ? _; split; intros [b H]; discriminate).
  assert (E : fst (gstep g (PostVar f)) = g). { cbn. destruct (falsy _); [reflexivity|]. unfold then_. destruct (indices _ _); [|reflexivity]. destruct (iterate _); reflexivity. }
  rewrite E. split; [apply S; apply N|reflexivity].
- assert (N : forall r : res gexn unit, r = Ok tt -> ~ is_init_lik (Pairwise ir f) /\ ~ is_init_gps (Pairwise ir f)) by (intros ? _; split; intros [b H]; discriminate).
  assert (E : fst (gstep g (Pairwise ir f)) = g). { cbn. destruct (len _) as [n|]; [|reflexivity]. destruct (n =? 0); [reflexivity|]. destruct ir; [|reflexivity]. cbn. unfold then_. destruct (indices _ _); reflexivity. }
  rewrite E. split; [apply S; apply N|reflexivity].
Qed.
Lemma calls_order cs : forall g l g' l', 0 < g_terms g -> ginv g l -> gcalls g cs = (g', l') ->
  forall l1 c r l2, l' = l1 ++ (c, r) :: l2 ->
    (ready c (l ++ l1) -> r <> Err GValue /\ r <> Err GType) /\ (~ ready c (l ++ l1) -> r = Err GType).
Proof.
induction cs as [|c cs IH]; intros g l g' l' P I R l1 d r l2 E; cbn in R; [injection R as <- <-; destruct l1; discriminate|].
destruct (gstep g c) as [g1 x] eqn:S. destruct (gcalls g1 cs) as [g2 l3] eqn:R2. injection R as <- <-.
pose proof (step_ready g l c P I) as [SR1 SR2]. pose proof (step_inv g l c P I) as [I1 T1]. rewrite S in *. cbn [fst snd] in *.
destruct l1 as [|y l1]; cbn in E.
- injection E as <- <- _. rewrite app_nil_r. split; [exact SR1|]. intros H. exact (proj2 (SR2 H)).
- injection E as <- E. assert (P1 : 0 < g_terms g1) by lia. specialize (IH g1 (l ++ [(c, x)]) g2 l3 P1 I1 R2 l1 d r l2 E). rewrite <- app_assoc in IH. exact IH.
Qed.
End Order.
