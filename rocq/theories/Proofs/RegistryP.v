(** Lemmas about the registry. *)
From Verif Require Import Model.Prelude Model.Registry.

Section P.
Context {Id : Type} (id_eqb : Id -> Id -> bool) (E : forall a b, id_eqb a b = true <-> a = b).
Notation uses w g c := (obj w g = Some (Done (Some c) true)).
Notation registered w g c := (reg_get id_eqb (w_reg w) c = Some g).

Lemma id_refl c : id_eqb c c = true. Proof. apply E. reflexivity. Qed.
Lemma get_in r c g : NoDup (map fst r) -> reg_get id_eqb r c = Some g <-> In (c, g) r.
Proof.
intros N. unfold reg_get. induction r as [|[c' g'] r IH]; cbn; [split; [discriminate|intros []]|]. inversion N as [|? ? N1 N2]; subst.
destruct (id_eqb c c') eqn:X.
- apply E in X as <-. cbn. split; [intros [= ->]; auto|]. intros [[= ->]|H]; [reflexivity|]. destruct N1. apply (in_map fst) in H. exact H.
- rewrite IH by exact N2. split; [auto|]. intros [[= -> ->]|H]; [rewrite id_refl in X; discriminate|exact H].
Qed.
Lemma nodup_filter {A B} (f : A -> B) p l : NoDup (map f l) -> NoDup (map f (filter p l)).
Proof.
induction l as [|a l IH]; cbn; intros N; [constructor|]. inversion N as [|? ? N1 N2]; subst. destruct (p a); [cbn; constructor; [|auto]|auto].
intros H. apply N1. apply in_map_iff in H as [b [<- Hb]]. apply in_map. apply filter_In in Hb. apply Hb.
Qed.
Lemma set_nth_nth {A} (l : list A) n a m : nth_error (set_nth l n a) m = if Nat.eqb n m then (match nth_error l m with Some _ => Some a | None => None end) else nth_error l m.
Proof. revert n m. induction l as [|x l IH]; intros [|n] [|m]; cbn; try reflexivity; [destruct (Nat.eqb n m); reflexivity|apply IH]. Qed.

(** registered objects are alive and use their client; each client is listed once *)
Definition inv1 (w : world Id) : Prop := NoDup (map fst (w_reg w)) /\ forall g c, In (c, g) (w_reg w) -> uses w g c.
Definition inv2 (w : world Id) : Prop := forall g c, uses w g c -> In (c, g) (w_reg w).
Lemma obj_app (w : world Id) o r g : obj (World (w_objs w ++ [o]) r) g = if Nat.eqb g (length (w_objs w)) then o else obj w g.
Proof.
unfold obj; cbn. destruct (Nat.eqb_spec g (length (w_objs w))) as [->|N].
- rewrite nth_error_app2, Nat.sub_diag by lia. reflexivity.
- destruct (Nat.lt_ge_cases g (length (w_objs w))); [rewrite nth_error_app1 by lia; reflexivity|].
  rewrite nth_error_app2 by lia. destruct (g - length (w_objs w)) as [|k] eqn:K; [lia|]. cbn. destruct (nth_error (w_objs w) g) eqn:X; [|destruct k; reflexivity].
  assert (nth_error (w_objs w) g = None) by (apply nth_error_None; lia). congruence.
Qed.
Lemma obj_set (w : world Id) g o r h : obj w g <> None -> obj (World (set_nth (w_objs w) g o) r) h = if Nat.eqb g h then o else obj w h.
Proof.
unfold obj; cbn. intros N. rewrite set_nth_nth. destruct (Nat.eqb_spec g h) as [->|]; [|reflexivity]. destruct (nth_error (w_objs w) h); [reflexivity|contradiction].
Qed.
Lemma obj_fresh (w : world Id) g : length (w_objs w) <= g -> obj w g = None.
Proof. intros H. unfold obj. apply nth_error_None in H. rewrite H. reflexivity. Qed.
Lemma obj_collect (w : world Id) g r h : obj (World (set_nth (w_objs w) g None) r) h = if Nat.eqb g h then None else obj w h.
Proof. unfold obj; cbn. rewrite set_nth_nth. destruct (Nat.eqb g h); [|reflexivity]. destruct (nth_error (w_objs w) h); reflexivity. Qed.

Lemma begin_cases (w : world Id) a w' r : begin_ id_eqb w a = (w', r) ->
  exists o, w' = World (w_objs w ++ [Some o]) (w_reg w) /\ (forall c b, o <> Done c b) /\
    match r with
    | Err _ => o = Failed
    | Ok g => g = length (w_objs w) /\ exists c, init_client a = Ok c /\ o = Guarded c (a_gp2 a) /\ (a_gp2 a = true -> forall i, c = Some i -> match reg_get id_eqb (w_reg w) i with Some g' => g' = g | None => True end)
    end.
Proof.
unfold begin_. destruct (init_client a) as [[i|]|e] eqn:C.
- destruct (a_gp2 a) eqn:G.
  + destruct (reg_get id_eqb (w_reg w) i) as [g'|] eqn:R.
    * destruct (Nat.eqb_spec g' (length (w_objs w))); cbn; intros [= <- <-]; eexists; (split; [reflexivity|]); (split; [discriminate|]); [|reflexivity].
      split; [reflexivity|]. exists (Some i). rewrite R || idtac. repeat split; auto. intros _ j [= <-]. rewrite R. exact e.
    * intros [= <- <-]. eexists; (split; [reflexivity|]); (split; [discriminate|]). split; [reflexivity|]. exists (Some i). repeat split; auto. intros _ j [= <-]. rewrite R. exact I.
  + intros [= <- <-]. eexists; (split; [reflexivity|]); (split; [discriminate|]). split; [reflexivity|]. exists (Some i). repeat split; auto; discriminate.
- intros [= <- <-]. eexists; (split; [reflexivity|]); (split; [discriminate|]). split; [reflexivity|]. exists None. repeat split; auto; discriminate.
- intros [= <- <-]. eexists; (split; [reflexivity|]); (split; [discriminate|]). reflexivity.
Qed.
Lemma begin_inv1 w a : inv1 w -> inv1 (fst (begin_ id_eqb w a)).
Proof.
intros [N A]. destruct (begin_ id_eqb w a) as [w' r] eqn:B. apply begin_cases in B as [o [-> [D _]]]. cbn. split; [exact N|]. cbn. intros g c H. apply A in H. rewrite obj_app.
destruct (Nat.eqb_spec g (length (w_objs w))) as [->|]; [rewrite obj_fresh in H by lia; discriminate|exact H].
Qed.
Lemma finish_inv1 w g b : inv1 w -> inv1 (fst (finish id_eqb w g b)).
Proof.
intros [N A]. unfold finish. destruct (obj w g) as [[c gp2| |c gp2]|] eqn:O; try (split; [exact N|exact A]).
destruct b; cbn [fst].
- assert (K : forall i h, In (i, h) (w_reg w) -> h <> g) by (intros i h H ->; apply A in H; congruence).
  destruct c as [i|]; [destruct gp2|]; split; cbn [w_reg].
  + unfold reg_set; cbn. constructor; [|apply nodup_filter, N]. intros H. apply in_map_iff in H as [[c' g'] [Hc H]]. cbn in Hc. subst c'. apply filter_In in H as [_ H]. cbn in H. rewrite id_refl in H. discriminate.
  + intros h c [[= -> ->]|H]; rewrite obj_set by congruence; [rewrite Nat.eqb_refl; reflexivity|]. apply filter_In in H as [H _]. destruct (Nat.eqb_spec g h) as [->|]; [destruct (K _ _ H eq_refl)|]. apply A, H.
  + exact N.
  + intros h c H. rewrite obj_set by congruence. destruct (Nat.eqb_spec g h) as [->|]; [destruct (K _ _ H eq_refl)|]. apply A, H.
  + exact N.
  + intros h c H. rewrite obj_set by congruence. destruct (Nat.eqb_spec g h) as [->|]; [destruct (K _ _ H eq_refl)|]. apply A, H.
- split; [exact N|]. cbn. intros h c' H. rewrite obj_set by congruence. destruct (Nat.eqb_spec g h) as [->|]; [apply A in H; congruence|]. apply A, H.
Qed.
Lemma collect_inv1 (w : world Id) g : inv1 w -> inv1 (collect w g).
Proof.
intros [N A]. unfold collect. split; cbn [w_reg]; [apply nodup_filter, N|]. intros h c H. apply filter_In in H as [H X]. cbn in X. apply negb_true_iff, Nat.eqb_neq in X. rewrite obj_collect.
destruct (Nat.eqb_spec g h); [congruence|]. apply A, H.
Qed.
Lemma run_inv es : let w := run id_eqb w0 es in NoDup (map fst (w_reg w)) /\ forall g c, registered w g c -> uses w g c.
Proof.
assert (G : forall w, inv1 w -> inv1 (run id_eqb w es)).
{ induction es as [|e es IH]; intros w I; [exact I|]. cbn. apply IH. destruct e; cbn; [apply begin_inv1|apply finish_inv1|apply collect_inv1]; exact I. }
destruct (G w0) as [N A]; [split; [constructor|intros g c []]|]. cbn zeta. split; [exact N|]. intros g c H. apply A. apply get_in in H; auto.
Qed.

Lemma construct_inv w a b : inv1 w -> inv2 w -> inv1 (fst (construct id_eqb w a b)) /\ inv2 (fst (construct id_eqb w a b)).
Proof.
intros I1 I2. unfold construct. destruct (begin_ id_eqb w a) as [w1 r] eqn:B. pose proof (begin_inv1 w a I1) as J1. rewrite B in J1; cbn [fst] in J1.
apply begin_cases in B as [o [-> [D R]]].
assert (J2 : inv2 (World (w_objs w ++ [Some o]) (w_reg w))).
{ intros g c H. rewrite obj_app in H. destruct (Nat.eqb_spec g (length (w_objs w))); [injection H as ->; destruct (D (Some c) true eq_refl)|]. cbn. apply I2, H. }
destruct r as [g|e]; [|split; [exact J1|exact J2]]. destruct R as [-> [c [C [-> G]]]].
set (w1 := World _ _) in *. pose proof (finish_inv1 w1 (length (w_objs w)) b J1) as K1.
assert (K2 : inv2 (fst (finish id_eqb w1 (length (w_objs w)) b))).
{ unfold finish. unfold w1 at 1. rewrite obj_app, Nat.eqb_refl. destruct b; cbn [fst].
  - intros h i H. rewrite obj_set in H by (unfold w1; rewrite obj_app, Nat.eqb_refl; discriminate). destruct (Nat.eqb_spec (length (w_objs w)) h) as [<-|Nh].
    + injection H as -> X. rewrite X. cbn. left. reflexivity.
    + apply J2 in H. cbn [w_reg]. destruct c as [j|]; [destruct (a_gp2 a) eqn:X|]; try exact H. right. apply filter_In. split; [exact H|]. cbn. apply negb_true_iff. destruct (id_eqb j i) eqn:Y; [|reflexivity].
      apply E in Y as ->. specialize (G eq_refl i eq_refl). cbn in H. assert (R : reg_get id_eqb (w_reg w) i = Some h) by (apply get_in; [apply I1|exact H]). rewrite R in G. congruence.
  - intros h i H. rewrite obj_set in H by (unfold w1; rewrite obj_app, Nat.eqb_refl; discriminate). destruct (Nat.eqb_spec (length (w_objs w)) h); [discriminate|]. apply J2, H. }
destruct (finish id_eqb w1 (length (w_objs w)) b) as [w2 [u|e]]; cbn [fst] in *; split; assumption.
Qed.
Lemma history_inv cs : let w := history id_eqb cs in inv1 w /\ forall g c, uses w g c <-> registered w g c.
Proof.
assert (G : forall w, inv1 w /\ inv2 w -> inv1 (fold_left (do_call id_eqb) cs w) /\ inv2 (fold_left (do_call id_eqb) cs w)).
{ induction cs as [|[a b|g] cs IH]; intros w [I1 I2]; [auto| |]; cbn; apply IH.
  - apply construct_inv; assumption.
  - split; [apply collect_inv1, I1|]. intros h c H. unfold collect in H. rewrite obj_collect in H. destruct (Nat.eqb_spec g h) as [->|N]; [discriminate|]. cbn. apply filter_In. split; [apply I2, H|]. cbn. apply negb_true_iff, Nat.eqb_neq. congruence. }
destruct (G w0) as [I1 I2]; [split; [split; [constructor|intros g c []]|]; intros g c H; unfold obj in H; cbn in H; destruct g; discriminate|].
cbn zeta. unfold history. split; [exact I1|]. intros g c. rewrite get_in by apply I1. split; [apply I2|apply I1].
Qed.

Lemma second_raises_l w g c a fine : (inv1 w /\ forall g c, uses w g c <-> registered w g c) -> uses w g c -> a_gp2 a = true -> a_imate a = true -> a_client a = Some c ->
  exists w', construct id_eqb w a fine = (w', Err RShared) /\ uses w' g c /\ registered w' g c.
Proof.
intros [I1 I2] U G Im C. pose proof (proj1 (I2 g c) U) as R. unfold construct, begin_, init_client. rewrite G, Im, C. cbn [negb]. rewrite R.
assert (L : g < length (w_objs w)). { destruct (Nat.lt_ge_cases g (length (w_objs w))) as [H|H]; [exact H|]. rewrite obj_fresh in U by exact H. discriminate. }
destruct (Nat.eqb_spec g (length (w_objs w))); [lia|]. cbn. eexists. split; [reflexivity|]. split; [|exact R]. rewrite obj_app. destruct (Nat.eqb_spec g (length (w_objs w))); [lia|exact U].
Qed.
Lemma free_accepted_l w c a : (inv1 w /\ forall g c, uses w g c <-> registered w g c) -> (forall g, ~ uses w g c) -> a_gp2 a = true -> a_imate a = true -> a_client a = Some c ->
  exists w' g, construct id_eqb w a true = (w', Ok g) /\ obj w g = None /\ uses w' g c /\ registered w' g c.
Proof.
intros [I1 I2] U G Im C. unfold construct, begin_, init_client. rewrite G, Im, C. cbn [negb].
destruct (reg_get id_eqb (w_reg w) c) as [g'|] eqn:R; [apply I2 in R; destruct (U _ R)|].
unfold finish. rewrite obj_app, Nat.eqb_refl. do 2 eexists. split; [reflexivity|]. split; [apply obj_fresh; lia|]. split.
- rewrite obj_set by (rewrite obj_app, Nat.eqb_refl; discriminate). rewrite Nat.eqb_refl. reflexivity.
- cbn. unfold reg_get; cbn. rewrite id_refl. reflexivity.
Qed.
Lemma collect_l (w : world Id) g : (forall c, ~ uses (collect w g) g c) /\ (forall g' c, g' <> g -> uses (collect w g) g' c <-> uses w g' c).
Proof.
unfold collect. split; [intros c|intros h c N]; rewrite obj_collect; [rewrite Nat.eqb_refl; discriminate|]. destruct (Nat.eqb_spec g h); [congruence|reflexivity].
Qed.
Lemma failed_l w a fine w' e : construct id_eqb w a fine = (w', Err e) -> w_reg w' = w_reg w /\ forall g c, uses w' g c <-> uses w g c.
Proof.
unfold construct. destruct (begin_ id_eqb w a) as [w1 r] eqn:B. apply begin_cases in B as [o [-> [D R]]].
assert (J : forall o' g c, (forall c b, o' <> Done c b) -> uses (World (w_objs w ++ [Some o']) (w_reg w)) g c <-> uses w g c).
{ intros o' g c D'. rewrite obj_app. destruct (Nat.eqb_spec g (length (w_objs w))) as [->|]; [|reflexivity]. rewrite obj_fresh by lia. split; [intros [= H]; destruct (D' _ _ H)|discriminate]. }
destruct r as [g|x]; [|intros [= <- <-]; split; [reflexivity|]; intros; apply J, D].
destruct R as [-> [c [C [-> G]]]]. unfold finish. rewrite obj_app, Nat.eqb_refl. destruct fine; [discriminate|]. intros [= <- <-]. split; [reflexivity|]. intros g i.
rewrite (obj_set (World (w_objs w ++ [Some (Guarded c (a_gp2 a))]) (w_reg w))) by (rewrite obj_app, Nat.eqb_refl; discriminate). rewrite obj_app. destruct (Nat.eqb_spec (length (w_objs w)) g) as [<-|N].
- rewrite obj_fresh by lia. split; discriminate.
- destruct (Nat.eqb_spec g (length (w_objs w))); [congruence|reflexivity].
Qed.
End P.
