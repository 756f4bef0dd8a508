(** Proofs about the cache of station fits. *)
From Coq Require Import Permutation Sorted.
From Verif Require Import Model.Prelude Model.GmmCache Spec.GmmCacheSpec.

Section Cache.
Context {Meta P Series F : Type} (meta_eqb : Meta -> Meta -> bool) (p_eqb : P -> P -> bool).
Context (path_of : Meta -> P) (width : Meta -> nat) (fit : Meta -> Series -> option F) (zeros : Meta -> F) (argsort : list Z -> list nat).
Hypothesis PE : forall a b, p_eqb a b = true <-> a = b.

(** ** saving *)
Notation exec := (@exec Meta P F p_eqb).
Lemma upd_same f p v : upd (Meta := Meta) (F := F) p_eqb f p v p = v.
Proof. unfold upd. destruct (p_eqb p p) eqn:E; [reflexivity|]. rewrite (proj2 (PE p p) eq_refl) in E. discriminate. Qed.
Lemma upd_other f p q v : q <> p -> upd (Meta := Meta) (F := F) p_eqb f p v q = f q.
Proof. intros N. unfold upd. destruct (p_eqb q p) eqn:E; [apply PE in E; contradiction|reflexivity]. Qed.
Definition quiet (o : @op Meta P F) : Prop := match o with Replace _ => False | _ => True end.
Lemma quiet_main l : Forall quiet l -> forall d, d_main (fold_left exec l d) = d_main d.
Proof. induction 1 as [|o l Q _ IH]; intros d; [reflexivity|]. cbn [fold_left]. rewrite IH. destruct o; [reflexivity|reflexivity|reflexivity|destruct Q]. Qed.
Lemma save_cases w p (c : @content Meta F) k d : let d' := fold_left exec (firstn k (save_ops w p c)) d in
  (d_main d' = d_main d \/ (d_main d' p = Some (Whole c) /\ forall q, q <> p -> d_main d' q = d_main d q)).
Proof.
cbn zeta. set (pre := Create p :: repeat (WriteSome p) w ++ [Finish p c]). assert (E : save_ops w p c = pre ++ [Replace p]) by (unfold save_ops, pre; cbn; rewrite <- app_assoc; reflexivity).
assert (Q : Forall quiet pre). { unfold pre. constructor; [exact I|]. apply Forall_app. split; [apply Forall_forall; intros o H; apply repeat_spec in H as ->; exact I|repeat constructor]. }
rewrite E, firstn_app, fold_left_app. destruct (Nat.le_gt_cases k (length pre)) as [L|L].
- rewrite (proj2 (Nat.sub_0_le k (length pre)) L). cbn [firstn fold_left]. left. apply quiet_main. apply Forall_forall. intros o H. rewrite Forall_forall in Q. apply Q. rewrite <- (firstn_skipn k pre). apply in_or_app; auto.
- rewrite (firstn_all2 pre) by lia. destruct (k - length pre) as [|j] eqn:J; [lia|]. cbn [firstn fold_left]. rewrite firstn_nil. cbn [fold_left]. right.
  assert (T : d_tmp (fold_left exec pre d) p = Some (Whole c)). { unfold pre. cbn [fold_left]. rewrite fold_left_app. cbn [fold_left]. unfold GmmCache.exec at 1. cbn [d_tmp]. apply upd_same. }
  cbn [GmmCache.exec d_main]. split; [rewrite upd_same; exact T|]. intros q N. rewrite upd_other by exact N. rewrite (quiet_main _ Q). reflexivity.
Qed.
Lemma save_whole w p (c : @content Meta F) d : d_main (fold_left exec (save_ops w p c) d) p = Some (Whole c) /\ (forall q, q <> p -> d_main (fold_left exec (save_ops w p c) d) q = d_main d q) /\ d_tmp (fold_left exec (save_ops w p c) d) p = None.
Proof.
set (pre := Create p :: repeat (WriteSome p) w ++ [Finish p c]). assert (E : save_ops w p c = pre ++ [Replace p]) by (unfold save_ops, pre; cbn; rewrite <- app_assoc; reflexivity).
assert (Q : Forall quiet pre). { unfold pre. constructor; [exact I|]. apply Forall_app. split; [apply Forall_forall; intros o H; apply repeat_spec in H as ->; exact I|repeat constructor]. }
assert (T : d_tmp (fold_left exec pre d) p = Some (Whole c)). { unfold pre. cbn [fold_left]. rewrite fold_left_app. cbn [fold_left]. unfold GmmCache.exec at 1. cbn [d_tmp]. apply upd_same. }
rewrite E, fold_left_app. cbn [fold_left]. cbn [GmmCache.exec d_main d_tmp]. split; [rewrite upd_same; exact T|]. split; [intros q N; rewrite upd_other by exact N; rewrite (quiet_main _ Q); reflexivity|apply upd_same].
Qed.

(** ** a run *)
Lemma row_of_in (rows : list (Z * F)) sid f : row_of rows sid = Some f -> In (sid, f) rows.
Proof.
unfold row_of. assert (G : forall acc, fold_left (fun acc r => if Z.eqb (fst r) sid then Some (snd r) else acc) rows acc = Some f -> In (sid, f) rows \/ acc = Some f).
{ induction rows as [|[i g] rows IH]; intros acc; cbn [fold_left fst snd]; [auto|]. intros H. apply IH in H as [H|H]; [left; right; exact H|]. destruct (Z.eqb_spec i sid) as [->|]; [left; left; congruence|auto]. }
intros H. apply G in H as [H|H]; [exact H|discriminate].
Qed.
Lemma row_of_some (rows : list (Z * F)) sid : In sid (map fst rows) -> row_of rows sid <> None.
Proof.
unfold row_of. assert (G : forall acc, (In sid (map fst rows) \/ acc <> None) -> fold_left (fun acc r => if Z.eqb (fst r) sid then Some (snd r) else acc) rows acc <> None).
{ induction rows as [|[i g] rows IH]; intros acc H; cbn [fold_left fst snd]; [destruct H as [[]|H]; exact H|]. apply IH. destruct (Z.eqb_spec i sid) as [->|N]; [right; discriminate|]. destruct H as [[H|H]|H]; [cbn in H; congruence|auto|auto]. }
intros H. apply G. auto.
Qed.
Lemma fit_all_spec m rows data : (forall id r, In (id, r) rows -> fit m (data id) = Some r) -> forall st, (forall id y, In (id, y) st -> y = data id) ->
  let '(out, added) := fit_all fit zeros m rows st in out = map (fun s => direct fit zeros m (snd s)) st /\ (forall id r, In (id, r) added -> fit m (data id) = Some r) /\
  (forall id y f, In (id, y) st -> fit m y = Some f -> In id (map fst rows) \/ In id (map fst added)).
Proof.
intros R. induction st as [|[sid y] st IH]; intros D; cbn [fit_all]; [repeat split; auto; cbn; tauto|].
destruct (fit_all fit zeros m rows st) as [out added]. destruct IH as (I1 & I2 & I3); [intros; apply D; right; assumption|]. assert (Y : y = data sid) by (apply D; left; reflexivity).
destruct (row_of rows sid) as [f|] eqn:E.
- apply row_of_in in E. assert (E' := R _ _ E). split; [cbn; rewrite <- I1; f_equal; unfold direct; rewrite Y, E'; reflexivity|]. split; [exact I2|]. intros id z g [H|H] Q; [injection H as <- <-; left; apply in_map_iff; exists (sid, f); auto|eauto].
- destruct (fit m y) as [f|] eqn:Ef.
  + split; [cbn; rewrite <- I1; f_equal; unfold direct; rewrite Ef; reflexivity|]. split; [intros id r [H|H]; [injection H as <- <-; congruence|auto]|]. intros id z g [H|H] Q; [injection H as <- <-; right; left; reflexivity|destruct (I3 _ _ _ H Q); [auto|right; right; assumption]].
  + split; [cbn; rewrite <- I1; f_equal; unfold direct; rewrite Ef; reflexivity|]. split; [exact I2|]. intros id z g [H|H] Q; [injection H as <- <-; congruence|eauto].
Qed.
Lemma plain_direct m st : run_plain fit zeros m st = map (fun s => direct fit zeros m (snd s)) st.
Proof. unfold run_plain. induction st as [|[sid y] st IH]; [reflexivity|]. cbn [fit_all]. destruct (fit_all fit zeros m [] st) as [out added]. cbn [fst] in IH. cbn. unfold direct at 1. destruct (fit m y); cbn; congruence. Qed.
Lemma uniq_in (l : list (Z * F)) x : In x (uniq l) -> In x l.
Proof.
revert x. induction l as [|a [|b l] IH]; intros x H; [exact H|exact H|]. change (In x (a :: (if Z.eqb (fst a) (fst b) then tl (uniq (b :: l)) else uniq (b :: l)))) in H. destruct H as [->|H]; [left; reflexivity|]. right. apply IH.
destruct (Z.eqb (fst a) (fst b)); [|exact H]. destruct (uniq (b :: l)); [exact H|right; exact H].
Qed.
Lemma uniq_hd (a : Z * F) l : exists t, uniq (a :: l) = a :: t.
Proof. destruct l as [|b l]; cbn; eexists; reflexivity. Qed.
Lemma uniq_ids (l : list (Z * F)) i : In i (map fst l) -> In i (map fst (uniq l)).
Proof.
induction l as [|a [|b l] IH]; intros H; [exact H|exact H|]. change (In i (map fst (a :: (if Z.eqb (fst a) (fst b) then tl (uniq (b :: l)) else uniq (b :: l))))). destruct H as [H|H]; [left; exact H|]. apply IH in H.
destruct (Z.eqb_spec (fst a) (fst b)) as [E|_]; [|right; exact H]. destruct (uniq_hd b l) as [t U]. rewrite U in *. destruct H as [<-|H]; [left; exact E|right; exact H].
Qed.
Lemma ordered_in rows x : In x (ordered argsort rows) -> In x (rows : list (Z * F)).
Proof. unfold ordered. intros H. apply in_flat_map in H as (i & _ & H). destruct (nth_error rows i) as [r|] eqn:E; [|destruct H]. destruct H as [<-|[]]. eapply nth_error_In; exact E. Qed.
Lemma ordered_all rows x : argsort_contract argsort -> In x (rows : list (Z * F)) -> In x (ordered argsort rows).
Proof.
intros C H. apply In_nth_error in H as [i E]. unfold ordered. apply in_flat_map. exists i. split; [|rewrite E; left; reflexivity]. destruct (C (map fst rows)) as [P' _]. apply (Permutation_in _ (Permutation_sym P')). apply in_seq. rewrite map_length. assert (i < length rows) by (apply nth_error_Some; congruence). lia.
Qed.
Lemma saved_ids (rows : list (Z * F)) i : argsort_contract argsort -> In i (map fst rows) -> In i (map fst (uniq (ordered argsort rows))).
Proof. intros C H. apply uniq_ids. apply in_map_iff in H as (x & <- & H). apply in_map. apply ordered_all; assumption. Qed.
Lemma saved_rows (rows : list (Z * F)) x : In x (uniq (ordered argsort rows)) -> In x rows.
Proof. intros H. apply ordered_in, uniq_in, H. Qed.
(** ids saved are distinct *)
Lemma uniq_sorted (l : list (Z * F)) : StronglySorted Z.le (map fst l) -> NoDup (map fst (uniq l)) /\ forall i, In i (map fst (uniq l)) -> In i (map fst l).
Proof.
intros S. split; [|intros i H; apply in_map_iff in H as (x & <- & H); apply in_map, uniq_in, H].
induction l as [|a [|b l] IH]; [constructor|repeat constructor; easy|]. inversion S as [|? ? S' F']; subst. specialize (IH S').
change (NoDup (map fst (a :: (if Z.eqb (fst a) (fst b) then tl (uniq (b :: l)) else uniq (b :: l))))). destruct (uniq_hd b l) as [t U]. rewrite U in *. cbn [map] in IH. inversion IH as [|? ? N1 N2]; subst.
destruct (Z.eqb_spec (fst a) (fst b)) as [E|NE]; cbn [tl map]; [rewrite E; constructor; assumption|]. constructor; [|constructor; assumption].
intros H. assert (X : In (fst a) (map fst (b :: l))) by (destruct H as [H|H]; [left; exact H|]; apply in_map_iff in H as (y & Ey & Hy); rewrite <- Ey; apply in_map, uniq_in; rewrite U; right; exact Hy).
(* a <= all, and b is the least of the rest: fst a in rest and fst a <= fst b <= fst a *)
inversion S' as [|? ? S'' F'']; subst. cbn [map] in F'. inversion F' as [|? ? Fb Fl]; subst. destruct X as [X|X]; [cbn in X; congruence|]. rewrite Forall_forall in F''. specialize (F'' _ X). cbn in *. lia.
Qed.

(** ** runs on a faithful file *)
Hypothesis ME : forall a b, meta_eqb a b = true <-> a = b.
Lemma run_faithful data m st f : faithful meta_eqb width fit data m f -> from_file data m st ->
  exists c', run meta_eqb width fit zeros argsort m st f = Ok (run_plain fit zeros m st, c') /\
  match c' with
  | Some c => faithful meta_eqb width fit data m (Some (Whole c)) /\ c_width c = width m /\ (argsort_contract argsort -> forall id y r, In (id, y) st -> fit m y = Some r -> In id (map fst (c_rows c))) /\
              (argsort_contract argsort -> match load f with Some o => c_width o = width m -> incl (map fst (c_rows o)) (map fst (c_rows c)) | None => True end)
  | None => (load f = None \/ exists c, load f = Some c /\ c_width c <> width m) /\ forall id y, In (id, y) st -> fit m y = None
  end.
Proof.
intros FF D. unfold run. destruct (load f) as [c|] eqn:L.
- destruct f as [[|c']|]; try discriminate. injection L as ->. destruct FF as [Em R]. rewrite Em. destruct (Nat.eqb_spec (c_width c) (width m)) as [W|W]; cbn [andb].
  + assert (H := fit_all_spec m (c_rows c) (data m) (R W) st D). destruct (fit_all fit zeros m (c_rows c) st) as [out added]. destruct H as (H1 & H2 & H3). rewrite <- plain_direct in H1. subst out.
    assert (RR : forall l, (forall x, In x l -> In x (c_rows c ++ added)) -> forall id r, In (id, r) (uniq (ordered argsort l)) -> fit m (data m id) = Some r).
    { intros l I id r H. apply saved_rows, I, in_app_or in H as [H|H]; auto. }
    destruct added as [|a added].
    * eexists. split; [reflexivity|]. cbn [c_width c_rows c_meta faithful]. split; [split; [apply ME; reflexivity|intros _; apply RR; intros x; rewrite app_nil_r; auto]|]. split; [exact W|].
      split; [intros C id y r I E; apply saved_ids; [exact C|]; destruct (H3 _ _ _ I E) as [H|[]]; exact H|intros C _ i I; apply saved_ids; assumption].
    * rewrite (proj2 (Nat.eqb_eq _ _) W). eexists. split; [reflexivity|]. cbn [c_width c_rows c_meta faithful]. split; [split; [apply ME; reflexivity|intros _; apply RR; auto]|]. split; [reflexivity|].
      split; [intros C id y r I E; apply saved_ids; [exact C|]; rewrite map_app; apply in_or_app; exact (H3 _ _ _ I E)|intros C _ i I; apply saved_ids; [exact C|rewrite map_app; apply in_or_app; auto]].
  + assert (H := fit_all_spec m [] (data m) ltac:(cbn; tauto) st D). destruct (fit_all fit zeros m [] st) as [out added]. destruct H as (H1 & H2 & H3). rewrite <- plain_direct in H1. subst out. eexists. split; [reflexivity|].
    destruct added as [|a added]; [split; [right; exists c; auto|intros id y I; destruct (fit m y) eqn:E; [destruct (H3 _ _ _ I E) as [[]|[]]|reflexivity]]|].
    cbn [c_width c_rows c_meta faithful]. split; [split; [apply ME; reflexivity|intros _ id r H; apply saved_rows in H; auto]|]. split; [reflexivity|].
    split; [intros C id y r I E; apply saved_ids; [exact C|]; destruct (H3 _ _ _ I E) as [[]|H]; exact H|intros _ W'; contradiction].
- assert (H := fit_all_spec m [] (data m) ltac:(cbn; tauto) st D). destruct (fit_all fit zeros m [] st) as [out added]. destruct H as (H1 & H2 & H3). rewrite <- plain_direct in H1. subst out. eexists. split; [reflexivity|].
  destruct added as [|a added]; [split; [auto|intros id y I; destruct (fit m y) eqn:E; [destruct (H3 _ _ _ I E) as [[]|[]]|reflexivity]]|].
  cbn [c_width c_rows c_meta faithful]. split; [split; [apply ME; reflexivity|intros _ id r H; apply saved_rows in H; auto]|]. split; [reflexivity|].
  split; [intros C id y r I E; apply saved_ids; [exact C|]; destruct (H3 _ _ _ I E) as [[]|H]; exact H|auto].
Qed.
Notation serve := (@serve Meta P Series F meta_eqb p_eqb path_of width fit zeros argsort).
Hypothesis INJ : forall a b, path_of a = path_of b -> a = b.
Lemma serve_faithful data d q : (forall m, faithful meta_eqb width fit data m (d_main d (path_of m))) -> from_file data (r_meta q) (r_stations q) ->
  (forall m, faithful meta_eqb width fit data m (d_main (fst (serve d q)) (path_of m))) /\ snd (serve d q) = Ok (run_plain fit zeros (r_meta q) (r_stations q)).
Proof.
intros FF D. unfold GmmCache.serve. destruct (run_faithful data (r_meta q) (r_stations q) _ (FF _) D) as (c' & E & H). rewrite E. destruct c' as [c|]; [|cbn; auto]. cbn [fst snd]. split; [|reflexivity].
destruct H as (H & _). intros m. set (ops := save_ops _ _ _).
assert (X : exists k, (match r_killed q with Some k => firstn k ops | None => ops end) = firstn k ops) by (destruct (r_killed q) as [k|]; [exists k; reflexivity|exists (length ops); rewrite firstn_all; reflexivity]). destruct X as [k ->].
destruct (save_cases (r_writes q) (path_of (r_meta q)) c k d) as [S|[S1 S2]].
- unfold ops. rewrite S. apply FF.
- unfold ops. destruct (p_eqb (path_of m) (path_of (r_meta q))) eqn:Q; [apply PE in Q; apply INJ in Q; subst m; rewrite S1; exact H|]. rewrite S2; [apply FF|]. intros Q'. apply PE in Q'. congruence.
Qed.
Lemma serve_all_faithful data qs : forall d, (forall m, faithful meta_eqb width fit data m (d_main d (path_of m))) -> Forall (fun q => from_file data (r_meta q) (r_stations q)) qs ->
  snd (serve_all meta_eqb p_eqb path_of width fit zeros argsort d qs) = map (fun q => Ok (run_plain fit zeros (r_meta q) (r_stations q))) qs /\
  forall m, faithful meta_eqb width fit data m (d_main (fst (serve_all meta_eqb p_eqb path_of width fit zeros argsort d qs)) (path_of m)).
Proof.
induction qs as [|q qs IH]; intros d FF FQ; [auto|]. inversion FQ as [|? ? Hq FQ']; subst. destruct (serve_faithful data d q FF Hq) as [S1 S2]. cbn [serve_all]. destruct (serve d q) as [d1 x]. cbn [fst snd] in *.
destruct (IH d1 S1 FQ') as [I1 I2]. destruct (serve_all _ _ _ _ _ _ _ d1 qs) as [d2 l]. cbn [fst snd map] in *. split; [congruence|exact I2].
Qed.
End Cache.

(** ** shared temporary file *)
Section Shared.
Context {C : Type} (cs : nat -> C).
Definition known (P : C -> Prop) (s : @names C) : Prop := forall i c, snd (n_data s i) = Complete c -> P c.
Lemma sched_known (P : C -> Prop) l : (forall p, In p l -> P (cs p)) -> forall s g, known P s -> known P (fst (sched cs l s g)).
Proof.
intros H. induction l as [|p l IH]; intros s g K; [exact K|]. cbn [sched]. destruct (sstep p (cs p) s (g p)) as [s' x] eqn:E. apply IH; [intros; apply H; right; assumption|].
assert (KS : forall i o v, (forall c, v = Complete c -> P c) -> forall j c, snd (set_data (n_data s) i (o, v) j) = Complete c -> P c).
{ intros i o v V j c. unfold set_data. destruct (j =? i); cbn [snd]; [apply V|apply K]. }
destruct (g p) as [|i| | |] eqn:G; cbn in E.
- destruct (n_tmp s); injection E as <- <-; intros j c; cbn [n_data]; apply KS; discriminate.
- injection E as <- <-. intros j c. cbn [n_data]. apply KS. intros c'. destruct (_ =? p); [intros [= <-]; apply H; left; reflexivity|discriminate].
- destruct (n_tmp s); injection E as <- <-; exact K.
- injection E as <- <-. exact K.
- injection E as <- <-. exact K.
Qed.
End Shared.
