(** Lemmas about pickling. *)
From Coq Require Import String.
From Verif Require Import Model.Prelude Model.Pickle Spec.PickleSpec.
Open Scope string_scope.

Section P.
Context {D : Type} (d0 : D).
Notation value := (value D).
Lemma get_in (d : list (string * value)) k v : get d k = Some v -> In (k, v) d.
Proof.
unfold get. induction d as [|[k' v'] d IH]; cbn; [discriminate|]. destruct (String.eqb_spec k k') as [->|]; cbn; [intros [= ->]; left; reflexivity|]. intros H. right. apply IH, H.
Qed.
Lemma get_cons k' v' (d : list (string * value)) k : get ((k', v') :: d) k = if String.eqb k k' then Some v' else get d k.
Proof. unfold get; cbn. destruct (String.eqb k k'); reflexivity. Qed.
Lemma get_app (d e : list (string * value)) k : get (d ++ e)%list k = match get d k with Some v => Some v | None => get e k end.
Proof. induction d as [|[k' v'] d IH]; [reflexivity|]. cbn [app]. rewrite !get_cons. destruct (String.eqb k k'); [reflexivity|exact IH]. Qed.
Lemma get_some (d : list (string * value)) k : In k (map fst d) <-> exists v, get d k = Some v.
Proof.
induction d as [|[k' v'] d IH]; cbn [map fst]; [split; [intros []|intros [v [=]]]|]. rewrite get_cons. destruct (String.eqb_spec k k') as [->|N].
- split; [eauto|]. intros _. left. reflexivity.
- rewrite <- IH. split; [intros [->|H]; [congruence|exact H]|]. intros H. right. exact H.
Qed.
Lemma get_map (f : value -> value) (d : list (string * value)) k : get (map (fun e => (fst e, f (snd e))) d) k = option_map f (get d k).
Proof. induction d as [|[k' v'] d IH]; [reflexivity|]. cbn [map fst snd]. rewrite !get_cons. destruct (String.eqb k k'); [reflexivity|exact IH]. Qed.
Lemma get_unique (d : list (string * value)) k v : NoDup (map fst d) -> In (k, v) d -> get d k = Some v.
Proof.
induction d as [|[k' v'] d IH]; cbn [map fst]; intros N; [intros []|]. inversion N as [|? ? N1 N2]; subst. rewrite get_cons. intros [[= -> ->]|H]; [rewrite String.eqb_refl; reflexivity|].
destruct (String.eqb_spec k k') as [->|]; [destruct N1; apply (in_map fst) in H; exact H|]. apply IH; assumption.
Qed.

Lemma getattrs_keys d names l : getattrs (D:=D) d names = Ok l -> map fst l = names.
Proof. revert l. induction names as [|n r IH]; intros l; cbn; [intros [= <-]; reflexivity|]. destruct (get d n); [|discriminate]. destruct (getattrs d r) as [l'|]; [|discriminate]. intros [= <-]. cbn. f_equal. apply IH. reflexivity. Qed.
Lemma getattrs_in d names l k v : getattrs (D:=D) d names = Ok l -> In (k, v) l -> get d k = Some v.
Proof. revert l. induction names as [|n r IH]; intros l; cbn; [intros [= <-] []|]. destruct (get d n) as [w|] eqn:G; [|discriminate]. destruct (getattrs d r) as [l'|]; [|discriminate]. intros [= <-] [[= <- <-]|H]; [exact G|]. exact (IH l' eq_refl H). Qed.
Lemma getattrs_get d names l k : getattrs (D:=D) d names = Ok l -> In k names -> get l k = get d k.
Proof.
intros G I. rewrite <- (getattrs_keys _ _ _ G) in I. apply get_some in I as [v I]. rewrite I. symmetry. apply (getattrs_in _ _ _ _ _ G). apply get_in, I.
Qed.
Lemma getattrs_ok d names : (forall n, In n names -> In n (map fst d)) -> exists l, getattrs (D:=D) d names = Ok l.
Proof.
induction names as [|n r IH]; intros H; cbn; [eauto|]. destruct (proj1 (get_some d n) (H n (or_introl eq_refl))) as [v ->].
destruct IH as [l ->]; [intros; apply H; right; assumption|]. eauto.
Qed.

(** attributes by class, decided by computation *)
Definition memb (k : string) (l : list string) : bool := existsb (String.eqb k) l.
Lemma memb_in k l : memb k l = true <-> In k l.
Proof. unfold memb. rewrite existsb_exists. split; [intros [x [H E]]; apply String.eqb_eq in E as ->; exact H|]. intros H. exists k. split; [exact H|apply String.eqb_refl]. Qed.
Definition bo (c : cls) (k : string) : bool := match c with CTrainer => String.eqb k "bo_info" | _ => false end.
Lemma assigned_cases c k : In k (assigned c) -> (In k (kept c) /\ lost c k = false /\ bo c k = false) \/ (In k (nulled c) /\ lost c k = true /\ bo c k = false) \/ (bo c k = true /\ lost c k = false).
Proof.
intros H. assert (A : forallb (fun k => (memb k (kept c) && negb (lost c k) && negb (bo c k)) || (memb k (nulled c) && lost c k && negb (bo c k)) || (bo c k && negb (lost c k))) (assigned c) = true) by (destruct c; reflexivity).
rewrite forallb_forall in A. specialize (A k H). apply orb_true_iff in A as [A|A]; [apply orb_true_iff in A as [A|A]|].
- apply andb_true_iff in A as [A B]. apply andb_true_iff in A as [A C]. apply memb_in in A. apply negb_true_iff in B. apply negb_true_iff in C. auto.
- apply andb_true_iff in A as [A B]. apply andb_true_iff in A as [A C]. apply memb_in in A. apply negb_true_iff in B. auto.
- apply andb_true_iff in A as [A B]. apply negb_true_iff in B. auto.
Qed.
Lemma kept_assigned c k : In k (kept c) -> In k (assigned c) /\ lost c k = false /\ bo c k = false.
Proof.
intros H. assert (A : forallb (fun k => memb k (assigned c) && negb (lost c k) && negb (bo c k)) (kept c) = true) by (destruct c; reflexivity).
rewrite forallb_forall in A. specialize (A k H). apply andb_true_iff in A as [A B]. apply andb_true_iff in A as [A C]. apply memb_in in A. apply negb_true_iff in B. apply negb_true_iff in C. auto.
Qed.
Lemma nulled_assigned c k : In k (nulled c) -> In k (assigned c) /\ lost c k = true /\ bo c k = false.
Proof.
intros H. assert (A : forallb (fun k => memb k (assigned c) && lost c k && negb (bo c k)) (nulled c) = true) by (destruct c; reflexivity).
rewrite forallb_forall in A. specialize (A k H). apply andb_true_iff in A as [A B]. apply andb_true_iff in A as [A C]. apply memb_in in A. apply negb_true_iff in B. auto.
Qed.
Fixpoint nodupb (l : list string) : bool := match l with [] => true | a :: r => negb (memb a r) && nodupb r end.
Lemma nodupb_ok l : nodupb l = true -> NoDup l.
Proof. induction l as [|a r IH]; cbn; [constructor|]. intros H. apply andb_true_iff in H as [H1 H2]. constructor; [|auto]. intros I. apply memb_in in I. rewrite I in H1. discriminate. Qed.

Definition skeys (c : cls) : list string := ((match c with CTrainer => ["bo_info"] | _ => [] end) ++ kept c ++ nulled c)%list.
Lemma getstate_keys (o : object D) st : getstate o = Ok st -> map fst st = skeys (o_cls o).
Proof.
unfold getstate. destruct (getattrs (o_dict o) (kept (o_cls o))) as [l|] eqn:G; [|discriminate]. apply getattrs_keys in G.
assert (K : map fst (l ++ map (fun n => (n, @VNone D)) (nulled (o_cls o)))%list = (kept (o_cls o) ++ nulled (o_cls o))%list).
{ rewrite map_app, G, map_map. cbn. rewrite map_id. reflexivity. }
unfold skeys. destruct (o_cls o); try (intros [= <-]; exact K). destruct (get (o_dict o) "bo_info"); [|discriminate]. intros [= <-]. exact (f_equal (cons "bo_info") K).
Qed.
Lemma skeys_nodup c : NoDup (skeys c).
Proof. apply nodupb_ok. destruct c; reflexivity. Qed.
Lemma skeys_assigned c k : In k (skeys c) <-> In k (assigned c).
Proof.
split.
- assert (A : forallb (fun k => memb k (assigned c)) (skeys c) = true) by (destruct c; reflexivity). rewrite forallb_forall in A. intros H. apply memb_in, A, H.
- assert (A : forallb (fun k => memb k (skeys c)) (assigned c) = true) by (destruct c; reflexivity). rewrite forallb_forall in A. intros H. apply memb_in, A, H.
Qed.
Lemma getstate_in (o : object D) st k v : getstate o = Ok st -> In (k, v) st ->
  (In k (kept (o_cls o)) /\ get (o_dict o) k = Some v) \/ (In k (nulled (o_cls o)) /\ v = VNone) \/
  (bo (o_cls o) k = true /\ exists w, get (o_dict o) k = Some w /\ v = bo_state w).
Proof.
unfold getstate. destruct (getattrs (o_dict o) (kept (o_cls o))) as [l|] eqn:G; [|discriminate].
assert (K : In (k, v) (l ++ map (fun n => (n, VNone)) (nulled (o_cls o)))%list -> (In k (kept (o_cls o)) /\ get (o_dict o) k = Some v) \/ (In k (nulled (o_cls o)) /\ v = VNone)).
{ intros H. apply in_app_iff in H as [H|H].
  - left. split; [rewrite <- (getattrs_keys _ _ _ G); apply (in_map fst) in H; exact H|]. exact (getattrs_in _ _ _ _ _ G H).
  - right. apply in_map_iff in H as [n [[= <- <-] H]]. auto. }
destruct (o_cls o) eqn:C; try (intros [= <-] H; destruct (K H); tauto).
destruct (get (o_dict o) "bo_info") as [w|] eqn:W; [|discriminate]. intros [= <-] [[= <- <-]|H]; [|destruct (K H); tauto].
right; right. split; [reflexivity|]. exists w. auto.
Qed.
Lemma getstate_get (o : object D) st k w : getstate o = Ok st -> get (o_dict o) k = Some w -> In k (assigned (o_cls o)) -> lost (o_cls o) k = false ->
  get st k = Some (if bo (o_cls o) k then bo_state w else w).
Proof.
intros G W A L. assert (I : In k (map fst st)) by (rewrite (getstate_keys _ _ G); apply skeys_assigned, A). apply get_some in I as [v I]. rewrite I. f_equal.
apply get_in in I. destruct (getstate_in _ _ _ _ G I) as [[K V]|[[K V]|[K [w' [W' V]]]]].
- apply kept_assigned in K as [_ [_ ->]]. congruence.
- apply nulled_assigned in K as [_ [K _]]. congruence.
- rewrite K. congruence.
Qed.
Lemma getstate_ok (o : object D) : complete o -> exists st, getstate o = Ok st.
Proof.
intros [N C]. unfold getstate. destruct (getattrs_ok (o_dict o) (kept (o_cls o))) as [l ->]; [intros n H; apply C, kept_assigned, H|].
destruct (o_cls o) eqn:X; try (eexists; reflexivity). destruct (proj1 (get_some (o_dict o) "bo_info")) as [v ->]; [apply C; cbn; auto|]. eauto.
Qed.
Lemma setstate_id c (st : list (string * value)) : map fst st = skeys c -> setstate d0 c st = st.
Proof.
intros K. unfold setstate. assert (A : forall e, In e (defaults d0 c) -> In (fst e) (skeys c)).
{ intros e He. assert (B : forallb (fun k => memb k (skeys c)) (map fst (defaults d0 c)) = true) by (destruct c; reflexivity). rewrite forallb_forall in B. apply memb_in, B, in_map, He. }
revert A. induction (defaults d0 c) as [|e l IH]; intros A; [reflexivity|]. cbn [fold_left].
assert (I : In (fst e) (map fst st)) by (rewrite K; apply A; left; reflexivity). apply get_some in I as [v ->]. apply IH. intros; apply A; right; assumption.
Qed.

Lemma refs_dict (l : list (string * value)) k w b : In (k, w) l -> In b (refs w) -> In b (refs (VDict l)).
Proof. intros I R. cbn. apply in_flat_map. exists (k, w). auto. Qed.
Lemma refs_bo (w : value) b : In b (refs (bo_state w)) -> In b (refs w).
Proof.
destruct w as [| | | | |l]; cbn; auto. destruct (get l "surrogate") as [[]|]; auto; cbn; rewrite !in_flat_map; intros [e [H R]]; apply filter_In in H as [H _]; eauto.
Qed.
Lemma visited_reached (h : heap D) r a : visited h r a -> reached h r a.
Proof.
induction 1 as [|a o st k v b V IH H G I R]; [constructor|].
destruct (getstate_in _ _ _ _ G I) as [[_ W]|[[_ ->]|[_ [w [W ->]]]]].
- exact (reach_ref h r a o k v b IH H (get_in _ _ _ W) R).
- destruct R.
- exact (reach_ref h r a o k w b IH H (get_in _ _ _ W) (refs_bo _ _ R)).
Qed.

Section Copy.
Context (h h' : heap D) (r : nat) (f : nat -> nat) (S : sound h r).
Hypothesis F : forall a o st, visited h r a -> h a = Some o -> getstate o = Ok st ->
      h' (f a) = Some (Object (o_cls o) (setstate d0 (o_cls o) (map (fun e => (fst e, rename f (snd e))) st))).
Lemma obj_copy a : visited h r a -> exists o st, h a = Some o /\ complete o /\ getstate o = Ok st /\ h' (f a) = Some (Object (o_cls o) (map (fun e => (fst e, rename f (snd e))) st)).
Proof.
intros V. destruct (S a (visited_reached _ _ _ V)) as [o [H C]]. destruct (getstate_ok o C) as [st G]. exists o, st. split; [exact H|]. split; [exact C|]. split; [exact G|].
rewrite (F a o st V H G). rewrite setstate_id; [reflexivity|]. rewrite map_map. cbn. exact (getstate_keys _ _ G).
Qed.
Lemma read_copy p : forall v w, (forall b, In b (refs v) -> visited h r b) -> avoids h v p -> read h v p = Some w -> read h' (rename f v) p = Some (rename f w).
Proof.
induction p as [|k p IH]; intros v w V A; cbn [read]; [intros [= <-]; reflexivity|].
destruct v as [| |a|a m| |l]; try discriminate.
- cbn [rename]. destruct (obj_copy a (V a (or_introl eq_refl))) as [o [st [H [[N C] [G H']]]]]. rewrite H'. cbn [o_dict]. rewrite H. cbn [avoids] in A. rewrite H in A. destruct A as [L A].
  destruct (get (o_dict o) k) as [u|] eqn:W; [|discriminate]. destruct A as [PS A]. intros R.
  assert (K : In k (assigned (o_cls o))) by (apply C, get_some; eauto). pose proof (getstate_get _ _ _ _ G W K L) as GG. rewrite get_map, GG. cbn [option_map].
  assert (VS : forall x, In x (refs (if bo (o_cls o) k then bo_state u else u)) -> visited h r x).
  { intros x Hx. exact (visit_ref h r a o st k _ x (V a (or_introl eq_refl)) H G (get_in _ _ _ GG) Hx). }
  destruct (bo (o_cls o) k) eqn:B; [|apply IH; assumption].
  unfold bo in B. destruct (o_cls o); try discriminate. apply String.eqb_eq in B as ->. cbn [past_surrogate] in PS. specialize (PS eq_refl).
  destruct u as [| |b|b n| |l]; try (apply IH; assumption). cbn [bo_state] in *.
  destruct PS as [PS|[k' [p' [-> NK]]]].
  + replace (match get l "surrogate" with Some VNone | None => VDict l | _ => VDict (filter (fun e => negb (String.eqb "surrogate" (fst e))) l) end) with (VDict l) in * by (destruct (get l "surrogate") as [[]|]; try contradiction; reflexivity).
    apply IH; assumption.
  + assert (GF : get (filter (fun e => negb (String.eqb "surrogate" (fst e))) l) k' = get l k').
    { clear -NK. induction l as [|[q x] l IHl]; [reflexivity|]. cbn [filter fst]. destruct (String.eqb_spec "surrogate" q) as [<-|NQ]; cbn [negb].
      - rewrite get_cons. destruct (String.eqb_spec k' "surrogate"); [contradiction|exact IHl].
      - rewrite !get_cons. destruct (String.eqb k' q); [reflexivity|exact IHl]. }
    set (b := match get l "surrogate" with Some VNone | None => VDict l | _ => _ end) in *.
    assert (B : b = VDict l \/ b = VDict (filter (fun e => negb (String.eqb "surrogate" (fst e))) l)) by (unfold b; destruct (get l "surrogate") as [[]|]; auto).
    destruct B as [B|B]; rewrite B in *; [apply IH; assumption|]. clear b B. apply IH; [exact VS| |].
    * cbn [avoids] in *. rewrite GF. exact A.
    * cbn [read] in *. rewrite GF. exact R.
- cbn [rename]. cbn [avoids] in A. destruct (String.eqb k "__self__"); [|discriminate]. intros R. apply (IH (VRef a)); [exact V|exact A|exact R].
- cbn [rename]. rewrite get_map. cbn [avoids] in A. destruct (get l k) as [u|] eqn:W; [|discriminate]. intros R. cbn [option_map]. apply IH; [|exact A|exact R].
  intros b Hb. apply V. exact (refs_dict l k u b (get_in _ _ _ W) Hb).
Qed.
Lemma lost_copy a k : visited h r a -> forall o, h a = Some o -> lost (o_cls o) k = true -> In k (assigned (o_cls o)) -> exists o', h' (f a) = Some o' /\ o_cls o' = o_cls o /\ get (o_dict o') k = Some VNone.
Proof.
intros V o H L A. destruct (obj_copy a V) as [o1 [st [H1 [C [G H']]]]]. rewrite H in H1. injection H1 as <-. eexists. split; [exact H'|]. split; [reflexivity|]. cbn [o_dict]. rewrite get_map.
assert (I : In k (map fst st)) by (rewrite (getstate_keys _ _ G); apply skeys_assigned, A). apply get_some in I as [v I]. rewrite I. pose proof (get_in _ _ _ I) as J.
destruct (getstate_in _ _ _ _ G J) as [[K _]|[[_ ->]|[B _]]]; [apply kept_assigned in K as [_ [K _]]; congruence|reflexivity|].
exfalso. clear -B L. destruct (o_cls o); discriminate.
Qed.
Lemma surrogate_gone a : visited h r a -> forall o, h a = Some o -> o_cls o = CTrainer -> forall l s, get (o_dict o) "bo_info" = Some (VDict l) -> get l "surrogate" = Some s -> s <> VNone ->
  exists o' l', h' (f a) = Some o' /\ get (o_dict o') "bo_info" = Some (VDict l') /\ get l' "surrogate" = None.
Proof.
intros V o H T l s B Sg Ns. destruct (obj_copy a V) as [o1 [st [H1 [C [G H']]]]]. rewrite H in H1. injection H1 as <-.
eexists; exists (map (fun e => (fst e, rename f (snd e))) (filter (fun e => negb (String.eqb "surrogate" (fst e))) l)). split; [exact H'|]. split.
- cbn [o_dict]. rewrite get_map.
  assert (GG : get st "bo_info" = Some (bo_state (VDict l))). { rewrite (getstate_get _ _ _ _ G B); [rewrite T; reflexivity|rewrite T; right; left; reflexivity|rewrite T; reflexivity]. }
  rewrite GG. unfold bo_state. rewrite Sg. destruct s; try contradiction; reflexivity.
- rewrite get_map. assert (N : get (filter (fun e => negb (String.eqb "surrogate" (fst e))) l) "surrogate" = None).
  { clear. induction l as [|[k v] l IH]; [reflexivity|]. cbn [filter fst]. destruct (String.eqb_spec "surrogate" k) as [E|E]; cbn [negb]; [exact IH|]. rewrite get_cons. destruct (String.eqb_spec "surrogate" k); [contradiction|exact IH]. }
  rewrite N. reflexivity.
Qed.
Fixpoint refs_rename (v : value) : refs (rename f v) = map f (refs v).
Proof.
destruct v as [| | | | |l]; try reflexivity. cbn. induction l as [|[k v] l IH]; [reflexivity|]. cbn. rewrite map_app, <- IH. f_equal. apply refs_rename.
Qed.
Lemma reached_copy a' : reached h' (f r) a' -> exists a, visited h r a /\ a' = f a.
Proof.
induction 1 as [|a' o' k v' b' R [a [V ->]] H I B]; [exists r; split; [constructor|reflexivity]|].
destruct (obj_copy a V) as [o [st [H1 [C [G H']]]]]. rewrite H in H'. injection H' as ->. cbn [o_dict] in I. apply in_map_iff in I as [[k1 v] [[= <- <-] I]].
rewrite refs_rename in B. apply in_map_iff in B as [b [<- B]]. exists b. split; [|reflexivity]. exact (visit_ref h r a o st k1 v b V H1 G I B).
Qed.
Lemma sound_copy : sound h' (f r).
Proof.
intros a' R. apply reached_copy in R as [a [V ->]]. destruct (obj_copy a V) as [o [st [H1 [C [G H']]]]]. eexists. split; [exact H'|]. assert (K : map fst (map (fun e => (fst e, rename f (snd e))) st) = skeys (o_cls o)) by (rewrite map_map; exact (getstate_keys _ _ G)).
split; cbn [o_dict o_cls].
- rewrite K. apply skeys_nodup.
- intros k. rewrite K. apply skeys_assigned.
Qed.
End Copy.

Lemma clean_pickles (h : heap D) r : sound h r -> (forall a o, visited h r a -> h a = Some o -> clean o) -> pickles h r.
Proof.
intros S C a V. destruct (S a (visited_reached _ _ _ V)) as [o [H [N K]]]. destruct (getstate_ok o (conj N K)) as [st G]. exists o, st. split; [exact H|]. split; [exact G|].
intros k v I. destruct (getstate_in _ _ _ _ G I) as [[A W]|[[A ->]|[A [w [W ->]]]]]; [|reflexivity|].
- apply kept_assigned in A as [_ [L B]]. destruct (C a o V H k v (get_in _ _ _ W) L) as [P|[T [-> _]]]; [exact P|]. rewrite T in B. discriminate.
- assert (T : o_cls o = CTrainer /\ k = "bo_info"). { clear -A. destruct (o_cls o); try discriminate. apply String.eqb_eq in A. auto. }
  destruct T as [T ->]. destruct (C a o V H _ w (get_in _ _ _ W)) as [P|[_ [_ [l [s [-> [Sg [Ns P]]]]]]]]; [rewrite T; reflexivity| |].
  + destruct w as [| | | | |l]; try exact P. cbn [bo_state]. assert (Q : picklable (VDict (filter (fun e => negb (String.eqb "surrogate" (fst e))) l)) = true).
    { cbn in *. rewrite forallb_forall in *. intros e He. apply P. apply filter_In in He. apply He. }
    destruct (get l "surrogate") as [[]|]; assumption.
  + cbn [bo_state]. rewrite Sg. assert (Q : picklable (VDict (filter (fun e => negb (String.eqb "surrogate" (fst e))) l)) = true).
    { cbn. rewrite forallb_forall. intros [k' w] He. apply filter_In in He as [He Nk]. cbn in *. apply (P k' w He). intros ->. discriminate. }
    destruct s; try exact Q. contradiction.
Qed.
End P.
