(** The order in which the search along the tree visits the inputs. *)
From Coq Require Import Reals Lra Permutation Relations Sorted.
From Verif Require Import Model.Prelude Spec.Sums Model.Align Spec.AlignSpec Proofs.AlignP.

Section Sort.
Context (le : nat -> nat -> bool) (tot : forall a b, le a b = true \/ le b a = true) (trans : forall a b c, le a b = true -> le b c = true -> le a c = true).
Lemma insert_sorted v l : StronglySorted (fun a b => le a b = true) l -> StronglySorted (fun a b => le a b = true) (insert le v l).
Proof using tot trans.
induction 1 as [|w l S IH F]; cbn; [repeat constructor|]. destruct (le v w) eqn:E.
- constructor; [constructor; assumption|]. constructor; [exact E|]. eapply Forall_impl; [|exact F]. intros a A. cbn in A. eapply trans; eassumption.
- constructor; [exact IH|]. apply Forall_forall. intros a A. apply (Permutation_in _ (insert_perm le v l)) in A. destruct A as [<-|A]; [destruct (tot v w); congruence|rewrite Forall_forall in F; auto].
Qed.
Lemma sorted_sorted l : StronglySorted (fun a b => le a b = true) (sorted le l).
Proof using tot trans. induction l as [|v l IH]; cbn; [constructor|apply insert_sorted; exact IH]. Qed.
End Sort.
Lemma before_sorted (le : nat -> nat -> bool) l u v : StronglySorted (fun a b => le a b = true) l -> before l u v -> le u v = true.
Proof. induction 1 as [|a l S IH F]; cbn; [easy|]. intros [[-> H]|H]; [rewrite Forall_forall in F; auto|auto]. Qed.
Lemma before_right l m u v : NoDup (l ++ m) -> In u m -> before (l ++ m) u v -> before m u v.
Proof.
induction l as [|a l IH]; cbn; [auto|]. intros N I [[-> H]|H]; inversion N; subst; [|auto]. exfalso. apply H2. apply in_or_app. auto.
Qed.
Lemma before_left l m u v : NoDup (l ++ m) -> In v l -> before (l ++ m) u v -> before l u v.
Proof.
induction l as [|a l IH]; cbn; [easy|]. intros N I [[-> H]|H]; inversion N; subst.
- left. split; [reflexivity|]. destruct I as [->|I]; [contradiction|exact I].
- right. destruct I as [->|I]; [|auto]. exfalso. apply before_in in H. tauto.
Qed.
Lemma before_irrefl l u : NoDup l -> ~ before l u u.
Proof. induction l as [|a l IH]; cbn; [auto|]. intros N [[-> H]|H]; inversion N; subst; [contradiction|]. apply IH; assumption. Qed.
Lemma before_last l u v : NoDup (l ++ [u]) -> ~ before (l ++ [u]) u v.
Proof. intros N B. apply before_right in B; [|exact N|left; reflexivity]. cbn in B. tauto. Qed.

Section Search.
Context (n : nat) (edge : nat -> nat -> bool) (key : nat -> nat -> nat -> bool) (root : nat).
Hypotheses (tot : forall u a b, key u a b = true \/ key u b a = true) (trans : forall u a b c, key u a b = true -> key u b c = true -> key u a c = true).
Record ordered (ps : nat -> parent) (O Q : list nat) : Prop := {
  o_done : forall u v, ps v = Par u -> In u O;
  o_sib : forall u v w, ps v = Par u -> ps w = Par u -> before (O ++ Q) v w -> key u v w = true;
  o_bfs : forall u v u' v', ps v = Par u -> ps v' = Par u' -> before O u u' -> before (O ++ Q) v v' }.
Lemma ordered_start : ordered (fun v => if v =? root then Root else Unseen) [] [root].
Proof. constructor; intros *; destruct (v =? root); discriminate. Qed.
Lemma ordered_step ps O u q : inv n edge root ps O (u :: q) -> ordered ps O (u :: q) ->
  let nbrs := sorted (key u) (filter (fun v => edge u v && unseen (ps v)) (seq 0 n)) in
  ordered (fold_left (fun p v => set_parent p u v) nbrs ps) (O ++ [u]) (q ++ nbrs).
Proof using tot trans.
intros I [A B C]. assert (I' := inv_step n edge key root ps O u q I). cbn zeta in *. set (nbrs := sorted _ _) in *. destruct I as [I1 I2 _ _ _ _ _]. destruct I' as [J1 _ _ _ _ _ _].
assert (PS : forall v, fold_left (fun p v => set_parent p u v) nbrs ps v = if in_dec Nat.eq_dec v nbrs then Par u else ps v) by (intros; apply fold_parents).
assert (EQ : (O ++ [u]) ++ q ++ nbrs = (O ++ u :: q) ++ nbrs) by (rewrite <- !app_assoc; reflexivity).
assert (NU : ~ In u O). { intros H. apply NoDup_remove_2 in I1. apply I1. apply in_or_app. auto. }
assert (OLD : forall v p, ps v = Par p -> In v (O ++ u :: q)) by (intros v p E; apply I2; rewrite E; discriminate).
assert (NO : NoDup (O ++ [u])). { rewrite EQ in J1. replace ((O ++ u :: q) ++ nbrs) with ((O ++ [u]) ++ (q ++ nbrs)) in J1 by exact EQ. revert J1. generalize (O ++ [u]) (q ++ nbrs). clear. intros l m. induction l as [|a l IH]; cbn; [constructor|]. intros H. inversion H; subst. constructor; [intros X; apply H2; apply in_or_app; auto|auto]. }
constructor; rewrite ?EQ in *.
- intros p v. rewrite PS. destruct (in_dec Nat.eq_dec v nbrs) as [H|H]; [intros [= <-]; apply in_or_app; right; left; reflexivity|]. intros E. apply in_or_app. left. eapply A; exact E.
- intros p v w. rewrite !PS. destruct (in_dec Nat.eq_dec v nbrs) as [Hv|Hv], (in_dec Nat.eq_dec w nbrs) as [Hw|Hw]; intros Ev Ew Bf.
  + injection Ev as <-. apply before_right in Bf; [|exact J1|exact Hv]. eapply (before_sorted (key u)); [apply sorted_sorted; [apply tot|apply trans]|exact Bf].
  + injection Ev as <-. apply A in Ew. contradiction.
  + injection Ew as <-. apply A in Ev. contradiction.
  + eapply B; [exact Ev|exact Ew|]. eapply before_left; [exact J1|eapply OLD; exact Ew|exact Bf].
- intros p v p' v'. rewrite !PS. destruct (in_dec Nat.eq_dec v nbrs) as [Hv|Hv], (in_dec Nat.eq_dec v' nbrs) as [Hw|Hw]; intros Ev Ew Bf.
  + injection Ev as <-. exfalso. exact (before_last _ _ _ NO Bf).
  + injection Ev as <-. exfalso. exact (before_last _ _ _ NO Bf).
  + apply before_app2; [eapply OLD; exact Ev|exact Hw].
  + apply before_app1. eapply C; [exact Ev|exact Ew|]. eapply before_left; [exact NO|eapply A; exact Ew|exact Bf].
Qed.
Lemma search_keeps fuel : forall ps O Q order ps', inv n edge root ps O Q -> search n edge key fuel ps O Q = Some (order, ps') -> inv n edge root ps' order [].
Proof.
induction fuel as [|fuel IH]; intros ps O Q order ps' I E.
- destruct Q as [|u q]; [|discriminate]. cbn in E. injection E as <- <-. exact I.
- destruct Q as [|u q]; cbn [search] in E; [injection E as <- <-; exact I|]. eapply IH; [|exact E]. apply inv_step. exact I.
Qed.
Lemma search_ordered fuel : forall ps O Q order ps', inv n edge root ps O Q -> ordered ps O Q -> search n edge key fuel ps O Q = Some (order, ps') -> ordered ps' order [].
Proof using tot trans.
induction fuel as [|fuel IH]; intros ps O Q order ps' I H E.
- destruct Q as [|u q]; [|discriminate]. cbn in E. injection E as <- <-. exact H.
- destruct Q as [|u q]; cbn [search] in E; [injection E as <- <-; exact H|]. eapply IH; [|apply ordered_step; [exact I|exact H]|exact E]. apply inv_step. exact I.
Qed.
End Search.

Lemma pair_le_total a b i j : pair_le a b i j = true \/ pair_le b a j i = true.
Proof. unfold pair_le. destruct (Rlt_dec a b), (Rlt_dec b a); auto. destruct (Nat.leb_spec i j); [auto|]. right. apply Nat.leb_le. lia. Qed.
Lemma pair_le_spec a b i j : pair_le a b i j = true <-> (a < b \/ a = b /\ (i <= j)%nat)%R.
Proof.
unfold pair_le. destruct (Rlt_dec a b) as [H|H]; [split; auto|]. destruct (Rlt_dec b a) as [G|G]; [split; [discriminate|]; intros [X|[X _]]; lra|].
assert (a = b) by lra. rewrite Nat.leb_le. split; [auto|]. intros [X|[_ X]]; [lra|exact X].
Qed.
Lemma build_ordered mst d fuel n x root t : mst_contract mst -> build_mst mst d fuel n x root = Some (Ok t) ->
  (forall u v w, t_parents t v = Par u -> t_parents t w = Par u -> before (t_order t) v w -> (dist d x u v < dist d x u w \/ dist d x u v = dist d x u w /\ (v < w)%nat)%R) /\
  (forall u v u' v', t_parents t v = Par u -> t_parents t v' = Par u' -> before (t_order t) u u' -> before (t_order t) v v').
Proof.
intros MC. unfold build_mst. destruct (Nat.eqb_spec n 0); [discriminate|]. set (r := match root with None => _ | Some r => r end).
destruct (Z.ltb_spec r 0); [discriminate|]. destruct (Z.leb_spec (Z.of_nat n) r); [discriminate|]. cbn [orb]. destruct (Nat.eqb_spec n 1).
- intros [= <-]. cbn. split; discriminate.
- set (adj := adjacency mst d n x). set (edge := fun u v => positive (adj u v)). set (key := fun u v w => pair_le (adj u v) (adj u w) v w).
  destruct (search_from n edge key fuel (Z.to_nat r)) as [[order ps]|] eqn:E; [|discriminate]. intros [= <-]. cbn [t_parents t_order].
  assert (I0 : inv n edge (Z.to_nat r) (fun v => if v =? Z.to_nat r then Root else Unseen) [] [Z.to_nat r]) by (apply inv_start; lia).
  assert (OR : ordered key ps order []).
  { eapply (search_ordered n edge key (Z.to_nat r)); [| |exact I0|apply ordered_start|exact E].
    - intros u a b. apply pair_le_total.
    - intros u a b c H1 H2. apply pair_le_spec in H1, H2. apply pair_le_spec. destruct H1 as [H1|[H1 H3]], H2 as [H2|[H2 H4]]; [left; lra|left; lra|left; lra|right; split; [lra|lia]]. }
  assert (IV : inv n edge (Z.to_nat r) ps order []).
  { eapply search_keeps; [exact I0|exact E]. }
  destruct OR as [O1 O2 O3]. destruct IV as [V1 V2 V3 V4 V5 V6 V7]. rewrite app_nil_r in *.
  assert (D : forall u v, ps v = Par u -> adj u v = dist d x u v /\ In v order).
  { intros u v P. assert (In v order) as Iv by (apply V2; rewrite P; discriminate). split; [|exact Iv].
    destruct (V6 v Iv) as (u' & P' & B & Ed); [intros ->; congruence|]. assert (u' = u) as -> by congruence.
    unfold edge, positive in Ed. destruct (Rlt_dec 0 (adj u v)) as [Q|]; [|discriminate].
    destruct (adj_cases d n x mst MC u v) as [Z|Z]; [apply V3; apply before_in in B; tauto|apply V3; exact Iv| |exact Z]. unfold adj in Q. lra. }
  split.
  + intros u v w Pv Pw B. destruct (D u v Pv) as [Ev _], (D u w Pw) as [Ew _]. rewrite <- Ev, <- Ew. specialize (O2 u v w Pv Pw B). unfold key in O2. apply pair_le_spec in O2.
    destruct O2 as [O2|[O2 L]]; [left; exact O2|right]. split; [exact O2|]. assert (v <> w); [|lia]. intros ->. exact (before_irrefl _ _ V1 B).
  + exact O3.
Qed.
