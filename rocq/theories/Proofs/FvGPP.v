(** Lemmas about the flattening of multi-task data. *)
From Coq Require Import Sorting.Sorted Sorting.Permutation.
From Verif Require Import Model.Prelude Model.Data Model.FvGP Spec.DataSpec Spec.FvGPSpec Proofs.DataP.

Section P.
Context {V Obj : Type} (isnan : V -> bool) (of_task : nat -> V).
Notation observation := (@observation V Obj of_task).
Notation enumerates := (enumerates isnan).

Definition obsb (y : list (list V)) (i j : nat) : bool :=
  match nth_error y j with Some r => match nth_error r i with Some v => negb (isnan v) | None => false end | None => false end.
Definition idxs (k n : nat) (y : list (list V)) : list (nat * nat) :=
  flat_map (fun i => map (pair i) (filter (obsb y i) (seq 0 n))) (seq 0 k).
Definition ent {P} (pts : list P) (y : list (list V)) (nv : option (list (list V))) (ij : nat * nat) : option (P * nat * V * option V) :=
  match nth_error pts (snd ij), nth_error y (snd ij) with
  | Some p, Some r => match nth_error r (fst ij) with
                      | Some v => Some (p, fst ij, v, match nv with
                                                      | Some N => match nth_error N (snd ij) with Some nr => nth_error nr (fst ij) | None => None end
                                                      | None => None end)
                      | None => None end
  | _, _ => None
  end.
Lemma entries_idxs {P} k (pts : list P) y nv : map Some (entries isnan k pts y nv) = map (ent pts y nv) (idxs k (length pts) y).
Proof.
unfold entries, idxs. induction (seq 0 k) as [|i l IH]; [reflexivity|]. cbn [flat_map]. rewrite !map_app, IH. f_equal. clear IH.
assert (A : forall j, In j (seq 0 (length pts)) -> j < length pts) by (intros j Hj; apply in_seq in Hj; lia).
induction (seq 0 (length pts)) as [|j l' IH']; [reflexivity|]. cbn [flat_map filter].
rewrite map_app, IH' by (intros; apply A; right; assumption). clear IH'. specialize (A j (or_introl eq_refl)).
apply nth_error_Some in A. unfold obsb at 2. destruct (nth_error pts j) as [p|] eqn:Ep; [|congruence].
destruct (nth_error y j) as [r|] eqn:Er; [|reflexivity]. destruct (nth_error r i) as [v|] eqn:Ev; [|reflexivity].
destruct (isnan v); [reflexivity|]. cbn [negb map app]. f_equal. unfold ent; cbn [fst snd]. rewrite Ep, Er, Ev. reflexivity.
Qed.

(** order *)
Lemma sorted_app {A} (R : A -> A -> Prop) l l' : StronglySorted R l -> StronglySorted R l' -> (forall a b, In a l -> In b l' -> R a b) -> StronglySorted R (l ++ l').
Proof.
induction 1 as [|a l S IH F]; intros S' K; [exact S'|]. cbn. constructor; [apply IH; [exact S'|]; intros; apply K; [right|]; assumption|].
apply Forall_app. split; [exact F|]. apply Forall_forall. intros b Hb. apply K; [left; reflexivity|exact Hb].
Qed.
Lemma seq_sorted n a : StronglySorted lt (seq a n).
Proof.
revert a. induction n as [|n IH]; intros a; cbn; constructor; [apply IH|]. apply Forall_forall. intros b Hb. apply in_seq in Hb. lia.
Qed.
Lemma filter_sorted {A} (R : A -> A -> Prop) f l : StronglySorted R l -> StronglySorted R (filter f l).
Proof.
induction 1 as [|a l S IH F]; cbn; [constructor|]. destruct (f a); [|exact IH]. constructor; [exact IH|].
rewrite Forall_forall in *. intros b Hb. apply filter_In in Hb as [Hb _]. apply F, Hb.
Qed.
Lemma idxs_sorted k n y : StronglySorted lex (idxs k n y).
Proof.
unfold idxs. generalize (seq_sorted k 0). induction 1 as [|i l S IH F]; cbn; [constructor|]. apply sorted_app; [|exact IH|].
- assert (Q : StronglySorted lt (filter (obsb y i) (seq 0 n))) by apply filter_sorted, seq_sorted. clear -Q.
  induction Q as [|j l S IH F]; cbn; constructor; [exact IH|]. rewrite Forall_forall in *. intros p Hp. apply in_map_iff in Hp as [j' [<- Hj]]. right. cbn. split; [reflexivity|]. apply F, Hj.
- intros a b Ha Hb. apply in_map_iff in Ha as [j [<- _]]. apply in_flat_map in Hb as [i' [Hi Hb]]. apply in_map_iff in Hb as [j' [<- _]]. left. cbn. rewrite Forall_forall in F. apply F, Hi.
Qed.
Lemma lex_irr a : ~ lex a a. Proof. unfold lex. lia. Qed.
Lemma sorted_nodup l : StronglySorted lex l -> NoDup l.
Proof. induction 1 as [|a l S IH F]; constructor; [|exact IH]. intros Ha. rewrite Forall_forall in F. exact (lex_irr a (F a Ha)). Qed.
Lemma obsb_observed (y : mat V) i j : obsb (rows y) i j = true <-> observed isnan y i j.
Proof.
unfold obsb, observed, entry. destruct (nth_error (rows y) j) as [r|]; [destruct (nth_error r i) as [v|]|].
- rewrite negb_true_iff. split; [intros E; exists v; auto|intros [w [[= <-] E]]; exact E].
- split; [discriminate|intros [v [E _]]; discriminate].
- split; [discriminate|intros [v [E _]]; discriminate].
Qed.
Lemma idxs_in k n y i j : In (i, j) (idxs k n y) <-> i < k /\ j < n /\ obsb y i j = true.
Proof.
unfold idxs. rewrite in_flat_map. split.
- intros [i' [Hi Hp]]. apply in_map_iff in Hp as [j' [[= -> ->] Hj]]. apply filter_In in Hj as [Hj O]. apply in_seq in Hi, Hj. repeat split; try lia. exact O.
- intros [Hi [Hj O]]. exists i. split; [apply in_seq; lia|]. apply in_map_iff. exists j. split; [reflexivity|]. apply filter_In. split; [apply in_seq; lia|exact O].
Qed.
Lemma idxs_enum k (y : mat V) : enumerates k y (idxs k (length (rows y)) (rows y)).
Proof. split; [apply sorted_nodup, idxs_sorted|]. intros i j. rewrite idxs_in, obsb_observed. reflexivity. Qed.

(** zipping *)
Lemma somes_map {A} (l : list (option A)) : (forall o, In o l -> o <> None) -> map Some (somes l) = l.
Proof.
induction l as [|o l IH]; cbn; intros K; [reflexivity|]. destruct o as [a|]; [|exfalso; apply (K None); [left|]; reflexivity]. cbn. f_equal. apply IH. intros; apply K; right; assumption.
Qed.
Lemma zip3_map {E A B C} (es : list E) (f : E -> A) (g : E -> B) (h : E -> option C) c :
  (match c with Some l => map Some l = map h es | None => forall e, In e es -> h e = None end) ->
  zip3 (map f es) (map g es) c = map (fun e => (f e, g e, h e)) es.
Proof.
intros K. unfold zip3. assert (Kc : (match c with Some l => map Some l | None => map (fun _ => None) (map f es) end) = map h es).
{ destruct c; [exact K|]. rewrite map_map. apply map_ext_in. intros e He. symmetry. apply K, He. }
rewrite Kc. clear K Kc. induction es as [|e es IH]; cbn; [reflexivity|]. f_equal. exact IH.
Qed.
Lemma zip3_app {A B C} (a a' : list A) (b b' : list B) (c c' : option (list C)) cc :
  length a = length b -> (match c, c', cc with Some l, Some l', Some ll => ll = l ++ l' /\ length l = length a | None, None, None => True | _, _, _ => False end) ->
  zip3 (a ++ a') (b ++ b') cc = zip3 a b c ++ zip3 a' b' c'.
Proof.
intros L K. unfold zip3.
assert (CA : forall {X Y} (x x' : list X) (y y' : list Y), length x = length y -> combine (x ++ x') (y ++ y') = combine x y ++ combine x' y').
{ intros X Y x x' y y'. revert y. induction x as [|p x IH]; intros [|q y] Lxy; cbn in *; try lia; [reflexivity|]. f_equal. apply IH. lia. }
rewrite (CA _ _ _ _ _ _ L). destruct c, c', cc; try contradiction.
- destruct K as [-> Lc]. rewrite map_app. apply CA. rewrite combine_length, map_length. lia.
- rewrite map_app. apply CA. rewrite combine_length, map_length. lia.
Qed.
Lemma zip3_length {A B C} (a : list A) (b : list B) (c : option (list C)) : length a = length b -> (match c with Some l => length l = length a | None => True end) -> length (zip3 a b c) = length a.
Proof. intros L K. unfold zip3. rewrite combine_length, combine_length. destruct c; rewrite map_length; lia. Qed.

(** * the flattening *)
Definition noise_rows (n : fn V) : option (list (list V)) := match n with FNMat m => Some (rows m) | FNVec _ => Some [] | _ => None end.
Definition flat_noise (f : flat V Obj) : option (list V) := match fl_n f with NVec l => Some l | _ => None end.
Lemma transform_ok k (x : fx V Obj) ym nv f : transform_index_set2 isnan of_task k x (FYMat ym) nv = Ok f ->
  x <> FXOther /\ fx_len x = Some (length (rows ym)) /\ (k = 0 \/ rows ym = [] \/ (ncols ym = k /\ (nv = FNNone \/ exists m, nv = FNMat m /\ length (rows m) = length (rows ym) /\ ncols m = k))) /\
  nv <> FNOther /\ f = flatten isnan of_task k x (rows ym) (noise_rows nv).
Proof.
assert (LP : negb (k =? 0) && negb (length (rows ym) =? 0) = false -> k = 0 \/ rows ym = []).
{ intros E. apply andb_false_iff in E as [E|E]; apply negb_false_iff, Nat.eqb_eq in E; [left; exact E|right; apply length_zero_iff_nil, E]. }
unfold transform_index_set2. destruct x as [m|l|]; [| |discriminate]; cbn [fx_len fy_len opt_nat_eqb].
all: match goal with |- context [negb (?a =? ?b)] => destruct (Nat.eqb_spec a b) as [E|]; [|discriminate] end; cbn [negb].
all: destruct nv as [|nm|nl|]; cbn [fn_len opt_nat_eqb negb]; try discriminate.
all: try (match goal with |- context [negb (length ?a =? length ?b)] => destruct (Nat.eqb_spec (length a) (length b)) as [En|]; [|discriminate] end; cbn [negb]).
all: match goal with |- context [negb ?a && negb ?b] => destruct (negb a && negb b) eqn:El end; cbn [andb]; try discriminate.
all: try (destruct (Nat.eqb_spec (ncols nm) k) as [E3|]; [|discriminate]; cbn [negb]).
all: try (destruct (Nat.eqb_spec (ncols ym) k) as [E4|]; [|discriminate]; cbn [negb]).
all: intros F; assert (F' : forall a b : flat V Obj, @Ok fexn _ a = Ok b -> b = a) by (intros a b [= ->]; reflexivity); apply F' in F; clear F'.
all: split; [discriminate|]; split; [cbn; congruence|]; split; [|split; [discriminate|exact F]].
all: try (destruct (LP eq_refl) as [H|H]; [left; exact H|right; left; exact H]).
all: right; right; split; [exact E4|]; eauto.
Qed.
Lemma map_some_inj {A} (a b : list A) : map Some a = map Some b -> a = b.
Proof. revert b. induction a as [|x a IH]; intros [|y b] E; cbn in E; try discriminate; [reflexivity|]. injection E as -> E. f_equal. apply IH, E. Qed.
Lemma entries_empty {P} k (pts : list P) y nv : k = 0 \/ y = [] -> entries isnan k pts y nv = [].
Proof.
intros K. apply map_some_inj. rewrite entries_idxs. cbn. destruct (idxs k (length pts) y) as [|[i j] l] eqn:E; [reflexivity|exfalso].
assert (I : In (i, j) (idxs k (length pts) y)) by (rewrite E; left; reflexivity). apply idxs_in in I as [I1 [I2 I3]]. destruct K as [->| ->]; [lia|]. unfold obsb in I3. destruct j; discriminate.
Qed.
Lemma flat_lengths {P} (es : list (P * nat * V * option V)) : (forall e, In e es -> e_noise e <> None) -> length (somes (map e_noise es)) = length es.
Proof.
intros K. rewrite <- (map_length Some), somes_map; [apply map_length|]. intros o Ho. apply in_map_iff in Ho as [e [<- He]]. apply K, He.
Qed.
Lemma in_entries {P} k (pts : list P) y nv e : In e (entries isnan k pts y nv) -> exists ij, In ij (idxs k (length pts) y) /\ ent pts y nv ij = Some e.
Proof.
intros He. apply (in_map Some) in He. rewrite entries_idxs in He. apply in_map_iff in He as [ij [E I]]. exists ij. auto.
Qed.
Lemma noise_some {P} k (pts : list P) y (nm : mat V) e : mat_ok nm -> length (rows nm) = length pts -> ncols nm = k ->
  In e (entries isnan k pts y (Some (rows nm))) -> e_noise e <> None.
Proof.
intros M L C He. apply in_entries in He as [[i j] [I E]]. apply idxs_in in I as [I1 [I2 _]]. unfold ent in E; cbn [fst snd] in E.
destruct (nth_error pts j); [|discriminate]. destruct (nth_error y j); [|discriminate]. destruct (nth_error l i); [|discriminate]. injection E as <-. cbn.
destruct (nth_error (rows nm) j) as [r|] eqn:Er; [|apply nth_error_None in Er; lia].
apply nth_error_Some. rewrite (M r) by (eapply nth_error_In; eauto). lia.
Qed.

Theorem transform_obs k (x : fx V Obj) ym nv f : transform_index_set2 isnan of_task k x (FYMat ym) nv = Ok f -> args_ok x (FYMat ym) nv ->
  let idx := idxs k (length (rows ym)) (rows ym) in
  map Some (flat_obs f) = map (observation x ym nv) idx /\
  length (pyx_pts (fl_x f)) = length idx /\ length (pyy_rows (fl_y f)) = length idx /\
  (match flat_noise f with Some l => length l = length idx /\ nv <> FNNone | None => nv = FNNone end).
Proof.
intros T [_ Mn] idx. apply transform_ok in T as [X [Lx [K [No ->]]]].
assert (NS : forall {P} (pts : list P), length pts = length (rows ym) -> forall nr, noise_rows nv = Some nr -> forall e, In e (entries isnan k pts (rows ym) (Some nr)) -> e_noise e <> None).
{ intros P pts Lp nr Hn e He. destruct K as [K|[K|[K1 K2]]].
  - rewrite entries_empty in He by (left; exact K). destruct He.
  - rewrite entries_empty in He by (right; exact K). destruct He.
  - destruct K2 as [->|[m [-> [K2 K3]]]]; [discriminate|]. injection Hn as <-. apply (noise_some k pts (rows ym) m e); auto. congruence. }
assert (OB : forall {P} (pts : list P) (mk : P -> nat -> list V + Obj * nat), length pts = length (rows ym) -> (forall i j, task_point of_task x i j = option_map (fun p => mk p i) (nth_error pts j)) ->
  map Some (map (fun e => (mk (e_pt e) (e_task e), [e_val e], e_noise e)) (entries isnan k pts (rows ym) (noise_rows nv))) = map (observation x ym nv) idx).
{ intros P pts mk Lp TP. 
  transitivity (map (option_map (fun e : P * nat * V * option V => (mk (e_pt e) (e_task e), [e_val e], e_noise e))) (map Some (entries isnan k pts (rows ym) (noise_rows nv)))); [rewrite !map_map; reflexivity|].
  rewrite entries_idxs, map_map.
  rewrite Lp. fold idx. apply map_ext_in. intros [i j] I. apply idxs_in in I as [I1 [I2 I3]].
  unfold ent, FvGPSpec.observation, entry. cbn [fst snd]. rewrite TP.
  destruct (nth_error pts j) as [p|] eqn:Ep; [|apply nth_error_None in Ep; lia]. cbn [option_map].
  unfold obsb in I3. destruct (nth_error (rows ym) j) as [r|] eqn:Er; [|discriminate]. destruct (nth_error r i) as [v|] eqn:Ev; [|discriminate]. cbn [option_map].
  destruct K as [K|[K|[K1 K2]]]; [lia|rewrite K in Er; destruct j; discriminate|]. destruct K2 as [->|[m [-> [K2 K3]]]]; [reflexivity|]. cbn [noise_rows noise_entry]. unfold entry.
  destruct (nth_error (rows m) j) as [nr|] eqn:En; [|apply nth_error_None in En; lia].
  destruct (nth_error nr i) as [s|] eqn:Es; [reflexivity|]. apply nth_error_None in Es. rewrite (Mn nr) in Es by (eapply nth_error_In; eauto). lia. }
assert (EL : forall {P} (pts : list P) nr, length pts = length (rows ym) -> length (entries isnan k pts (rows ym) nr) = length idx).
{ intros P pts nr Lp. rewrite <- (map_length Some), entries_idxs, map_length, Lp. reflexivity. }
assert (NOI : match noise_rows nv with Some _ => nv <> FNNone | None => nv = FNNone end) by (destruct nv; cbn; congruence).
destruct x as [m|l|]; [| |congruence]; cbn in Lx; injection Lx as Lx.
- specialize (OB _ (rows m) (fun r i => inl (r ++ [of_task i])) Lx (fun i j => eq_refl)). specialize (EL _ (rows m) (noise_rows nv) Lx). specialize (NS _ (rows m) Lx).
  unfold flatten, flat_obs, flat_noise in *; cbv zeta; cbn [fl_x fl_y fl_n].
  set (es := entries isnan k (rows m) (rows ym) (noise_rows nv)) in *.
  assert (PX : pyx_pts (match es with [] => XNd (Some 0) | _ => XMat (Mat (S (ncols m)) (map (fun e => e_pt e ++ [of_task (e_task e)]) es)) end : pyx V (Obj * nat)) = map (fun e => inl (e_pt e ++ [of_task (e_task e)])) es).
  { destruct es; [reflexivity|]. cbn [pyx_pts rows]. rewrite map_map. reflexivity. }
  rewrite PX. cbn [pyy_rows]. rewrite (map_map e_val). split; [|rewrite !map_length; repeat split; try exact EL].
  + rewrite <- OB. f_equal. destruct (noise_rows nv) as [nr|] eqn:Hn; apply zip3_map.
    * apply somes_map. intros o Ho. apply in_map_iff in Ho as [e [<- He]]. apply (NS nr eq_refl e He).
    * intros e He. apply in_entries in He as [ij [_ E]]. unfold ent in E. destruct (nth_error (rows m) (snd ij)); [|discriminate]. destruct (nth_error (rows ym) (snd ij)); [|discriminate]. destruct (nth_error _ (fst ij)); [|discriminate]. injection E as <-. reflexivity.
  + destruct (noise_rows nv) as [nr|] eqn:Hn; [|exact NOI]. split; [|exact NOI]. rewrite flat_lengths; [exact EL|]. intros e He. apply (NS nr eq_refl e He).
- specialize (OB _ l (fun o i => inr (o, i)) Lx (fun i j => eq_refl)). specialize (EL _ l (noise_rows nv) Lx). specialize (NS _ l Lx).
  unfold flatten, flat_obs, flat_noise in *; cbv zeta; cbn [fl_x fl_y fl_n].
  set (es := entries isnan k l (rows ym) (noise_rows nv)) in *.
  cbn [pyx_pts pyy_rows]. rewrite (map_map e_val), (map_map _ inr). split; [|rewrite !map_length; repeat split; try exact EL].
  + rewrite <- OB. f_equal. destruct (noise_rows nv) as [nr|] eqn:Hn; apply zip3_map.
    * apply somes_map. intros o Ho. apply in_map_iff in Ho as [e [<- He]]. apply (NS nr eq_refl e He).
    * intros e He. apply in_entries in He as [ij [_ E]]. unfold ent in E. destruct (nth_error l (snd ij)); [|discriminate]. destruct (nth_error (rows ym) (snd ij)); [|discriminate]. destruct (nth_error _ (fst ij)); [|discriminate]. injection E as <-. reflexivity.
  + destruct (noise_rows nv) as [nr|] eqn:Hn; [|exact NOI]. split; [|exact NOI]. rewrite flat_lengths; [exact EL|]. intros e He. apply (NS nr eq_refl e He).
Qed.

(** * appending *)
Definition shift (n : nat) (ij : nat * nat) : nat * nat := (fst ij, n + snd ij).
Lemma entry_app1 (c c' : nat) (a b : list (list V)) j i : j < length a -> entry (Mat c (a ++ b)) j i = entry (Mat c' a) j i.
Proof. intros L. unfold entry; cbn. rewrite nth_error_app1 by exact L. reflexivity. Qed.
Lemma entry_app2 (c c' : nat) (a b : list (list V)) j i : entry (Mat c (a ++ b)) (length a + j) i = entry (Mat c' b) j i.
Proof. unfold entry; cbn. rewrite nth_error_app2 by lia. replace (length a + j - length a) with j by lia. reflexivity. Qed.
Lemma entry_ncols (m : mat V) c j i : entry m j i = entry (Mat c (rows m)) j i. Proof. reflexivity. Qed.
Lemma nodup_app {A} (l l' : list A) : NoDup l -> NoDup l' -> (forall a, In a l -> ~ In a l') -> NoDup (l ++ l').
Proof.
induction 1 as [|a l Na N IH]; intros N' K; [exact N'|]. cbn. constructor; [|apply IH; [exact N'|]; intros; apply K; right; assumption].
rewrite in_app_iff. intros [H|H]; [contradiction|]. exact (K a (or_introl eq_refl) H).
Qed.
Lemma enum_app k c (a b : mat V) ia ib : enumerates k a ia -> enumerates k b ib -> enumerates k (Mat c (rows a ++ rows b)) (ia ++ map (shift (length (rows a))) ib).
Proof.
intros [Na Ea] [Nb Eb]. split.
- apply nodup_app; [exact Na| |].
  + clear -Nb. induction Nb as [|p l Np N IH]; cbn; constructor; [|exact IH]. intros H. apply in_map_iff in H as [q [E Hq]]. apply Np. replace p with q; [exact Hq|].
    destruct p, q. unfold shift in E; cbn in E. injection E as -> E. f_equal. lia.
  + intros [i j] H H'. apply Ea in H. apply in_map_iff in H' as [[i' j'] [E _]]. unfold shift in E; cbn in E. injection E as <- <-. lia.
- intros i j. cbn [rows]. rewrite app_length, in_app_iff, Ea. split.
  + intros [[H1 [H2 H3]]|H].
    * repeat split; [exact H1|lia|]. unfold observed in *. rewrite (entry_app1 c (ncols a)) by exact H2. rewrite (entry_ncols a (ncols a)) in H3. exact H3.
    * apply in_map_iff in H as [[i' j'] [E Hp]]. unfold shift in E; cbn in E. injection E as <- <-. apply Eb in Hp as [H1 [H2 H3]]. repeat split; [exact H1|lia|].
      unfold observed in *. rewrite (entry_app2 c (ncols b)). rewrite (entry_ncols b (ncols b)) in H3. exact H3.
  + intros [H1 [H2 H3]]. destruct (Nat.lt_ge_cases j (length (rows a))) as [L|L].
    * left. repeat split; auto. unfold observed in *. rewrite (entry_app1 c (ncols a)) in H3 by exact L. exact H3.
    * right. apply in_map_iff. exists (i, j - length (rows a)). split; [unfold shift; cbn; f_equal; lia|]. apply Eb. repeat split; [exact H1|lia|].
      unfold observed in *. replace j with (length (rows a) + (j - length (rows a))) in H3 by lia. rewrite (entry_app2 c (ncols b)) in H3. exact H3.
Qed.

(** * sessions *)
Definition noise_rel (k n : nat) (fnv : fn V) (g : option (list V)) (len : nat) : Prop :=
  match fnv, g with
  | FNNone, None => True
  | FNMat m, Some l => length (rows m) = n /\ ncols m = k /\ length l = len
  | _, _ => False
  end.
Definition inv (s : fstate V Obj) : Prop :=
  wf (f_data s) /\ 0 < f_k s /\
  exists ym, f_y s = FYMat ym /\ ncols ym = f_k s /\ fx_len (f_x s) = Some (length (rows ym)) /\
    noise_rel (f_k s) (length (rows ym)) (f_n s) (g_noise (f_data s)) (length (stored_x (f_data s))) /\
    exists idx, enumerates (f_k s) ym idx /\ map Some (data_obs (f_data s)) = map (observation (f_x s) ym (f_n s)) idx /\
                (f_k s = 1 -> StronglySorted lex idx).
Lemma noise_accept (s : gdata V (Obj * nat)) o s' : gp_update isnan s o = (s', Ok tt) ->
  (g_noise s = None <-> o_noise o = NNone) /\ ((exists l, o_noise o = NVec l) \/ o_noise o = NNone).
Proof.
unfold gp_update. destruct o as [x y nv ap]; cbn [o_x o_y o_noise o_append].
destruct nv as [|nl| |]; try (destruct x, y; discriminate).
- intros H. split; [|right; reflexivity]. split; [reflexivity|]. intros _. destruct (g_noise s) as [g|] eqn:E; [exfalso|reflexivity].
  destruct x as [m| |l|], y as [yl|ym|yn|]; try discriminate; (destruct (negb _); [discriminate|]); unfold data_update in H; rewrite E in H; destruct (g_euclid s); discriminate.
- intros H. split; [|left; eauto]. split; [|discriminate]. intros E. exfalso.
  destruct x as [m| |l|], y as [yl|ym|yn|]; try discriminate; (destruct (negb _); [discriminate|]); unfold data_update in H; rewrite E in H; destruct (g_euclid s); discriminate.
- intros H. exfalso. destruct x as [m| |l|], y as [yl|ym|yn|]; try discriminate; (destruct (negb _); [discriminate|]); unfold data_update in H; discriminate.
Qed.
Lemma vstack_val (a b c : mat V) : vstack a b = Some c -> c = Mat (ncols a) (rows a ++ rows b) /\ ncols a = ncols b.
Proof. unfold vstack. destruct (Nat.eqb_spec (ncols a) (ncols b)); [|discriminate]. intros [= <-]. auto. Qed.
Lemma tp_app1 (x x' x2 : fx V Obj) i j n : append_x x x2 = Some x' -> fx_len x = Some n -> j < n -> task_point of_task x' i j = task_point of_task x i j.
Proof.
destruct x as [a|a|], x2 as [b|b|]; cbn; try discriminate.
- destruct (vstack a b) as [c|] eqn:E; [|discriminate]. apply vstack_val in E as [-> _]. intros [= <-] [= <-] L. cbn. rewrite nth_error_app1 by exact L. reflexivity.
- intros [= <-] [= <-] L. cbn. rewrite nth_error_app1 by exact L. reflexivity.
Qed.
Lemma tp_app2 (x x' x2 : fx V Obj) i j n : append_x x x2 = Some x' -> fx_len x = Some n -> task_point of_task x' i (n + j) = task_point of_task x2 i j.
Proof.
destruct x as [a|a|], x2 as [b|b|]; cbn; try discriminate.
- destruct (vstack a b) as [c|] eqn:E; [|discriminate]. apply vstack_val in E as [-> _]. intros [= <-] [= <-]. cbn. rewrite nth_error_app2 by lia. replace (_ + j - _) with j by lia. reflexivity.
- intros [= <-] [= <-]. cbn. rewrite nth_error_app2 by lia. replace (_ + j - _) with j by lia. reflexivity.
Qed.
Lemma append_x_len (x x2 x' : fx V Obj) n m : append_x x x2 = Some x' -> fx_len x = Some n -> fx_len x2 = Some m -> fx_len x' = Some (n + m).
Proof.
destruct x as [a|a|], x2 as [b|b|]; cbn; try discriminate.
- destruct (vstack a b) as [c|] eqn:E; [|discriminate]. apply vstack_val in E as [-> _]. intros [= <-] [= <-] [= <-]. cbn. rewrite app_length. reflexivity.
- intros [= <-] [= <-] [= <-]. cbn. rewrite app_length. reflexivity.
Qed.
(** a call with a non-empty batch and a 2-d array of values *)
Definition op_fine (o : fop V Obj) : Prop := args_ok (p_x o) (p_y o) (p_n o) /\ exists ym, p_y o = FYMat ym /\ rows ym <> [].

Lemma init_inv (x : fx V Obj) ym nv s : mat_ok ym -> args_ok x (FYMat ym) nv -> rows ym <> [] -> 0 < ncols ym -> fv_init isnan of_task x (FYMat ym) nv = Ok s -> inv s /\ f_k s = ncols ym.
Proof.
intros My A Ne Kp. unfold fv_init. destruct (negb _); [discriminate|].
destruct (transform_index_set2 isnan of_task (ncols ym) x (FYMat ym) nv) as [f|e] eqn:T; [|discriminate].
destruct (data_init isnan (fl_x f) (fl_y f) (fl_n f)) as [d|e] eqn:D; [|discriminate]. intros [= <-]. split; [|reflexivity].
pose proof (transform_ok _ _ _ _ _ T) as [_ [Lx [K _]]].
destruct (transform_obs _ _ _ _ _ T A) as [O [L1 [L2 L3]]]. set (idx := idxs _ _ _) in *.
apply init_wf in D as [W [Sx [Sy Sn]]]. split; [exact W|]. cbn [f_k f_data f_x f_y f_n]. split; [exact Kp|].
exists ym. split; [reflexivity|]. split; [reflexivity|]. split; [exact Lx|].
destruct K as [K|[K|[_ K]]]; [lia|contradiction|]. unfold flat_noise in L3.
assert (Gn : g_noise d = match fl_n f with NVec l => Some l | _ => None end) by (destruct (fl_n f); try exact Sn; apply Sn).
split.
- rewrite Gn. destruct K as [->|[m [-> [K1 K2]]]].
  + destruct (fl_n f) as [|l| |]; cbn; try exact I. exfalso. apply L3. reflexivity.
  + destruct (fl_n f) as [|l| |]; cbn; try discriminate L3. repeat split; auto. rewrite Sx, L1. apply L3.
- exists idx. split; [apply idxs_enum|]. split; [|intros _; apply idxs_sorted]. rewrite <- O. f_equal. unfold data_obs, flat_obs. rewrite Sx, Sy, Gn. reflexivity.
Qed.

Lemma sorted_shift n l : StronglySorted lex l -> StronglySorted lex (map (shift n) l).
Proof.
induction 1 as [|a l S IH F]; cbn; constructor; [exact IH|]. rewrite Forall_forall in *. intros b Hb. apply in_map_iff in Hb as [c [<- Hc]]. specialize (F c Hc). unfold lex, shift in *; cbn. lia.
Qed.
Lemma update_ok (s : fstate V Obj) (o : fop V Obj) s' yo : p_y o = FYMat yo -> fv_update isnan of_task s o = (s', Ok tt) ->
  exists f d x' y' n', transform_index_set2 isnan of_task (f_k s) (p_x o) (FYMat yo) (p_n o) = Ok f /\
    gp_update isnan (f_data s) (Op (fl_x f) (fl_y f) (fl_n f) (p_append o)) = (d, Ok tt) /\ s' = FState (f_k s) d x' y' n' /\
    (if p_append o then append_x (f_x s) (p_x o) = Some x' /\ vstack_any (f_y s) (FYMat yo) = Some y' /\ ((p_n o = FNNone /\ n' = FNNone) \/ (p_n o <> FNNone /\ vstack_noise (f_n s) (p_n o) = Some n'))
     else x' = p_x o /\ y' = FYMat yo /\ n' = p_n o).
Proof.
intros Ey U. unfold fv_update in U. rewrite Ey in U.
assert (U' : (let stored := if p_append o then match (match p_n o with FNNone => Ok FNNone | FNOther => Err FNoiseType | _ => match vstack_noise (f_n s) (p_n o) with Some n' => Ok n' | None => Err FVstackNoise end end) with
      | Err e => Err e | Ok n' => match append_x (f_x s) (p_x o) with None => Err FVstackX | Some x' => match vstack_any (f_y s) (FYMat yo) with None => Err FVstackY | Some y' => Ok (x', y', n') end end end else Ok (p_x o, FYMat yo, p_n o) in
  match stored with Err e => (s, Err e) | Ok (x', y', n') => match transform_index_set2 isnan of_task (f_k s) (p_x o) (FYMat yo) (p_n o) with Err e => (FState (f_k s) (f_data s) x' y' n', Err e)
      | Ok f => let '(d, r) := gp_update isnan (f_data s) (Op (fl_x f) (fl_y f) (fl_n f) (p_append o)) in (FState (f_k s) d x' y' n', match r with Ok u => Ok u | Err e => Err (FBase e) end) end end) = (s', Ok tt)).
{ destruct (p_x o); [| |discriminate]; (destruct (negb _); [discriminate|]); exact U. }
clear U. cbv zeta in U'.
match type of U' with match ?st with _ => _ end = _ => destruct st as [[[x' y'] n']|e] eqn:ST end; [|discriminate].
destruct (transform_index_set2 isnan of_task (f_k s) (p_x o) (FYMat yo) (p_n o)) as [f|e]; [|discriminate].
destruct (gp_update isnan (f_data s) (Op (fl_x f) (fl_y f) (fl_n f) (p_append o))) as [d [[]|e]] eqn:G; [|discriminate]. injection U' as <-.
exists f, d, x', y', n'. split; [reflexivity|]. split; [exact G|]. split; [reflexivity|].
destruct (p_append o); [|injection ST as <- <- <-; auto].
destruct (p_n o) as [|nm|nl|] eqn:En; try discriminate.
- destruct (append_x _ _) as [x1|]; [|discriminate]. destruct (vstack_any _ _) as [y1|]; [|discriminate]. injection ST as <- <- <-. auto.
- destruct (vstack_noise _ _) as [n1|]; [|discriminate]. destruct (append_x _ _) as [x1|]; [|discriminate]. destruct (vstack_any _ _) as [y1|]; [|discriminate]. injection ST as <- <- <-. repeat split; auto. right; split; [discriminate|reflexivity].
- destruct (vstack_noise _ _) as [n1|]; [|discriminate]. destruct (append_x _ _) as [x1|]; [|discriminate]. destruct (vstack_any _ _) as [y1|]; [|discriminate]. injection ST as <- <- <-. repeat split; auto. right; split; [discriminate|reflexivity].
Qed.
Lemma update_inv (s : fstate V Obj) (o : fop V Obj) s' : inv s -> op_fine o -> fv_update isnan of_task s o = (s', Ok tt) -> inv s' /\ f_k s' = f_k s.
Proof.
intros [W [Kp [ym [Ey [Cy [Lx [NR [idx [EN [OB SO]]]]]]]]]] [A [yo [Eyo Neo]]] U. rewrite Eyo in A.
destruct (update_ok s o s' yo Eyo U) as [f [d [x' [y' [n' [T [G [-> ST]]]]]]]]. split; [|reflexivity]. clear U.
pose proof (transform_ok _ _ _ _ _ T) as [_ [Lo [K _]]]. destruct K as [K|[K|[Co K]]]; [lia|contradiction|].
destruct (transform_obs _ _ _ _ _ T A) as [O [L1 [L2 L3]]]. set (idx2 := idxs _ _ _) in *.
pose proof (noise_accept _ _ _ G) as [NA NV]. cbn [o_noise] in NA, NV.
destruct (gp_update_spec isnan _ _ _ _ W G) as [GS _]. destruct (GS eq_refl) as [W' [Sx [Sy [Sn _]]]]. unfold op_xpts, op_yrows, op_noise_vals in *. cbn [o_x o_y o_noise o_append] in *.
unfold inv. cbn [f_k f_data f_x f_y f_n]. split; [exact W'|]. split; [exact Kp|]. unfold flat_noise in L3. destruct W as [W1 _].
(* noise: present on both sides or on neither *)
assert (ND : (exists l lo m, g_noise (f_data s) = Some l /\ fl_n f = NVec lo /\ p_n o = FNMat m /\ length (rows m) = length (rows yo) /\ ncols m = f_k s /\ length lo = length idx2) \/
             (g_noise (f_data s) = None /\ fl_n f = NNone /\ p_n o = FNNone)).
{ destruct NV as [[lo NV]|NV].
  - left. destruct (g_noise (f_data s)) as [l|]; [|assert (fl_n f = NNone) by (apply NA; reflexivity); congruence].
    rewrite NV in L3. destruct L3 as [L3 L4]. destruct K as [K|[m [Km [K1 K2]]]]; [contradiction|]. exists l, lo, m. auto 10.
  - right. rewrite NV in L3. split; [apply NA, NV|auto]. }
destruct (p_append o).
- destruct ST as [Ax [Vy Vn]]. rewrite Ey in Vy. cbn in Vy. destruct (vstack ym yo) as [yc|] eqn:EV; [|discriminate]. injection Vy as <-. apply vstack_val in EV as [-> _].
  exists (Mat (ncols ym) (rows ym ++ rows yo)). split; [reflexivity|]. split; [exact Cy|]. split; [cbn; rewrite app_length; exact (append_x_len _ _ _ _ _ Ax Lx Lo)|].
  assert (NN : (exists nm m l lo, f_n s = FNMat nm /\ p_n o = FNMat m /\ n' = FNMat (Mat (ncols nm) (rows nm ++ rows m)) /\ g_noise (f_data s) = Some l /\ g_noise d = Some (l ++ lo) /\ fl_n f = NVec lo /\
                  length (rows nm) = length (rows ym) /\ length (rows m) = length (rows yo) /\ ncols nm = f_k s /\ length l = length (stored_x (f_data s)) /\ length lo = length idx2) \/
               (f_n s = FNNone /\ p_n o = FNNone /\ n' = FNNone /\ g_noise (f_data s) = None /\ g_noise d = None /\ fl_n f = NNone)).
  { destruct ND as [[l [lo [m [N1 [N2 [N3 [N4 [N5 N6]]]]]]]]|[N1 [N2 N3]]]; rewrite N1, ?N2 in *.
    - left. destruct (f_n s) as [|nm|nl|] eqn:Efn; try contradiction. destruct NR as [R1 [R2 R3]].
      destruct Vn as [[Vn _]|[_ Vn]]; [congruence|]. rewrite N3 in Vn. cbn in Vn. destruct (vstack nm m) as [c|] eqn:EV; [|discriminate]. apply vstack_val in EV as [-> _]. injection Vn as <-.
      exists nm, m, l, lo. repeat split; auto.
    - right. destruct (f_n s); try contradiction. destruct Vn as [[_ ->]|[Vn _]]; [|congruence]. auto 10. }
  split; [|exists (idx ++ map (shift (length (rows ym))) idx2); split; [apply enum_app; [exact EN|apply idxs_enum]|split]].
  + cbn [rows]. rewrite app_length, Sx, app_length.
    destruct NN as [[nm [m [l [lo [P1 [P2 [-> [P4 [-> [P6 [P7 [P8 [P9 [P10 P11]]]]]]]]]]]]]]|[P1 [P2 [-> [P4 [-> P6]]]]]]; cbn; [|exact I].
    rewrite !app_length. repeat split; lia.
  + unfold data_obs. rewrite Sx, Sy. rewrite map_app.
    rewrite (zip3_app _ _ _ _ (g_noise (f_data s)) (match fl_n f with NVec l => Some l | _ => None end)).
    2:{ exact W1. }
    2:{ destruct NN as [[nm [m [l [lo [P1 [P2 [P3 [-> [-> [-> [P7 [P8 [P9 [P10 P11]]]]]]]]]]]]]]|[P1 [P2 [P3 [-> [-> ->]]]]]]; [split; [reflexivity|exact P10]|exact I]. }
    rewrite map_app. f_equal.
    * change (map Some (data_obs (f_data s)) = map (observation x' (Mat (ncols ym) (rows ym ++ rows yo)) n') idx). rewrite OB. apply map_ext_in. intros [i j] Hij. apply EN in Hij as [H1 [H2 _]].
      unfold FvGPSpec.observation; cbn [fst snd]. rewrite (tp_app1 _ _ _ i j _ Ax Lx H2), (entry_app1 _ (ncols ym)) by exact H2. 
      replace (noise_entry n' j i) with (noise_entry (f_n s) j i); [reflexivity|].
      destruct NN as [[nm [m [l [lo [P1 [P2 [-> [P4 [P5 [P6 [P7 [P8 [P9 [P10 P11]]]]]]]]]]]]]]|[P1 [P2 [-> [P4 [P5 P6]]]]]]; rewrite P1; [|reflexivity].
      cbn [noise_entry]. rewrite (entry_app1 _ (ncols nm)) by lia. reflexivity.
    * change (map Some (flat_obs f) = map (observation x' (Mat (ncols ym) (rows ym ++ rows yo)) n') (map (shift (length (rows ym))) idx2)). rewrite O, map_map. apply map_ext_in. intros [i j] Hij. unfold shift.
      unfold FvGPSpec.observation; cbn [fst snd]. rewrite (tp_app2 _ _ _ i j _ Ax Lx), (entry_app2 _ (ncols yo)).
      replace (noise_entry n' (length (rows ym) + j) i) with (noise_entry (p_n o) j i); [reflexivity|].
      destruct NN as [[nm [m [l [lo [P1 [P2 [-> [P4 [P5 [P6 [P7 [P8 [P9 [P10 P11]]]]]]]]]]]]]]|[P1 [P2 [-> [P4 [P5 P6]]]]]]; rewrite P2; [|reflexivity].
      cbn [noise_entry]. rewrite <- P7, (entry_app2 _ (ncols m)). reflexivity.
  + intros K1. apply sorted_app; [exact (SO K1)|apply sorted_shift, idxs_sorted|]. intros [i j] q Hp Hq. apply EN in Hp as [H1 [H2 _]]. apply in_map_iff in Hq as [[i' j'] [<- Hq]]. apply idxs_in in Hq as [H3 _].
    unfold lex, shift; cbn. lia.
- destruct ST as [-> [-> ->]]. exists yo. split; [reflexivity|]. split; [exact Co|]. split; [exact Lo|].
  assert (GN : g_noise d = match fl_n f with NVec l => Some l | _ => None end).
  { destruct ND as [[l [lo [m [N1 [N2 _]]]]]|[N1 [N2 N3]]]; rewrite Sn, N1, N2; reflexivity. }
  split; [|exists idx2; split; [apply idxs_enum|split; [|intros _; apply idxs_sorted]]].
  + rewrite GN, Sx, L1. destruct ND as [[l [lo [m [N1 [-> [-> [N4 [N5 N6]]]]]]]]|[N1 [-> ->]]]; cbn; auto.
  + rewrite <- O. f_equal. unfold data_obs, flat_obs. rewrite Sx, Sy, GN. reflexivity.
Qed.
Lemma update_stored (s s' : fstate V Obj) o : inv s -> op_fine o -> fv_update isnan of_task s o = (s', Ok tt) ->
  mt_points (f_x s') = mt_points_after (mt_points (f_x s)) o /\
  mt_values (f_y s') = mt_values_after (mt_values (f_y s)) o /\
  mt_noise (f_n s') = mt_noise_after (mt_noise (f_n s)) o.
Proof.
intros I F U. pose proof (update_inv s o s' I F U) as [I' _]. destruct F as [A [yo [Eyo Ne]]].
destruct (update_ok s o s' yo Eyo U) as [f [d [x' [y' [n' [T [G [-> ST]]]]]]]]. cbn [f_x f_y f_n]. unfold mt_points_after, mt_values_after, mt_noise_after.
destruct I as [_ [Kp [ym [Ey [_ [_ [NR _]]]]]]]. destruct I' as [_ [_ [ym' [Ey' [_ [_ [NR' _]]]]]]]. cbn [f_x f_y f_n f_k f_data] in *.
pose proof (transform_ok _ _ _ _ _ T) as [_ [_ [K [_ Ef]]]]. destruct K as [K|[K|[_ K]]]; [lia|contradiction|].
pose proof (noise_accept _ _ _ G) as [NA _]. cbn [o_noise] in NA. rewrite Eyo. rewrite Eyo in A.
assert (NB : f_n s = FNNone <-> p_n o = FNNone).
{ destruct (transform_obs _ _ _ _ _ T A) as [_ [_ [_ L3]]]. unfold flat_noise in L3. 
  assert (X : p_n o = FNNone <-> fl_n f = NNone). { rewrite Ef. destruct (p_x o); [| |discriminate T]; destruct K as [K|[mm [K _]]]; rewrite K; cbn; split; congruence. }
  rewrite X, <- NA. destruct (f_n s), (g_noise (f_data s)); cbn in NR; try contradiction; split; congruence. }
destruct (p_append o).
- destruct ST as [Ax [Vy Vn]]. split; [|split].
  + destruct (f_x s) as [a|a|], (p_x o) as [b|b|]; cbn in Ax; try discriminate.
    * destruct (vstack a b) as [c|] eqn:E; [|discriminate]. apply vstack_val in E as [-> _]. injection Ax as <-. cbn. apply map_app.
    * injection Ax as <-. cbn. apply map_app.
  + rewrite Ey in Vy. cbn in Vy. destruct (vstack ym yo) as [c|] eqn:E; [|discriminate]. apply vstack_val in E as [-> _]. injection Vy as <-. rewrite Ey. reflexivity.
  + destruct K as [K|[m [K _]]].
    * rewrite (proj2 NB K). destruct Vn as [[_ ->]|[Vn _]]; [reflexivity|contradiction].
    * destruct Vn as [[Vn _]|[_ Vn]]; [congruence|]. rewrite K in *. destruct (f_n s) as [|nm|nl|]; cbn in NR; try (destruct (g_noise (f_data s)); contradiction); [assert (FNMat m = FNNone) by (apply NB; reflexivity); discriminate|].
      cbn in Vn. destruct (vstack nm m) as [c|] eqn:E; [|discriminate]. apply vstack_val in E as [-> _]. injection Vn as <-. reflexivity.
- destruct ST as [-> [-> ->]]. split; [reflexivity|]. split; [reflexivity|].
  destruct K as [K|[m [K _]]].
  + rewrite K. destruct (mt_noise (f_n s)); reflexivity.
  + rewrite K in *. destruct (f_n s) as [|nm|nl|]; cbn in NR; try (destruct (g_noise (f_data s)); contradiction); [assert (FNMat m = FNNone) by (apply NB; reflexivity); discriminate|]. reflexivity.
Qed.
Lemma session_stored ops : forall (s s' : fstate V Obj) log, inv s -> (forall o, In o ops -> op_fine o) -> fv_session isnan of_task s ops = (s', log) -> (forall o r, In (o, r) log -> r = Ok tt) ->
  mt_points (f_x s') = fold_left mt_points_after ops (mt_points (f_x s)) /\
  mt_values (f_y s') = fold_left mt_values_after ops (mt_values (f_y s)) /\
  mt_noise (f_n s') = fold_left mt_noise_after ops (mt_noise (f_n s)).
Proof.
induction ops as [|o ops IH]; intros s s' log I F E L; cbn in E; [injection E as <- <-; auto|].
destruct (fv_update isnan of_task s o) as [s1 r] eqn:U. destruct (fv_session isnan of_task s1 ops) as [s2 rs] eqn:Es. injection E as <- <-.
rewrite (L o r (or_introl eq_refl)) in U. destruct (update_inv _ _ _ I (F o (or_introl eq_refl)) U) as [I1 K1].
destruct (update_stored _ _ _ I (F o (or_introl eq_refl)) U) as [E1 [E2 E3]].
cbn [fold_left]. rewrite <- E1, <- E2, <- E3. exact (IH s1 s2 rs I1 (fun o Ho => F o (or_intror Ho)) Es (fun o r H => L o r (or_intror H))).
Qed.
Lemma session_inv ops : forall s s' log, inv s -> (forall o, In o ops -> op_fine o) -> fv_session isnan of_task s ops = (s', log) -> (forall o r, In (o, r) log -> r = Ok tt) -> inv s' /\ f_k s' = f_k s.
Proof.
induction ops as [|o ops IH]; intros s s' log I F E L; cbn in E; [injection E as <- <-; auto|].
destruct (fv_update isnan of_task s o) as [s1 r] eqn:U. destruct (fv_session isnan of_task s1 ops) as [s2 rs] eqn:Es. injection E as <- <-.
rewrite (L o r (or_introl eq_refl)) in U. destruct (update_inv _ _ _ I (F o (or_introl eq_refl)) U) as [I1 K1].
destruct (IH s1 s2 rs I1 (fun o Ho => F o (or_intror Ho)) Es (fun o r H => L o r (or_intror H))) as [I2 K2]. split; [exact I2|congruence].
Qed.
(** two enumerations are permutations of each other; sorted ones are equal *)
Lemma sorted_unique (l l' : list (nat * nat)) : StronglySorted lex l -> StronglySorted lex l' -> (forall p, In p l <-> In p l') -> l = l'.
Proof.
intros S. revert l'. induction S as [|a l S IH F]; intros l' S' K; destruct S' as [|b l' S' F'].
- reflexivity.
- exfalso. apply (proj2 (K b)). left; reflexivity.
- exfalso. apply (proj1 (K a)). left; reflexivity.
- rewrite Forall_forall in F, F'. assert (E : a = b).
  { destruct (proj1 (K a) (or_introl eq_refl)) as [|Ha]; [auto|]. destruct (proj2 (K b) (or_introl eq_refl)) as [|Hb]; [auto|]. specialize (F b Hb). specialize (F' a Ha). unfold lex in *. lia. }
  subst b. f_equal. apply IH; [exact S'|]. intros p. split; intros Hp.
  + destruct (proj1 (K p) (or_intror Hp)) as [E|]; [|assumption]. subst p. exfalso. exact (lex_irr a (F a Hp)).
  + destruct (proj2 (K p) (or_intror Hp)) as [E|]; [|assumption]. subst p. exfalso. exact (lex_irr a (F' a Hp)).
Qed.
Lemma obs_perm k (x : fx V Obj) y n os os' : lists_observations isnan of_task k x y n os -> lists_observations isnan of_task k x y n os' -> Permutation os os'.
Proof.
intros [i1 [[N1 E1] M1]] [i2 [[N2 E2] M2]]. assert (P : Permutation i1 i2). { apply NoDup_Permutation; auto. intros [i j]. rewrite E1, E2. reflexivity. }
apply (Permutation_map (observation x y n)) in P. rewrite <- M1, <- M2 in P.
assert (C : forall l : list ((list V + Obj * nat) * list V * option V), flat_map (fun o => match o with Some a => [a] | None => [] end) (map Some l) = l). { induction l as [|a l IH]; cbn; [reflexivity|]. f_equal. exact IH. }
rewrite <- (C os), <- (C os'). apply Permutation_flat_map, P.
Qed.
(** every call, accepted or not *)
Lemma fv_update_cases (s : fstate V Obj) (o : fop V Obj) s' r : fv_update isnan of_task s o = (s', r) ->
  f_k s' = f_k s /\
  ((exists e, r = Err e /\ s' = s /\ match e with FBase _ => False | _ => True end) \/
   (r = Err FTransform /\ f_data s' = f_data s) \/
   (exists o' r', gp_update isnan (f_data s) o' = (f_data s', r') /\ match r' with Ok _ => r = Ok tt | Err e => r = Err (FBase e) end)).
Proof.
unfold fv_update.
destruct (match p_x o with FXOther => true | _ => false end) eqn:Ex; [destruct (p_x o); try discriminate; intros [= <- <-]; split; [reflexivity|left; eexists; split; [reflexivity|]; auto]|].
destruct (match p_y o with FYOther => true | _ => false end) eqn:Ey; [destruct (p_x o); try discriminate; destruct (p_y o); try discriminate; intros [= <- <-]; (split; [reflexivity|left; eexists; split; [reflexivity|]; auto])|].
assert (X : forall (A : Type) (a b : A), match p_x o with FXOther => a | _ => b end = b) by (intros; destruct (p_x o); [reflexivity|reflexivity|discriminate]).
assert (Y : forall (A : Type) (a b : A), match p_y o with FYOther => a | _ => b end = b) by (intros; destruct (p_y o); [reflexivity|reflexivity|discriminate]).
rewrite X, Y. clear X Y.
destruct (negb _); [intros [= <- <-]; split; [reflexivity|left; eexists; split; [reflexivity|]; auto]|].
set (st := if p_append o then _ else _).
assert (SE : forall e, st = Err e -> match e with FBase _ => False | _ => True end).
{ intros e. unfold st. destruct (p_append o); [|discriminate]. destruct (p_n o); try (intros [= <-]; exact I).
  all: try destruct (vstack_noise _ _); try (intros [= <-]; exact I).
  all: destruct (append_x _ _); try (intros [= <-]; exact I).
  all: destruct (vstack_any _ _); try (intros [= <-]; exact I); discriminate. }
destruct st as [[[x' y'] n']|e] eqn:Est.
- destruct (transform_index_set2 isnan of_task (f_k s) (p_x o) (p_y o) (p_n o)) as [f|e] eqn:T.
  + cbn [f_data]. destruct (gp_update isnan (f_data s) (Op (fl_x f) (fl_y f) (fl_n f) (p_append o))) as [d r'] eqn:G. destruct r' as [[]|e]; intros [= <- <-]; (split; [reflexivity|]); right; right; eexists; eexists; cbn [f_data]; (split; [exact G|]); reflexivity.
  + intros [= <- <-]. split; [reflexivity|]. right; left. split; [|reflexivity]. f_equal. clear -T. unfold transform_index_set2 in T.
    destruct (p_x o), (p_y o); repeat match type of T with context [if ?b then _ else _] => destruct b end; congruence.
- intros [= <- <-]. split; [reflexivity|]. left. exists e. split; [reflexivity|]. split; [reflexivity|]. exact (SE e eq_refl).
Qed.
Definition fdirty' (r : res fexn unit) : bool := match r with Err (FBase e) => dirty_error (Err e) | _ => false end.
Lemma fv_init_wf (x : fx V Obj) y nv s : fv_init isnan of_task x y nv = Ok s -> wf (f_data s).
Proof.
unfold fv_init. destruct y; try discriminate. destruct (negb _); [discriminate|]. destruct (transform_index_set2 _ _ _ _ _ _) as [f|]; [|discriminate].
destruct (data_init isnan (fl_x f) (fl_y f) (fl_n f)) as [d|] eqn:D; [|discriminate]. intros [= <-]. apply init_wf in D as [W _]. exact W.
Qed.
Lemma fv_rejected (s : fstate V Obj) o s' e : wf (f_data s) -> fv_update isnan of_task s o = (s', Err e) ->
  f_k s' = f_k s /\ (match e with FArgs | FNoiseType | FVstackNoise | FVstackX | FVstackY => True | _ => False end -> s' = s) /\ (fdirty' (Err e) = false -> stored (f_data s') = stored (f_data s)).
Proof.
intros W U. apply fv_update_cases in U as [K [[e' [[= <-] [-> H]]]|[[[= ->] Ed]|[o' [r' [G R]]]]]].
- auto.
- split; [exact K|]. split; [intros []|]. intros _. rewrite Ed. reflexivity.
- destruct r' as [u|e']; [discriminate|]. injection R as ->. split; [exact K|]. split; [intros []|]. intros D. apply (rejected_update_unchanged_l isnan _ _ _ _ W G); intros ->; discriminate.
Qed.
Lemma fv_update_wf (s : fstate V Obj) o s' r : wf (f_data s) -> fv_update isnan of_task s o = (s', r) -> fdirty' r = false -> wf (f_data s') /\ f_k s' = f_k s.
Proof.
intros W U D. apply fv_update_cases in U as [K [[e' [-> [-> H]]]|[[-> Ed]|[o' [r' [G R]]]]]]; (split; [|exact K]).
- exact W.
- rewrite Ed. exact W.
- destruct (gp_update_spec isnan _ _ _ _ W G) as [GO GE]. destruct r' as [[]|e'].
  + destruct (GO eq_refl) as [W' _]. exact W'.
  + subst r. cbn in D. destruct (GE eq_refl D) as [W' _]. exact W'.
Qed.
Lemma fv_session_wf ops : forall (s s' : fstate V Obj) log, wf (f_data s) -> fv_session isnan of_task s ops = (s', log) -> (forall o r, In (o, r) log -> fdirty' r = false) -> wf (f_data s') /\ f_k s' = f_k s.
Proof.
induction ops as [|o ops IH]; intros s s' log W E L; cbn in E; [injection E as <- <-; auto|].
destruct (fv_update isnan of_task s o) as [s1 r] eqn:U. destruct (fv_session isnan of_task s1 ops) as [s2 rs] eqn:Es. injection E as <- <-.
destruct (fv_update_wf _ _ _ _ W U (L o r (or_introl eq_refl))) as [W1 K1].
destruct (IH s1 s2 rs W1 Es (fun o r H => L o r (or_intror H))) as [W2 K2]. split; [exact W2|congruence].
Qed.
End P.
