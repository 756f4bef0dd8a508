(** Proofs about building and training the component GPs. *)
From Coq Require Import Reals String Lra Permutation.
From Verif Require Import Model.Prelude Model.GGMPTrain Spec.GGMPTrainSpec.
Local Open Scope R_scope.

(** ** until convergence *)
Lemma sumsq_euclid : forall v, norm v = euclid v.
Proof. intros v. unfold norm, euclid. f_equal. induction v as [|x v IH]; cbn [sumsq fold_right]; [reflexivity|]. rewrite IH. ring. Qed.
Lemma rel_euclid : forall new old, rel_change new old = euclid (map (fun p => fst p - snd p) (combine new old)) / (euclid old + / 10 ^ 12).
Proof. intros new old. unfold rel_change, vsub. rewrite !sumsq_euclid. do 3 f_equal. lra. Qed.

Lemma before_app : forall init hist h i, (i <= length hist)%nat -> before init (hist ++ [h]) i = before init hist i.
Proof. intros init hist h [|i] L; [reflexivity|]. cbn [before]. rewrite nth_error_app1 by lia. reflexivity. Qed.

Section Loop.
Context (train : nat -> vec -> option vec) (chunk max_total patience : nat) (tol : R) (init : vec).
Hypotheses (C1 : (1 <= chunk)%nat) (P1 : (1 <= patience)%nat).
(** the counter is the length of the run of small changes at the end *)
Definition run_end (hist : list hentry) (s : nat) : Prop :=
  (s <= length hist)%nat /\ (forall j h, (length hist - s <= j)%nat -> nth_error hist j = Some h -> h_rel h < tol) /\
  (forall h, (s < length hist)%nat -> nth_error hist (length hist - s - 1) = Some h -> ~ h_rel h < tol).
Definition inv (total stable : Z) (hps : vec) (hist : list hentry) : Prop :=
  total = (Z.of_nat chunk * Z.of_nat (length hist))%Z /\ hps = before init hist (length hist) /\ batches train chunk init hist /\
  (exists s, stable = Z.of_nat s /\ (s < patience)%nat /\ run_end hist s) /\
  (forall i, (i < length hist)%nat -> ~ converged_at patience tol hist i) /\ (forall i, (S i < length hist)%nat -> (chunk * S i < max_total)%nat).

Lemma batches_app : forall hist new, batches train chunk init hist -> train (length hist) (before init hist (length hist)) = Some new ->
  batches train chunk init (hist ++ [{| h_iters := Z.of_nat chunk * Z.of_nat (length hist) + Z.of_nat chunk; h_rel := rel_change new (before init hist (length hist)); h_hps := new |}]).
Proof.
intros hist new B T i h N. destruct (Nat.lt_ge_cases i (length hist)) as [L|L].
- rewrite nth_error_app1 in N by lia. rewrite before_app by lia. exact (B i h N).
- assert (i = length hist) as ->.
  { assert (i < length (hist ++ [{| h_iters := Z.of_nat chunk * Z.of_nat (length hist) + Z.of_nat chunk; h_rel := rel_change new (before init hist (length hist)); h_hps := new |}]))%nat
      by (apply nth_error_Some; congruence). rewrite app_length in H. cbn [length] in H. lia. }
  rewrite nth_error_app2, Nat.sub_diag in N by lia. cbn in N. injection N as N. subst h. cbn [h_hps h_iters h_rel]. rewrite before_app by lia.
  split; [exact T|]. split; [lia|]. apply rel_euclid.
Qed.
Lemma converged_app : forall hist h i, (i < length hist)%nat -> converged_at patience tol (hist ++ [h]) i <-> converged_at patience tol hist i.
Proof.
intros hist h i L. unfold converged_at. split; intros [A B]; (split; [exact A|]); intros j g J N; apply (B j g J).
- rewrite nth_error_app1 by lia. exact N.
- rewrite nth_error_app1 in N by lia. exact N.
Qed.
Lemma run_end_app : forall hist h s, run_end hist s ->
  run_end (hist ++ [h]) (if Rlt_dec (h_rel h) tol then S s else O).
Proof.
intros hist h s (R1 & R2 & R3). unfold run_end. rewrite app_length. cbn [length]. destruct (Rlt_dec (h_rel h) tol) as [Y|N].
- split; [lia|]. split.
  + intros j g J G. destruct (Nat.lt_ge_cases j (length hist)) as [L|L].
    * rewrite nth_error_app1 in G by lia. apply (R2 j g); [lia|exact G].
    * assert (j < length hist + 1)%nat. { replace (length hist + 1)%nat with (length (hist ++ [h])) by (rewrite app_length; reflexivity). apply nth_error_Some. congruence. }
      assert (j = length hist) as -> by lia. rewrite nth_error_app2, Nat.sub_diag in G by lia. cbn in G. injection G as <-. exact Y.
  + intros g L G. replace (length hist + 1 - S s - 1)%nat with (length hist - s - 1)%nat in G by lia. rewrite nth_error_app1 in G by lia. apply (R3 g); [lia|exact G].
- split; [lia|]. split.
  + intros j g J G. assert (j < length hist + 1)%nat. { replace (length hist + 1)%nat with (length (hist ++ [h])) by (rewrite app_length; reflexivity). apply nth_error_Some. congruence. } lia.
  + intros g _ G. replace (length hist + 1 - 0 - 1)%nat with (length hist) in G by lia. rewrite nth_error_app2, Nat.sub_diag in G by lia. cbn in G. injection G as <-. exact N.
Qed.
(** the counter reaches the patience exactly when the last changes are all small *)
Lemma run_end_converged : forall hist s, (1 <= length hist)%nat -> run_end hist s -> ((patience <= s)%nat <-> converged_at patience tol hist (length hist - 1)).
Proof.
intros hist s L1 (R1 & R2 & R3). unfold converged_at. replace (S (length hist - 1)) with (length hist) by lia. split.
- intros PS. split; [lia|]. intros j h J N. apply (R2 j h); [lia|exact N].
- intros [PL B]. destruct (Nat.le_gt_cases patience s) as [|G]; [assumption|exfalso].
  destruct (nth_error hist (length hist - s - 1)) as [h|] eqn:N; [|apply nth_error_None in N; lia].
  apply (R3 h ltac:(lia) eq_refl). apply (B (length hist - s - 1)%nat h); [lia|exact N].
Qed.

Definition good (o : outcome) : Prop :=
  match o with
  | OutOfFuel => False
  | Failed hist => batches train chunk init hist /\ no_earlier_stop chunk max_total patience tol (hist ++ [{| h_iters := 0; h_rel := 0; h_hps := [] |}]) /\ train (length hist) (before init hist (length hist)) = None
  | Done hps hist => batches train chunk init hist /\ no_earlier_stop chunk max_total patience tol hist /\ hps = before init hist (length hist) /\
      ((exists i, length hist = S i /\ converged_at patience tol hist i) \/ (max_total <= chunk * length hist)%nat)
  end.
Lemma loop_good : forall fuel total stable hps hist, inv total stable hps hist -> (max_total - chunk * length hist < fuel)%nat ->
  good (mcmc_loop train (Z.of_nat chunk) (Z.of_nat max_total) (Z.of_nat patience) tol fuel total stable hps hist).
Proof.
induction fuel as [|f IH]; intros total stable hps hist (IT & IH' & IB & (s & IS & SP & IR) & IC & IM) F; [lia|].
cbn [mcmc_loop]. destruct (total <? Z.of_nat max_total)%Z eqn:TL.
- apply Z.ltb_lt in TL. assert (TM : (chunk * length hist < max_total)%nat) by lia. rewrite IH'. destruct (train (length hist) (before init hist (length hist))) as [new|] eqn:T.
  + rewrite IT. set (h := {| h_iters := Z.of_nat chunk * Z.of_nat (length hist) + Z.of_nat chunk; h_rel := rel_change new (before init hist (length hist)); h_hps := new |}).
    pose proof (batches_app hist new IB T) as B'. fold h in B'.
    assert (R' := run_end_app hist h s IR). set (s' := if Rlt_dec (h_rel h) tol then S s else O) in *.
    assert (LH : length (hist ++ [h]) = S (length hist)) by (rewrite app_length; cbn; lia).
    assert (E : (if Rlt_dec (rel_change new (before init hist (length hist))) tol then stable + 1 else 0)%Z = Z.of_nat s').
    { unfold s'. cbn [h_rel h]. destruct (Rlt_dec _ _); lia. }
    rewrite E. pose proof (run_end_converged (hist ++ [h]) s' ltac:(lia) R') as RC. rewrite LH in RC. replace (S (length hist) - 1)%nat with (length hist) in RC by lia.
    assert (EARLY : no_earlier_stop chunk max_total patience tol (hist ++ [h])).
    { intros i L. rewrite LH in L. rewrite converged_app by lia. split; [apply IC; lia|]. destruct (Nat.eq_dec (S i) (length hist)) as [Q|Q]; [rewrite Q; exact TM|]. apply IM. lia. }
    assert (LAST : new = before init (hist ++ [h]) (length (hist ++ [h]))).
    { rewrite LH. cbn [before]. rewrite nth_error_app2, Nat.sub_diag by lia. reflexivity. }
    destruct (Z.of_nat patience <=? Z.of_nat s')%Z eqn:PS.
    * apply Z.leb_le in PS. cbn [good]. split; [exact B'|]. split; [exact EARLY|]. split; [exact LAST|]. left. exists (length hist). split; [exact LH|]. apply RC. lia.
    * apply Z.leb_gt in PS. apply IH; [|rewrite LH; nia]. split; [rewrite LH; lia|]. split; [exact LAST|]. split; [exact B'|]. split; [exists s'; split; [reflexivity|]; split; [lia|exact R']|].
      split.
      -- intros i L. rewrite LH in L. destruct (Nat.eq_dec i (length hist)) as [->|Q].
         ++ intros K. apply RC in K. lia.
         ++ rewrite converged_app by lia. apply IC. lia.
      -- intros i L. exact (proj2 (EARLY i L)).
  + cbn [good]. split; [exact IB|]. split; [|exact T]. intros i L. rewrite app_length in L. cbn [length] in L. rewrite converged_app by lia. split; [apply IC; lia|].
    destruct (Nat.eq_dec (S i) (length hist)) as [Q|Q]; [rewrite Q; exact TM|]. apply IM. lia.
- apply Z.ltb_ge in TL. cbn [good]. split; [exact IB|]. split; [intros i L; split; [apply IC; lia|apply IM; exact L]|]. split; [exact IH'|]. right. lia.
Qed.
Lemma inv_start : inv 0 0 init [].
Proof.
split; [cbn; lia|]. split; [reflexivity|]. split; [intros [|i] h N; discriminate|]. split; [exists O; split; [reflexivity|]; split; [lia|]; split; [cbn; lia|]; split; [intros [|j] h J N; discriminate|cbn; intros h L; lia]|].
split; intros i L; cbn in L; lia.
Qed.
End Loop.

(** ** the components *)
Section Components.
Context {E V : Type} (one : nat -> res E V).
Lemma gather_ok : forall done acc, (forall k, In k done -> exists v, one k = Ok v) -> exists r, gather one done acc = Ok r /\
  (forall k v, In k done -> one k = Ok v -> lookup k r = Some v) /\ (forall k, ~ In k done -> lookup k r = lookup k acc).
Proof.
induction done as [|k d IH]; intros acc H; cbn [gather].
- exists acc. split; [reflexivity|]. split; [intros k v []|reflexivity].
- destruct (H k (or_introl eq_refl)) as [v Hv]. rewrite Hv. destruct (IH ((k, v) :: acc) (fun j J => H j (or_intror J))) as (r & G & A & B). exists r. split; [exact G|]. split.
  + intros j w [<-|J] W.
    * destruct (in_dec Nat.eq_dec k d) as [I|I]; [exact (A k w I W)|]. rewrite (B k I). cbn [lookup]. rewrite Nat.eqb_refl. congruence.
    * exact (A j w J W).
  + intros j J. rewrite B by (intros I; apply J; right; exact I). cbn [lookup]. destruct (k =? j)%nat eqn:Q; [apply Nat.eqb_eq in Q; exfalso; apply J; left; exact Q|reflexivity].
Qed.
Lemma gather_err : forall done acc e, gather one done acc = Err e -> exists k, In k done /\ one k = Err e.
Proof.
induction done as [|k d IH]; intros acc e G; cbn [gather] in G; [discriminate|]. destruct (one k) as [v|e'] eqn:O.
- destruct (IH _ _ G) as (j & J & H). exists j. split; [right; exact J|exact H].
- exists k. split; [left; reflexivity|congruence].
Qed.
Lemma gather_fails : forall done acc k e, In k done -> one k = Err e -> exists e', gather one done acc = Err e'.
Proof.
induction done as [|j d IH]; intros acc k e I H; [destruct I|]. cbn [gather]. destruct (one j) as [v|e'] eqn:O; [|eauto]. destruct I as [->|I]; [congruence|]. eapply IH; eassumption.
Qed.
Lemma order_ok : forall ks vs, train_in_order one ks = Ok vs <-> map one ks = map Ok vs.
Proof.
induction ks as [|k ks IH]; intros vs; cbn [train_in_order map].
- destruct vs; cbn; split; intros H; congruence.
- destruct (one k) as [v|e] eqn:O.
  + destruct (train_in_order one ks) as [ws|e] eqn:T.
    * split; [intros H; injection H as <-; cbn [map]; f_equal; apply IH; reflexivity|]. intros H. destruct vs as [|w vs]; cbn [map] in H; [discriminate|]. injection H as H1 H2.
      apply (IH vs) in H2. injection H2 as ->. congruence.
    * split; [discriminate|]. intros H. destruct vs as [|w vs]; cbn [map] in H; [discriminate|]. injection H as H1 H2. apply (IH vs) in H2. discriminate.
  + split; [discriminate|]. destruct vs; cbn [map]; discriminate.
Qed.
Lemma order_err : forall ks e, train_in_order one ks = Err e -> exists k, In k ks /\ one k = Err e.
Proof.
induction ks as [|k ks IH]; intros e H; cbn [train_in_order] in H; [discriminate|]. destruct (one k) as [v|e'] eqn:O.
- destruct (train_in_order one ks); [discriminate|]. destruct (IH e ltac:(congruence)) as (j & J & Hj). exists j. split; [right; exact J|exact Hj].
- exists k. split; [left; reflexivity|congruence].
Qed.
Lemma read_all_ok : forall (r : list (nat * V)) ks vs, map one ks = map Ok vs -> (forall k v, In k ks -> one k = Ok v -> lookup k r = Some v) -> read_all r ks = Some vs.
Proof.
intros r. induction ks as [|k ks IH]; intros vs M L; destruct vs as [|v vs]; cbn [map] in M; try discriminate; [reflexivity|]. injection M as M1 M2.
cbn [read_all]. rewrite (L k v (or_introl eq_refl) M1), (IH vs M2 (fun j w J => L j w (or_intror J))). reflexivity.
Qed.
Lemma all_ok_list : forall ks, (forall k, In k ks -> exists v, one k = Ok v) -> exists vs, map one ks = map Ok vs.
Proof.
induction ks as [|k ks IH]; intros H; [exists []; reflexivity|]. destruct (H k (or_introl eq_refl)) as [v Hv]. destruct (IH (fun j J => H j (or_intror J))) as [vs Hvs].
exists (v :: vs). cbn [map]. congruence.
Qed.
Lemma map_ok_all : forall ks vs, map one ks = map Ok vs -> forall k, In k ks -> exists v, one k = Ok v.
Proof. induction ks as [|k ks IH]; intros [|v vs] M j J; cbn [map] in M; try discriminate; [destruct J|]. injection M as M1 M2. destruct J as [<-|J]; [eauto|]. eapply IH; eassumption. Qed.
End Components.

(** ** dictionaries *)
Section Dict.
Context {V : Type}.
Implicit Types (d e : dict V) (k j : string) (v : V).
Lemma get_put : forall k v d j, get j (put k v d) = if String.eqb k j then Some v else get j d.
Proof.
intros k v d j. induction d as [|[i w] d IH]; cbn [put get]; [reflexivity|]. destruct (String.eqb i k) eqn:Q; cbn [get].
- apply String.eqb_eq in Q. subst i. destruct (String.eqb k j); reflexivity.
- destruct (String.eqb i j) eqn:R; [|exact IH]. apply String.eqb_eq in R. subst i. rewrite String.eqb_sym in Q. rewrite Q. reflexivity.
Qed.
Lemma get_app : forall d e j, get j (d ++ e) = match get j d with Some v => Some v | None => get j e end.
Proof. intros d e j. induction d as [|[i w] d IH]; cbn [app get]; [reflexivity|]. destruct (String.eqb i j); [reflexivity|exact IH]. Qed.
Lemma get_setdefault : forall k v d j, get j (setdefault k v d) = match get j d with Some w => Some w | None => if String.eqb k j then Some v else None end.
Proof.
intros k v d j. unfold setdefault, has_key. destruct (get k d) as [w|] eqn:G.
- destruct (get j d) eqn:H; [reflexivity|]. destruct (String.eqb k j) eqn:Q; [|reflexivity]. apply String.eqb_eq in Q. congruence.
- rewrite get_app. cbn [get]. reflexivity.
Qed.
Lemma get_In : forall d k, get k d <> None <-> In k (map fst d).
Proof.
induction d as [|[i w] d IH]; intros k; cbn [get map fst In]; [tauto|]. destruct (String.eqb i k) eqn:Q.
- apply String.eqb_eq in Q. split; [left; exact Q|discriminate].
- rewrite IH. apply String.eqb_neq in Q. tauto.
Qed.
Lemma get_pop : forall k d j, NoDup (map fst d) -> get j (pop k d) = if String.eqb k j then None else get j d.
Proof.
intros k d j. induction d as [|[i w] d IH]; cbn [pop get map fst]; intros N; [destruct (String.eqb k j); reflexivity|]. inversion N as [|? ? N1 N2]; subst.
destruct (String.eqb i k) eqn:Q.
- apply String.eqb_eq in Q. subst i. destruct (String.eqb k j) eqn:R; [|reflexivity]. apply String.eqb_eq in R. subst j. destruct (get k d) eqn:G; [|reflexivity].
  exfalso. apply N1. apply get_In. congruence.
- cbn [get]. rewrite (IH N2). destruct (String.eqb i j) eqn:R; [|reflexivity]. apply String.eqb_eq in R. subst i. rewrite String.eqb_sym in Q. rewrite Q. reflexivity.
Qed.
Lemma pop_length : forall k d, get k d <> None -> length (pop k d) = pred (length d).
Proof.
intros k. induction d as [|[i w] d IH]; cbn [pop get]; intros N; [congruence|]. destruct (String.eqb i k); [reflexivity|]. cbn [length pred]. rewrite (IH N).
destruct d; [cbn in N; congruence|reflexivity].
Qed.
Lemma pop_incl : forall k d, incl (map fst (pop k d)) (map fst d).
Proof. intros k. induction d as [|[i w] d IH]; cbn [pop map fst]; [easy|]. destruct (String.eqb i k); [intros x X; right; exact X|]. cbn [map fst]. intros x [X|X]; [left; exact X|right; apply IH; exact X]. Qed.
Lemma pop_nodup : forall k d, NoDup (map fst d) -> NoDup (map fst (pop k d)).
Proof.
intros k. induction d as [|[i w] d IH]; cbn [pop map fst]; intros N; [exact N|]. inversion N as [|? ? N1 N2]; subst. destruct (String.eqb i k); [exact N2|]. cbn [map fst].
constructor; [intros I; apply N1; eapply pop_incl; exact I|apply IH; exact N2].
Qed.
Lemma put_keys : forall k v d, map fst (put k v d) = if has_key k d then map fst d else map fst d ++ [k].
Proof.
intros k v d. unfold has_key. induction d as [|[i w] d IH]; cbn [put get map fst]; [reflexivity|]. destruct (String.eqb i k); [reflexivity|]. cbn [map fst]. rewrite IH. destruct (get k d); reflexivity.
Qed.
Lemma put_nodup : forall k v d, NoDup (map fst d) -> NoDup (map fst (put k v d)).
Proof.
intros k v d N. rewrite put_keys. unfold has_key. destruct (get k d) eqn:G; [exact N|]. apply NoDup_rev in N. rewrite <- (rev_involutive (map fst d ++ [k])), rev_app_distr. apply NoDup_rev. cbn.
constructor; [|exact N]. rewrite <- in_rev, <- get_In. congruence.
Qed.
Lemma update_nodup : forall e d, NoDup (map fst d) -> NoDup (map fst (update d e)).
Proof. unfold update. induction e as [|[i w] e IH]; intros d N; cbn [fold_left fst snd]; [exact N|]. apply IH, put_nodup, N. Qed.
Lemma get_update : forall e d j, NoDup (map fst e) -> get j (update d e) = match get j e with Some v => Some v | None => get j d end.
Proof.
unfold update. induction e as [|[i w] e IH]; intros d j N; cbn [fold_left fst snd get]; [reflexivity|]. inversion N as [|? ? N1 N2]; subst. rewrite (IH _ j N2), get_put.
destruct (String.eqb i j) eqn:Q; [|reflexivity]. apply String.eqb_eq in Q. subst i. destruct (get j e) eqn:G; [|reflexivity]. exfalso. apply N1. apply get_In. congruence.
Qed.
End Dict.

(** ** the retry loop *)
Lemma existsb_eqb : forall k l, existsb (String.eqb k) l = true <-> In k l.
Proof. intros k l. rewrite existsb_exists. split; [intros (x & X & Q); apply String.eqb_eq in Q; congruence|intros I; exists k; split; [exact I|apply String.eqb_refl]]. Qed.
Section Build.
Context {V G X : Type} (construct : dict V -> ctor G X).
Lemma safe_init_fuel : forall fuel kw required removed, (length kw < fuel)%nat -> safe_init construct fuel kw required removed <> BuildFuel.
Proof.
induction fuel as [|f IH]; intros kw rq rm L; [lia|]. cbn [safe_init]. destruct (construct kw); try discriminate. destruct (existsb _ rq); [discriminate|].
unfold has_key. destruct (get key kw) eqn:Q; [|discriminate]. apply IH. rewrite pop_length by congruence. destruct kw; [cbn in Q; discriminate|cbn [length pred] in *; lia].
Qed.
Lemma safe_init_gp : forall fuel kw required removed g kw' rm', NoDup (map fst kw) -> safe_init construct fuel kw required removed = Gp g kw' rm' ->
  exists new, rm' = removed ++ new /\ construct kw' = Built g /\ without kw new kw' /\ (forall k, In k new -> In k (map fst kw) /\ ~ In k required).
Proof.
induction fuel as [|f IH]; intros kw rq rm g kw' rm' N H; cbn [safe_init] in H; [discriminate|]. destruct (construct kw) as [g0|bad|e] eqn:C; [|destruct (existsb (String.eqb bad) rq) eqn:EX; [discriminate|]|discriminate].
- injection H as -> -> ->. exists []. rewrite app_nil_r. split; [reflexivity|]. split; [exact C|]. split; [intros k; reflexivity|intros k []].
- unfold has_key in H. destruct (get bad kw) eqn:Q; [|discriminate]. destruct (IH _ _ _ _ _ _ (pop_nodup bad kw N) H) as (new & R & B & W & I). exists (bad :: new).
  split; [rewrite R, <- app_assoc; reflexivity|]. split; [exact B|]. split.
  + intros k. rewrite (W k), (get_pop bad kw k N). cbn [existsb]. rewrite (String.eqb_sym k bad). destruct (String.eqb bad k); cbn [orb]; [destruct (existsb _ new); reflexivity|reflexivity].
  + intros k [<-|K].
    * split; [apply get_In; congruence|]. rewrite <- existsb_eqb. congruence.
    * destruct (I k K) as [I1 I2]. split; [eapply pop_incl; exact I1|exact I2].
Qed.
Lemma first_built_fuel : forall combos base gk, first_built construct combos base gk <> BuildFuel.
Proof.
induction combos as [|[kk mk] r IH]; intros base gk; cbn [first_built].
- apply safe_init_fuel. lia.
- pose proof (safe_init_fuel (S (length (update (update (update base kk) mk) gk))) (update (update (update base kk) mk) gk) (keys_of kk ++ keys_of mk) [] ltac:(lia)) as F.
  destruct (safe_init _ _ _ _ _); try discriminate; [apply IH|congruence].
Qed.
Notation si kw rq := (safe_init construct (S (length kw)) kw rq []).
Notation kws base kk mk gk := (update (update (update base kk) mk) gk).
Lemma safe_init_alias : forall fuel kw required removed rm', safe_init construct fuel kw required removed = Alias rm' -> exists kw' bad, construct kw' = Unexpected bad /\ In bad required.
Proof.
induction fuel as [|f IH]; intros kw rq rm rm' H; cbn [safe_init] in H; [discriminate|]. destruct (construct kw) as [g0|bad|e] eqn:C; try discriminate.
destruct (existsb (String.eqb bad) rq) eqn:EX; [exists kw, bad; split; [exact C|apply existsb_eqb, EX]|]. destruct (has_key bad kw); [|discriminate]. eapply IH, H.
Qed.
Lemma first_app : forall A B base gk g kw rm, first_built construct (A ++ B) base gk = Gp g kw rm ->
  (exists kk mk, In (kk, mk) A /\ si (kws base kk mk gk) (keys_of kk ++ keys_of mk) = Gp g kw rm) \/
  ((forall kk mk, In (kk, mk) A -> exists r, si (kws base kk mk gk) (keys_of kk ++ keys_of mk) = Alias r) /\ first_built construct B base gk = Gp g kw rm).
Proof.
induction A as [|[kk mk] A IH]; intros B base gk g kw rm H; [right; split; [intros kk mk []|exact H]|]. cbn [app first_built] in H.
destruct (si (kws base kk mk gk) (keys_of kk ++ keys_of mk)) as [g0 kw0 rm0|r|e|] eqn:S0; try discriminate.
- left. exists kk, mk. split; [left; reflexivity|]. congruence.
- destruct (IH B base gk g kw rm H) as [(kk' & mk' & I & Q)|[Q1 Q2]].
  + left. exists kk', mk'. split; [right; exact I|exact Q].
  + right. split; [|exact Q2]. intros kk' mk' [E|I]; [injection E as <- <-; eauto|]. exact (Q1 kk' mk' I).
Qed.
Lemma first_built_gp : forall A base gk g kw rm, NoDup (map fst base) -> first_built construct A base gk = Gp g kw rm -> construct kw = Built g.
Proof.
induction A as [|[kk mk] A IH]; intros base gk g kw rm N H; cbn [first_built] in H.
- apply safe_init_gp in H; [|apply update_nodup, N]. destruct H as (new & _ & B & _). exact B.
- destruct (si (kws base kk mk gk) (keys_of kk ++ keys_of mk)) as [g0 kw0 rm0|r|e|] eqn:S0; try discriminate.
  + injection H as -> -> ->. apply safe_init_gp in S0; [|do 3 apply update_nodup; exact N]. destruct S0 as (new & _ & B & _). exact B.
  + eapply IH; eassumption.
Qed.
Lemma order_keys_in : forall sg keys k, In k (order_keys sg keys) <-> In k keys.
Proof.
intros [s|] keys k; [|reflexivity]. unfold order_keys. rewrite in_app_iff, !filter_In. destruct (existsb (String.eqb k) s); cbn; intuition congruence.
Qed.
End Build.

Section Component.
Context {V G X : Type} (construct : dict V -> ctor G X) (noise : V) (kernel mean : option V) (gp_kwargs : dict V).
Hypotheses (ND : NoDup (map fst gp_kwargs)) (OWN : forall key, In key ("noise_variances"%string :: kernel_keys ++ mean_keys) -> ~ In key (map fst gp_kwargs)).
Definition one_of (keys : list string) (f : option V) (d : dict V) : Prop := match d with [] => f = None | [(k, v)] => In k keys /\ f = Some v | _ => False end.
Lemma get_none : forall {W} (d : dict W) k, get k d = None <-> ~ In k (map fst d).
Proof. intros W d k. rewrite <- get_In. destruct (get k d); intuition congruence. Qed.
Lemma filter_keys : forall {W} (f : string * W -> bool) (d : dict W), NoDup (map fst d) -> NoDup (map fst (filter f d)).
Proof.
intros W f d. induction d as [|p d IH]; cbn [filter map]; intros N; [constructor|]. inversion N as [|? ? N1 N2]; subst. destruct (f p); [|exact (IH N2)]. cbn [map]. constructor; [|exact (IH N2)].
intros I. apply N1. apply in_map_iff in I. destruct I as (q & Q & I). apply filter_In in I. rewrite <- Q. apply in_map, I.
Qed.
Lemma get_filter_keys : forall {W} (s : list string) (d : dict W) k, get k (filter (fun p => existsb (String.eqb (fst p)) s) d) = if existsb (String.eqb k) s then get k d else None.
Proof.
intros W s d k. induction d as [|[i w] d IH]; cbn [filter get fst]; [destruct (existsb _ s); reflexivity|]. destruct (existsb (String.eqb i) s) eqn:Q; cbn [get].
- destruct (String.eqb i k) eqn:R; [|exact IH]. apply String.eqb_eq in R. subst i. rewrite Q. reflexivity.
- destruct (String.eqb i k) eqn:R; [|exact IH]. apply String.eqb_eq in R. subst i. rewrite IH, Q. reflexivity.
Qed.
Lemma filtered_sub : forall (signature : option (list string)), let filtered := match signature with Some s => filter (fun p => existsb (String.eqb (fst p)) s) gp_kwargs | None => gp_kwargs end in
  NoDup (map fst filtered) /\ forall key, In key ("noise_variances"%string :: kernel_keys ++ mean_keys) -> get key filtered = None.
Proof.
intros [s|]; cbn zeta.
- split; [apply filter_keys, ND|]. intros key I. rewrite get_filter_keys. destruct (existsb _ s); [|reflexivity]. apply get_none, OWN, I.
- split; [exact ND|]. intros key I. apply get_none, OWN, I.
Qed.
Lemma get_single : forall {W} k (v : W) j, get j [(k, v)] = if String.eqb k j then Some v else None.
Proof. intros. cbn [get]. reflexivity. Qed.

Lemma component_known : forall s, In "noise_variances"%string s -> In "kernel_function"%string s -> In "prior_mean_function"%string s ->
  (forall kw bad, construct kw = Unexpected bad -> ~ In bad s) ->
  match make_component construct (Some s) noise kernel mean gp_kwargs with
  | Gp g kw removed => removed = [] /\ construct kw = Built g /\ get "noise_variances" kw = Some noise /\ get "kernel_function" kw = kernel /\ get "prior_mean_function" kw = mean /\
      forall key, ~ In key ["noise_variances"; "kernel_function"; "prior_mean_function"]%string -> get key kw = if existsb (String.eqb key) s then get key gp_kwargs else None
  | BuildErr _ => True
  | _ => False
  end.
Proof.
intros s IN IK IM C. unfold make_component. set (filtered := filter (fun p => existsb (String.eqb (fst p)) s) gp_kwargs).
destruct (filtered_sub (Some s)) as [FN FG]. cbn zeta in FN, FG. fold filtered in FN, FG.
(* the first attempt *)
assert (HD : forall (own : list string) k0 (f : option V), In k0 s -> own = kernel_keys /\ k0 = "kernel_function"%string \/ own = mean_keys /\ k0 = "prior_mean_function"%string ->
  exists rest, tries (Some s) own f = match f with Some v => [(k0, v)] | None => [] end :: rest).
{ intros own k0 f I D. unfold tries. destruct f as [v|]; [|exists []; reflexivity]. unfold order_keys. destruct D as [[-> ->]|[-> ->]]; cbn [kernel_keys mean_keys filter];
  rewrite (proj2 (existsb_eqb _ s) I); cbn [app map]; eexists; reflexivity. }
destruct (HD kernel_keys _ kernel IK ltac:(left; auto)) as [rk ->]. destruct (HD mean_keys _ mean IM ltac:(right; auto)) as [rm ->]. clear HD.
set (kk := match kernel with Some v => [("kernel_function"%string, v)] | None => [] end). set (mk := match mean with Some v => [("prior_mean_function"%string, v)] | None => [] end).
cbn [flat_map map app first_built]. set (kw := update (update (update [("noise_variances"%string, noise)] kk) mk) filtered).
assert (KS : forall key, In key (map fst kw) -> In key s).
{ intros key I. apply get_In in I. unfold kw in I. rewrite get_update in I by exact FN. destruct (get key filtered) eqn:GF.
  - unfold filtered in GF. rewrite get_filter_keys in GF. destruct (existsb (String.eqb key) s) eqn:Q; [apply existsb_eqb, Q|discriminate].
  - rewrite get_update in I by (unfold mk; destruct mean; repeat constructor; cbn; tauto). rewrite get_update in I by (unfold kk; destruct kernel; repeat constructor; cbn; tauto).
    assert (D : get key mk <> None \/ get key kk <> None \/ get key [("noise_variances"%string, noise)] <> None).
    { destruct (get key mk); [left; discriminate|]. destruct (get key kk); [right; left; discriminate|]. right; right. exact I. }
    destruct D as [D|[D|D]]; apply get_In in D.
    + unfold mk in D. destruct mean; cbn in D; [destruct D as [<-|[]]; exact IM|destruct D].
    + unfold kk in D. destruct kernel; cbn in D; [destruct D as [<-|[]]; exact IK|destruct D].
    + cbn in D. destruct D as [<-|[]]. exact IN. }
assert (RQ : forall key, In key (keys_of kk ++ keys_of mk) -> In key s).
{ intros key I. apply in_app_iff in I. unfold kk, mk, keys_of in I. destruct kernel, mean; cbn in I; intuition (subst; assumption). }
cbn [safe_init]. destruct (construct kw) as [g|bad|e] eqn:CK.
- split; [reflexivity|]. split; [exact CK|].
  assert (GK : forall key, get key kw = match get key filtered with Some v => Some v | None => match get key mk with Some v => Some v | None => match get key kk with Some v => Some v | None => get key [("noise_variances"%string, noise)] end end end).
  { intros key. unfold kw. rewrite get_update by exact FN. destruct (get key filtered); [reflexivity|]. rewrite get_update by (unfold mk; destruct mean; repeat constructor; cbn; tauto).
    destruct (get key mk); [reflexivity|]. rewrite get_update by (unfold kk; destruct kernel; repeat constructor; cbn; tauto). reflexivity. }
  assert (F1 : get "noise_variances" filtered = None) by (apply FG; cbn; tauto). assert (F2 : get "kernel_function" filtered = None) by (apply FG; cbn; tauto).
  assert (F3 : get "prior_mean_function" filtered = None) by (apply FG; cbn; tauto).
  split; [rewrite GK, F1; unfold mk, kk; destruct mean, kernel; reflexivity|]. split; [rewrite GK, F2; unfold mk, kk; destruct mean, kernel; reflexivity|].
  split; [rewrite GK, F3; unfold mk, kk; destruct mean, kernel; reflexivity|]. intros key NI. rewrite GK. unfold filtered. rewrite get_filter_keys.
  assert (Q1 : String.eqb "noise_variances" key = false) by (apply String.eqb_neq; intros Q; apply NI; cbn; auto).
  assert (Q2 : String.eqb "kernel_function" key = false) by (apply String.eqb_neq; intros Q; apply NI; cbn; auto).
  assert (Q3 : String.eqb "prior_mean_function" key = false) by (apply String.eqb_neq; intros Q; apply NI; cbn; auto).
  unfold mk, kk. destruct mean, kernel; rewrite ?get_single, ?Q1, ?Q2, ?Q3; destruct (if existsb (String.eqb key) s then get key gp_kwargs else None); try reflexivity; cbn [get]; rewrite ?Q1; reflexivity.
- destruct (existsb (String.eqb bad) (keys_of kk ++ keys_of mk)) eqn:EX; [exfalso; apply existsb_eqb in EX; exact (C _ _ CK (RQ _ EX))|].
  unfold has_key. destruct (get bad kw) eqn:GB; [exfalso; apply (C _ _ CK), KS, get_In; congruence|exact I].
- exact I.
Qed.

Lemma component_kernel : forall signature f g kw removed, kernel = Some f -> make_component construct signature noise kernel mean gp_kwargs = Gp g kw removed ->
  construct kw = Built g /\ ((exists key, In key kernel_keys /\ get key kw = Some f) \/ (forall key, In key kernel_keys -> exists kw', construct kw' = Unexpected key)).
Proof.
intros sg f g kw rm KF H. unfold make_component in H. destruct (filtered_sub sg) as [FN FG]. cbn zeta in FN, FG.
set (filtered := match sg with Some s => filter (fun p => existsb (String.eqb (fst p)) s) gp_kwargs | None => gp_kwargs end) in *.
assert (NB : NoDup (map fst [("noise_variances"%string, noise)])) by (repeat constructor; cbn; tauto).
split; [exact (first_built_gp construct _ _ _ _ _ _ NB H)|]. unfold tries at 2 in H. rewrite KF in H. rewrite flat_map_app in H. apply first_app in H.
destruct H as [(kk & mk & I & S0)|[AL _]].
- left. apply in_flat_map in I. destruct I as (kk' & I1 & I2). apply in_map_iff in I1. destruct I1 as (key & <- & I1). apply in_map_iff in I2. destruct I2 as (mk' & Q & I2). injection Q as <- <-.
  apply order_keys_in in I1. exists key. split; [exact I1|]. apply safe_init_gp in S0; [|do 3 apply update_nodup; exact NB]. destruct S0 as (new & _ & _ & W & NR). rewrite (W key).
  destruct (existsb (String.eqb key) new) eqn:EX; [exfalso; apply existsb_eqb in EX; apply (proj2 (NR key EX)); cbn; left; reflexivity|].
  rewrite get_update by exact FN. rewrite FG by (right; apply in_app_iff; left; exact I1).
  assert (MK : NoDup (map fst mk') /\ get key mk' = None).
  { assert (SEP : forall a b, In a kernel_keys -> In b mean_keys -> String.eqb b a = false).
    { intros a b A B. cbn in A, B. destruct A as [<-|[<-|[<-|[]]]], B as [<-|[<-|[<-|[]]]]; reflexivity. }
    unfold tries in I2. destruct mean as [w|]; [|destruct I2 as [<-|[]]; split; [constructor|reflexivity]]. apply in_app_iff in I2. destruct I2 as [I2|[<-|[]]]; [|split; [constructor|reflexivity]].
    apply in_map_iff in I2. destruct I2 as (b & <- & B). apply order_keys_in in B. split; [repeat constructor; cbn; tauto|]. rewrite get_single, (SEP key b I1 B). reflexivity. }
  rewrite get_update by apply MK. rewrite (proj2 MK). rewrite get_update by (repeat constructor; cbn; tauto). rewrite get_single, String.eqb_refl. reflexivity.
- right. intros key IK.
  assert (ME : In [] (tries (V := V) sg mean_keys mean)) by (unfold tries; destruct mean; [apply in_app_iff; right|]; left; reflexivity).
  destruct (AL [(key, f)] []) as [r S0].
  + apply in_flat_map. exists [(key, f)]. split; [apply in_map_iff; exists key; split; [reflexivity|apply order_keys_in; exact IK]|]. apply in_map_iff. exists []. split; [reflexivity|exact ME].
  + apply safe_init_alias in S0. destruct S0 as (kw' & bad & CB & IB). exists kw'. rewrite CB. f_equal. cbn in IB. destruct IB as [->|[]]. reflexivity.
Qed.
End Component.
