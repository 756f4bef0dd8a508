(** Training in threads which share one generator of random numbers: C96. *)
From Coq Require Import List Arith Lia Permutation.
From Verif Require Import Model.Prelude Model.GGMPTrain Model.ThreadPool Spec.ThreadPoolSpec Proofs.ThreadPoolP Props.GGMPTrainProps.
Import ListNotations.

Section C96.
Context {E V U : Type} (s : nat -> U).
Implicit Types (ps : list (prog E V U)).

Lemma map_seq_nth : forall (one : nat -> res E V) vs K, map one (seq 0 K) = map Ok vs ->
  length vs = K /\ forall k, (k < K)%nat -> exists v, nth_error vs k = Some v /\ one k = Ok v.
Proof.
  intros one vs K H. assert (L : length vs = K) by (apply (f_equal (@length _)) in H; rewrite !map_length, seq_length in H; auto).
  split; [exact L|]. intros k LK. destruct (nth_error vs k) as [v|] eqn:N; [|apply nth_error_None in N; lia]. exists v. split; [reflexivity|].
  apply (f_equal (fun l => nth_error l k)) in H. rewrite !nth_error_map, N in H. rewrite nth_error_nth' with (d := 0%nat) in H by (rewrite seq_length; exact LK).
  rewrite seq_nth in H by exact LK. cbn in H. congruence.
Qed.
Lemma map_seq_eq : forall (rs : list (res E V)) (one : nat -> res E V), (forall k, (k < length rs)%nat -> nth_error rs k = Some (one k)) -> map one (seq 0 (length rs)) = rs.
Proof.
  intros rs one H. enough (G : forall a, (forall k, (k < length rs)%nat -> nth_error rs k = Some (one (a + k)%nat)) -> map one (seq a (length rs)) = rs) by (apply (G 0%nat), H).
  clear H. induction rs as [|v rs IH]; intros a H; cbn; [reflexivity|]. f_equal.
  - specialize (H 0%nat ltac:(cbn; lia)). cbn in H. injection H as ->. f_equal. lia.
  - apply IH. intros k L. specialize (H (S k) ltac:(cbn; lia)). cbn in H. rewrite H. do 2 f_equal. lia.
Qed.

(** C96, with the shared generator: each component ends as it does by itself with the numbers it happened to receive; a
    pool of one worker, or trainings that do not depend on the numbers, return what training in turn returns; and a pool
    always can finish *)
Theorem shared_generator_partial : forall ps, ps <> [] ->
  (forall W r, in_threads s W ps (Ok r) -> exists vs d, r = Some vs /\ length vs = length ps /\
     forall k p, nth_error ps k = Some p -> exists v, nth_error vs k = Some v /\ ends p (received s k d) (Ok v)) /\
  (forall vs, in_threads s 1 ps (Ok (Some vs)) <-> in_turn s ps 0 = Ok vs) /\
  (forall W vs, (0 < W)%nat -> (forall p, In p ps -> not_random p) -> (in_threads s W ps (Ok (Some vs)) <-> in_turn s ps 0 = Ok vs)) /\
  (forall W, (0 < W)%nat -> exists r, in_threads s W ps r).
Proof.
  intros ps NE.
  assert (T : forall (one : nat -> res E V) order (vs : list V), Permutation order (seq 0 (length ps)) ->
     (train_components one true (length ps) order = Ok (Some vs) <-> map one (seq 0 (length ps)) = map Ok vs)).
  { intros one order vs P. pose proof (proj1 (parallel_training one (length ps) true order P) (Some vs)) as Q. split.
    - intros H. apply Q in H. destruct H as (ws & X & M). injection X as ->. exact M.
    - intros M. apply Q. eauto. }
  assert (N : forall k, (k < length ps)%nat -> exists p, nth_error ps k = Some p).
  { intros k L. destruct (nth_error ps k) as [p|] eqn:Q; [eauto|]. apply nth_error_None in Q. lia. }
  assert (L0 : (0 < length ps)%nat) by (destruct ps; [congruence|cbn; lia]).
  assert (G : forall W, (0 < W)%nat -> exists (st : pool E V U) (one : nat -> res E V), steps s W (submitted ps) st /\ over st /\
      (forall k, (k < length ps)%nat -> lookup k (finished st) = Some (one k))).
  { intros W W0. destruct (finish_all s W W0 (combine (seq 0 (length ps)) ps) [] []) as (st & H & O).
    assert (X : forall k, (k < length ps)%nat -> exists o, lookup k (finished st) = Some o).
    { intros k L. destruct (N k L) as [p Q]. destruct (pool_results s W ps st H O k p Q) as (o & R & _). eauto. }
    destruct (X 0%nat L0) as [o0 _]. exists st, (fun k => match lookup k (finished st) with Some o => o | None => o0 end).
    split; [exact H|]. split; [exact O|]. intros k L. destruct (X k L) as [o ->]. reflexivity. }
  (* the outcomes of one worker *)
  assert (S1 : forall (st : pool E V U) (one : nat -> res E V), steps s 1 (submitted ps) st -> over st -> (forall k, (k < length ps)%nat -> lookup k (finished st) = Some (one k)) ->
     forall vs, map one (seq 0 (length ps)) = map Ok vs <-> in_turn s ps 0 = Ok vs).
  { intros st one H O A vs. pose proof (one_worker s 1 ps st eq_refl H O) as R. rewrite <- (turns_len s ps 0) in R at 1.
    assert (B : forall k, (k < length ps)%nat -> nth_error (turns s ps 0) k = Some (one k)).
    { intros k L. rewrite <- (A k L). apply (lookup_rev_combine (turns s ps 0) 0 (finished st) k R). rewrite turns_len. exact L. }
    assert (M : map one (seq 0 (length ps)) = turns s ps 0).
    { rewrite <- (turns_len s ps 0). apply map_seq_eq. rewrite turns_len. exact B. }
    rewrite M. symmetry. apply turns_in_turn. }
  split; [|split; [|split]].
  - intros W r (st & order & one & H & O & P & A & R).
    destruct (proj1 (proj1 (parallel_training one (length ps) true order P) r) R) as (vs & -> & M).
    apply map_seq_nth in M. destruct M as [LV M]. exists vs, (drawn st). split; [reflexivity|]. split; [exact LV|]. intros k p Q.
    assert (L : (k < length ps)%nat) by (apply nth_error_Some; congruence). destruct (M k L) as (v & NV & OV). exists v. split; [exact NV|].
    destruct (pool_results s W ps st H O k p Q) as (o & LK & EN). rewrite (A k L) in LK. injection LK as <-. rewrite <- OV. exact EN.
  - intros vs. split.
    + intros (st & order & one & H & O & P & A & R). apply (S1 st one H O A). apply (T one order vs P), R.
    + intros R. destruct (G 1%nat ltac:(lia)) as (st & one & H & O & A). exists st, (seq 0 (length ps)), one. split; [exact H|]. split; [exact O|].
      split; [apply Permutation_refl|]. split; [exact A|]. apply T; [apply Permutation_refl|]. apply (S1 st one H O A), R.
  - intros W vs W0 NR. destruct (G 1%nat ltac:(lia)) as (st1 & one1 & H1 & O1 & A1).
    assert (EQ : forall (st : pool E V U) (one : nat -> res E V), steps s W (submitted ps) st -> over st -> (forall k, (k < length ps)%nat -> lookup k (finished st) = Some (one k)) ->
       forall k, (k < length ps)%nat -> one k = one1 k).
    { intros st one H O A k L. destruct (N k L) as [p Q]. destruct (pool_results s W ps st H O k p Q) as (o & LK & EN).
      destruct (pool_results s 1 ps st1 H1 O1 k p Q) as (o1 & LK1 & EN1). rewrite (A k L) in LK. rewrite (A1 k L) in LK1. injection LK as <-. injection LK1 as <-.
      apply (NR p (nth_error_In _ _ Q) _ _ _ _ EN EN1). }
    assert (EM : forall (st : pool E V U) (one : nat -> res E V), steps s W (submitted ps) st -> over st -> (forall k, (k < length ps)%nat -> lookup k (finished st) = Some (one k)) ->
       map one (seq 0 (length ps)) = map one1 (seq 0 (length ps))).
    { intros st one H O A. apply map_ext_in. intros k I. apply in_seq in I. apply (EQ st one H O A). lia. }
    split.
    + intros (st & order & one & H & O & P & A & R). apply (S1 st1 one1 H1 O1 A1). rewrite <- (EM st one H O A). apply (T one order vs P), R.
    + intros R. destruct (G W W0) as (st & one & H & O & A). exists st, (seq 0 (length ps)), one. split; [exact H|]. split; [exact O|].
      split; [apply Permutation_refl|]. split; [exact A|]. apply T; [apply Permutation_refl|]. rewrite (EM st one H O A). apply (S1 st1 one1 H1 O1 A1), R.
  - intros W W0. destruct (G W W0) as (st & one & H & O & A). eexists. exists st, (seq 0 (length ps)), one. split; [exact H|]. split; [exact O|].
    split; [apply Permutation_refl|]. split; [exact A|]. reflexivity.
Qed.
End C96.
Print Assumptions shared_generator_partial.

(** C96 refuted: two components that each draw a number; training in turn gives the first number to the first component,
    two threads may give it to the second: the same seed and the same call return different hyperparameters *)
Definition one_draw {U} : prog unit U U := Draw (fun u => Ret (Ok u)).
Theorem shared_generator_refuted : forall U (s : nat -> U), s 0%nat <> s 1%nat -> let ps := [one_draw; one_draw] in
  in_turn s ps 0 = Ok [s 0%nat; s 1%nat] /\ in_threads s 2 ps (Ok (Some [s 0%nat; s 1%nat])) /\
  in_threads s 2 ps (Ok (Some [s 1%nat; s 0%nat])) /\ [s 0%nat; s 1%nat] <> [s 1%nat; s 0%nat].
Proof.
  intros U s D ps. split; [reflexivity|].
  assert (ST : steps s 2 (submitted ps) (Pool [] [(0%nat, one_draw); (1%nat, one_draw)] [] [])).
  { eapply Go; [apply (Start s 2 (0%nat, one_draw) [(1%nat, one_draw)] [] [] []); cbn; lia|].
    eapply Go; [apply (Start s 2 (1%nat, one_draw) [] [(0%nat, one_draw)] [] []); cbn; lia|]. apply Stay. }
  split; [|split].
  - exists (Pool [] [] [1; 0]%nat [(1%nat, Ok (s 1%nat)); (0%nat, Ok (s 0%nat))]), [0; 1]%nat, (fun k => Ok (s k)).
    split; [|split; [split; reflexivity|split; [apply Permutation_refl|split; [|reflexivity]]]].
    + eapply steps_app; [exact ST|]. eapply Go; [apply (Number s 2 [] [] 0 _ [(1%nat, one_draw)] [] [])|].
      eapply Go; [apply (Number s 2 [] [(0%nat, Ret (Ok (s 0%nat)))] 1 _ [] [0%nat] [])|].
      eapply Go; [apply (End s 2 [] [] 0 (Ok (s 0%nat)) [(1%nat, Ret (Ok (s 1%nat)))] [1; 0]%nat [])|].
      eapply Go; [apply (End s 2 [] [] 1 (Ok (s 1%nat)) [] [1; 0]%nat [(0%nat, Ok (s 0%nat))])|]. apply Stay.
    + intros k L. cbn in L. destruct k as [|[|k]]; [reflexivity|reflexivity|lia].
  - exists (Pool [] [] [0; 1]%nat [(1%nat, Ok (s 0%nat)); (0%nat, Ok (s 1%nat))]), [0; 1]%nat, (fun k => Ok (s (1 - k))).
    split; [|split; [split; reflexivity|split; [apply Permutation_refl|split; [|reflexivity]]]].
    + eapply steps_app; [exact ST|]. eapply Go; [apply (Number s 2 [] [(0%nat, one_draw)] 1 _ [] [] [])|].
      eapply Go; [apply (Number s 2 [] [] 0 _ [(1%nat, Ret (Ok (s 0%nat)))] [1%nat] [])|].
      eapply Go; [apply (End s 2 [] [] 0 (Ok (s 1%nat)) [(1%nat, Ret (Ok (s 0%nat)))] [0; 1]%nat [])|].
      eapply Go; [apply (End s 2 [] [] 1 (Ok (s 0%nat)) [] [0; 1]%nat [(0%nat, Ok (s 1%nat))])|]. apply Stay.
    + intros k L. cbn in L. destruct k as [|[|k]]; [reflexivity|reflexivity|lia].
  - intros X. injection X as X _. auto.
Qed.
Print Assumptions shared_generator_refuted.
(** example: three components of which the second draws two numbers and the third raises; in turn the call raises *)
Example shared_generator_ex : let ps := [one_draw; Draw (fun u => Draw (fun v => Ret (Ok (u + v)%nat))); Ret (Ok 7%nat)] in
  in_turn (fun i => 10 * i)%nat ps 0 = Ok [0; 30; 7]%nat /\ in_turn (fun i => 10 * i)%nat (ps ++ [Ret (Err tt)]) 0 = Err tt.
Proof. split; reflexivity. Qed.
