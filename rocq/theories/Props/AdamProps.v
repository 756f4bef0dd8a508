(** Property C30: the Adam loop. *)
From Coq Require Import Reals Lra.
From Verif Require Import Model.Prelude Model.Adam Spec.Sums.
Local Open Scope R_scope.

(** exponentially weighted, bias-corrected average of the first k values: weights (1-b) b^(k-1-s) / (1 - b^k) *)
Definition average (b : R) (f : nat -> R) (k : nat) : R := rsum (fun s => (1 - b) * b ^ (k - 1 - s) / (1 - b ^ k) * f s) k.

Lemma ema_S b f k : rsum (fun s => (1 - b) * b ^ (S k - 1 - s) * f s) (S k) = b * rsum (fun s => (1 - b) * b ^ (k - 1 - s) * f s) k + (1 - b) * f k.
Proof.
  cbn [rsum]. replace (S k - 1 - k)%nat with 0%nat by lia. rewrite <- rsum_scal. f_equal; [|cbn; ring].
  apply rsum_ext. intros s Hs. replace (S k - 1 - s)%nat with (S (k - 1 - s)) by lia. cbn [pow]. ring.
Qed.
Lemma weights_one b k : b ^ k <> 1 -> rsum (fun s => (1 - b) * b ^ (k - 1 - s) / (1 - b ^ k)) k = 1.
Proof.
  intros H. assert (E : rsum (fun s => (1 - b) * b ^ (k - 1 - s) * 1) k = 1 - b ^ k).
  { clear H. induction k as [|k IH]; [cbn; ring|]. rewrite (ema_S b (fun _ => 1)), IH. cbn [pow]. ring. }
  rewrite (rsum_ext _ (fun s => / (1 - b ^ k) * ((1 - b) * b ^ (k - 1 - s) * 1))) by (intros; unfold Rdiv; ring).
  rewrite rsum_scal, E. field. lra.
Qed.
Lemma average_eq b f k : average b f k = rsum (fun s => (1 - b) * b ^ (k - 1 - s) * f s) k / (1 - b ^ k).
Proof.
  unfold average. rewrite (rsum_ext _ (fun s => / (1 - b ^ k) * ((1 - b) * b ^ (k - 1 - s) * f s))) by (intros; unfold Rdiv; ring).
  rewrite rsum_scal. unfold Rdiv. ring.
Qed.

Lemma map2_length f a b : length a = length b -> length (map2 f a b) = length a.
Proof. revert b. induction a as [|x a IH]; intros [|y b]; intros H; cbn in *; try discriminate H; [reflexivity|]. injection H as H. f_equal. auto. Qed.
Lemma map2_nth f a b i d : length a = length b -> (i < length a)%nat -> nth i (map2 f a b) d = f (nth i a d) (nth i b d).
Proof.
  revert b i. induction a as [|x a IH]; intros [|y b] i H Hi; cbn in *; try discriminate; try lia. injection H as H.
  destruct i; [reflexivity|]. apply IH; [exact H|lia].
Qed.

Lemma rsum_split_first f n : rsum f (S n) = f 0%nat + rsum (fun i => f (S i)) n.
Proof. induction n as [|n IH]; [cbn; ring|]. cbn [rsum] in *. rewrite IH. ring. Qed.
Lemma norm_sub a b : length a = length b -> norm (sub a b) = sqrt (rsum (fun i => (nth i a 0 - nth i b 0) ^ 2) (length a)).
Proof.
  intros H. unfold norm. f_equal. revert b H. induction a as [|x a IH]; intros [|y b] H; cbn in H; try discriminate; [reflexivity|].
  injection H as H. cbn [sub map2 fold_right length]. change (map2 Rminus a b) with (sub a b). rewrite (IH b H), rsum_split_first.
  cbn [nth]. ring.
Qed.

Section P.
Variables (c : adam_cfg) (nlml : rvec -> R) (grad : rvec -> rvec) (early_stop : nat -> bool) (d : nat).
Hypothesis grad_len : forall th, length th = d -> length (grad th) = d.

Let gcoord (h : list entry) (i s : nat) : R := nth i (e_grad (nth s h (Entry [] 0 [] 0))) 0.
(** the iterates: the recorded ones, then the returned one *)
Definition iterate (h : list entry) (th : rvec) (t i : nat) : R := nth i (nth t (map e_theta h ++ [th]) []) 0.

Definition entry_ok (n0 : nat) (h : list entry) : Prop :=
  forall s e, nth_error h s = Some e -> e_iter e = (n0 + s + 1)%nat /\ e_val e = nlml (e_theta e) /\ e_grad e = grad (e_theta e) /\ length (e_theta e) = d.

(** what the loop guarantees relative to the entries [pre] of the iterations already done *)
Lemma loop_ok left : forall pre theta m v th hs,
  adam_loop c nlml grad early_stop left (length pre + 1) theta m v = (th, hs) ->
  length theta = d -> length m = d -> length v = d ->
  (forall i, (i < d)%nat -> nth i m 0 = rsum (fun s => (1 - beta1 c) * beta1 c ^ (length pre - 1 - s) * gcoord pre i s) (length pre)) ->
  (forall i, (i < d)%nat -> nth i v 0 = rsum (fun s => (1 - beta2 c) * beta2 c ^ (length pre - 1 - s) * (gcoord pre i s * gcoord pre i s)) (length pre)) ->
  (length hs <= left)%nat /\ length th = d /\ (0 < left -> 0 < length hs)%nat /\ nth 0 (map e_theta hs ++ [th]) [] = theta /\ entry_ok (length pre) hs /\
  (forall t, (t < length hs)%nat -> forall i, (i < d)%nat ->
     let k := (length pre + t + 1)%nat in
     iterate hs th (S t) i = iterate hs th t i
       - lr c * average (beta1 c) (gcoord (pre ++ hs) i) k / (sqrt (average (beta2 c) (fun s => gcoord (pre ++ hs) i s * gcoord (pre ++ hs) i s) k) + eps c)) /\
  (forall t, (t < length hs)%nat ->
     let stop := norm (sub (nth (S t) (map e_theta hs ++ [th]) []) (nth t (map e_theta hs ++ [th]) [])) < tol c \/ early_stop (length pre + t + 1) = true in
     (S t < length hs -> ~ stop)%nat /\ ((S t = length hs /\ length hs < left)%nat -> stop)).
Proof.
  induction left as [|left IH]; intros pre theta m v th hs H Lt Lm Lv Hm Hv; cbn [adam_loop] in H.
  - injection H as <- <-. cbn. split; [lia|]. split; [exact Lt|]. split; [lia|]. split; [reflexivity|]. split; [intros [|s] e He; discriminate|]. split; intros; lia.
  - set (g := grad theta) in *. set (m1 := moment1 c m g) in *. set (v1 := moment2 c v g) in *.
    set (theta1 := sub theta (step c m1 v1 (length pre + 1))) in *. set (h := Entry theta (nlml theta) g (length pre + 1)) in *.
    assert (Lg : length g = d) by (now apply grad_len).
    assert (Lm1 : length m1 = d) by (unfold m1, moment1; rewrite map2_length; congruence).
    assert (Lv1 : length v1 = d) by (unfold v1, moment2; rewrite map2_length; congruence).
    assert (Ls : length (step c m1 v1 (length pre + 1)) = d).
    { unfold step, corrected. rewrite map2_length by (rewrite !map_length; congruence). now rewrite map_length. }
    assert (Lt1 : length theta1 = d) by (unfold theta1, sub; rewrite map2_length; congruence).
    assert (Gold : forall rest i s, (s < length pre)%nat -> gcoord (pre ++ h :: rest) i s = gcoord pre i s).
    { intros rest i s Hs. unfold gcoord. now rewrite app_nth1. }
    assert (Gnew : forall rest i, gcoord (pre ++ h :: rest) i (length pre) = nth i g 0).
    { intros rest i. unfold gcoord. now rewrite app_nth2, Nat.sub_diag by lia. }
    assert (Hm1 : forall rest i, (i < d)%nat -> nth i m1 0 = rsum (fun s => (1 - beta1 c) * beta1 c ^ (S (length pre) - 1 - s) * gcoord (pre ++ h :: rest) i s) (S (length pre))).
    { intros rest i Hi. rewrite ema_S, Gnew. unfold m1, moment1. rewrite map2_nth by congruence. rewrite Hm by exact Hi.
      f_equal. f_equal. apply rsum_ext. intros s Hs. now rewrite Gold. }
    assert (Hv1 : forall rest i, (i < d)%nat -> nth i v1 0 = rsum (fun s => (1 - beta2 c) * beta2 c ^ (S (length pre) - 1 - s) * (gcoord (pre ++ h :: rest) i s * gcoord (pre ++ h :: rest) i s)) (S (length pre))).
    { intros rest i Hi. rewrite (ema_S (beta2 c) (fun s => gcoord (pre ++ h :: rest) i s * gcoord (pre ++ h :: rest) i s)), Gnew. unfold v1, moment2. rewrite map2_nth by congruence. rewrite Hv by exact Hi.
      f_equal. f_equal. apply rsum_ext. intros s Hs. now rewrite Gold. }
    assert (Hstep : forall rest i, (i < d)%nat -> nth i theta1 0 = nth i theta 0
       - lr c * average (beta1 c) (gcoord (pre ++ h :: rest) i) (length pre + 1) / (sqrt (average (beta2 c) (fun s => gcoord (pre ++ h :: rest) i s * gcoord (pre ++ h :: rest) i s) (length pre + 1)) + eps c)).
    { intros rest i Hi. unfold theta1, sub. rewrite map2_nth by congruence. f_equal. unfold step. rewrite map2_nth by (unfold corrected; rewrite ?map_length; congruence).
      unfold corrected. rewrite !average_eq. rewrite (nth_indep (map _ m1) 0 (0 / (1 - beta1 c ^ (length pre + 1)))) by (rewrite map_length; congruence).
      rewrite (map_nth (fun a => a / (1 - beta1 c ^ (length pre + 1)))).
      rewrite (nth_indep (map _ v1) 0 (0 / (1 - beta2 c ^ (length pre + 1)))) by (rewrite map_length; congruence).
      rewrite (map_nth (fun a => a / (1 - beta2 c ^ (length pre + 1)))).
      rewrite (Hm1 rest i Hi), (Hv1 rest i Hi). rewrite Nat.add_1_r. reflexivity. }
    set (cond := if Rlt_dec (norm (sub theta1 theta)) (tol c) then true else early_stop (length pre + 1)) in *.
    assert (Hcond : cond = true <-> norm (sub theta1 theta) < tol c \/ early_stop (length pre + 1) = true).
    { unfold cond. destruct (Rlt_dec _ _); split; auto. intros [?|?]; [contradiction|assumption]. }
    destruct cond eqn:C.
    + injection H as <- <-. split; [cbn; lia|]. split; [exact Lt1|]. split; [cbn; lia|]. split; [reflexivity|]. split; [|split].
      * intros [|[|s]] e He; try discriminate He. injection He as <-. cbn. rewrite Nat.add_0_r. auto.
      * intros t Ht i Hi. cbn [length] in Ht. assert (t = 0)%nat by lia. subst t. cbn zeta. unfold iterate. cbn [map app nth e_theta h].
        replace (length pre + 0 + 1)%nat with (length pre + 1)%nat by lia. exact (Hstep [] i Hi).
      * intros t Ht. cbn [length] in *. assert (t = 0)%nat by lia. subst t. cbn zeta. split; [lia|]. intros _. cbn [map app nth e_theta h].
        replace (length pre + 0 + 1)%nat with (length pre + 1)%nat by lia. now apply Hcond.
    + destruct (adam_loop _ _ _ _ left _ theta1 m1 v1) as [th' hs'] eqn:E. injection H as <- <-.
      replace (length pre + 1 + 1)%nat with (length (pre ++ [h]) + 1)%nat in E by (rewrite app_length; cbn; lia).
      assert (Lp : length (pre ++ [h]) = S (length pre)) by (rewrite app_length; cbn; lia).
      assert (Hm1' : forall i, (i < d)%nat -> nth i m1 0 = rsum (fun s => (1 - beta1 c) * beta1 c ^ (length (pre ++ [h]) - 1 - s) * gcoord (pre ++ [h]) i s) (length (pre ++ [h])))
        by (intros i Hi; rewrite Lp; now apply (Hm1 [])).
      assert (Hv1' : forall i, (i < d)%nat -> nth i v1 0 = rsum (fun s => (1 - beta2 c) * beta2 c ^ (length (pre ++ [h]) - 1 - s) * (gcoord (pre ++ [h]) i s * gcoord (pre ++ [h]) i s)) (length (pre ++ [h])))
        by (intros i Hi; rewrite Lp; now apply (Hv1 [])).
      destruct (IH _ _ _ _ _ _ E Lt1 Lm1 Lv1 Hm1' Hv1') as (J1 & J2 & J3 & J4 & J5 & J6 & J7). rewrite Lp in *. rewrite <- app_assoc in J6. cbn [app] in J6.
      split; [cbn; lia|]. split; [exact J2|]. split; [cbn; lia|]. split; [reflexivity|]. split; [|split].
      * intros [|s] e He; [injection He as <-; cbn; rewrite Nat.add_0_r; auto|]. destruct (J5 s e He) as (K1 & K2 & K3 & K4). repeat split; auto. lia.
      * intros [|t] Ht i Hi; cbn zeta; unfold iterate in *; cbn [map app nth].
        -- cbn [e_theta h]. rewrite J4. replace (length pre + 0 + 1)%nat with (length pre + 1)%nat by lia. exact (Hstep hs' i Hi).
        -- cbn [length] in Ht. specialize (J6 t ltac:(lia) i Hi). cbn zeta in J6. replace (S (length pre) + t + 1)%nat with (length pre + S t + 1)%nat in J6 by lia. exact J6.
      * intros [|t] Ht; cbn zeta; cbn [map app nth length].
        -- cbn [e_theta h]. rewrite J4. replace (length pre + 0 + 1)%nat with (length pre + 1)%nat by lia. split.
           ++ intros _ Hs. apply Hcond in Hs. discriminate.
           ++ intros [Hl Hl2]. exfalso. cbn [length] in *. assert (0 < length hs')%nat by (apply J3; lia). lia.
        -- cbn [length] in Ht. destruct (J7 t ltac:(lia)) as [A B]. replace (S (length pre) + t + 1)%nat with (length pre + S t + 1)%nat in * by lia.
           split; [intros; apply A; lia|intros; apply B; lia].
Qed.
End P.

(** C30: at most max_iter iterations; callback/history entry number t holds iterate t, its value and gradient;
    each step is Adam's bias-corrected step; the run ends early exactly when the step is shorter than tol or a stop
    is requested; the result is the iterate after the last step. *)
Theorem adam_run : forall c nlml grad early_stop theta0 max_iter theta hist,
  (forall th, length th = length theta0 -> length (grad th) = length theta0) ->
  adam c nlml grad early_stop theta0 max_iter = (theta, hist) ->
  let T := length hist in
  let xs := map e_theta hist ++ [theta] in
  (T <= max_iter)%nat /\ (0 < max_iter -> 0 < T)%nat /\
  nth 0 xs [] = theta0 /\
  (forall s e, nth_error hist s = Some e -> e_iter e = (s + 1)%nat /\ e_val e = nlml (e_theta e) /\ e_grad e = grad (e_theta e)) /\
  (forall t i, (t < T)%nat -> (i < length theta0)%nat ->
     let g s := nth i (e_grad (nth s hist (Entry [] 0 [] 0))) 0 in
     nth i (nth (S t) xs []) 0 = nth i (nth t xs []) 0
       - lr c * average (beta1 c) g (t + 1) / (sqrt (average (beta2 c) (fun s => g s * g s) (t + 1)) + eps c)) /\
  (forall t, (t < T)%nat ->
     let moved i := nth i (nth (S t) xs []) 0 - nth i (nth t xs []) 0 in
     let stop := sqrt (rsum (fun i => moved i ^ 2) (length theta0)) < tol c \/ early_stop (t + 1)%nat = true in
     ((S t < T)%nat -> ~ stop) /\ ((S t = T)%nat -> (T < max_iter)%nat -> stop)).
Proof.
  intros c nlml grad early_stop theta0 max_iter theta hist Hg E. unfold adam in E.
  pose proof (loop_ok c nlml grad early_stop (length theta0) Hg max_iter [] theta0 (repeat 0 (length theta0)) (repeat 0 (length theta0)) theta hist E eq_refl
                (repeat_length _ _) (repeat_length _ _)) as H.
  assert (Z : forall i, (i < length theta0)%nat -> nth i (repeat 0 (length theta0)) 0 = 0).
  { intros i Hi. apply nth_repeat. }
  specialize (H Z Z). destruct H as (H1 & H2 & H3 & H4 & H5 & H6 & H7). cbn zeta.
  split; [exact H1|]. split; [exact H3|]. split; [exact H4|]. split.
  - intros s e He. destruct (H5 s e He) as (A & B & C & _). cbn in A. auto.
  - split.
    + intros t i Ht Hi. exact (H6 t Ht i Hi).
    + intros t Ht.
      assert (L : forall k, (k <= length hist)%nat -> length (nth k (map e_theta hist ++ [theta]) []) = length theta0).
      { intros k Hk. destruct (Nat.eq_dec k (length hist)) as [->|N].
        - rewrite app_nth2; rewrite map_length; [|lia]. now rewrite Nat.sub_diag.
        - rewrite app_nth1 by (rewrite map_length; lia). destruct (nth_error hist k) as [e|] eqn:Ee; [|apply nth_error_None in Ee; lia].
          transitivity (length (e_theta e)); [f_equal; apply nth_error_nth; now apply map_nth_error|apply (H5 k e Ee)]. }
      destruct (H7 t Ht) as [A B]. rewrite norm_sub in A, B by (rewrite !L; lia). rewrite L in A, B by lia.
      split; [exact A|]. intros X Y. apply B. auto.
Qed.
Print Assumptions adam_run.

(** the weights of the averages add up to one *)
Theorem adam_average : forall b k v, b ^ k <> 1 -> average b (fun _ => v) k = v.
Proof.
  intros b k v H. unfold average. rewrite (rsum_ext _ (fun s => v * ((1 - b) * b ^ (k - 1 - s) / (1 - b ^ k)))) by (intros; ring).
  rewrite rsum_scal, weights_one by exact H. ring.
Qed.
Print Assumptions adam_average.

(** the constant gradient 2 on [0]: the first step is lr exactly if eps = 0 *)
Example adam_ex : exists th h1, adam (Cfg (1/100) (9/10) (999/1000) 0 (1/1000)) (fun _ => 7) (fun _ => [2]) (fun t => Nat.eqb t 1) [0] 5 = (th, [h1]) /\
  th = [-1/100] /\ e_theta h1 = [0].
Proof.
  do 2 eexists. unfold adam. cbn [adam_loop repeat length]. match goal with |- context[if ?b then true else Nat.eqb 1 1] => replace (if b then true else Nat.eqb 1 1) with true by (destruct b; reflexivity) end.
  split; [reflexivity|]. split; [|reflexivity]. cbn. f_equal.
  replace ((999/1000 * 0 + (1 - 999/1000) * (2 * 2)) / (1 - 999/1000 * 1)) with (2 * 2) by field. rewrite sqrt_square by lra. field.
Qed.
