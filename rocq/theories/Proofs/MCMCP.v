(** Lemmas for the Metropolis sampler. *)
From Coq Require Import Lra Relations.
From Verif Require Import Model.Prelude Model.Ext Model.MCMC.
Local Open Scope R_scope.

Lemma setn_length x i v : length (setn x i v) = length x.
Proof. revert i. induction x as [|a x IH]; intros [|i]; cbn; auto. Qed.
Lemma setn_other x i v j d : i <> j -> nth j (setn x i v) d = nth j x d.
Proof.
  revert i j. induction x as [|a x IH]; intros [|i] [|j] H; cbn; auto; congruence.
Qed.
Lemma scatter_spec ind : forall x vals y, scatter x ind vals = Some y ->
  length y = length x /\ forall j d, ~ In j ind -> nth j y d = nth j x d.
Proof.
  induction ind as [|i ind IH]; intros x [|v vals] y; cbn; try discriminate.
  - intros [= ->]. auto.
  - intros H. apply IH in H as [H1 H2]. split; [now rewrite H1, setn_length|].
    intros j d Hj. rewrite H2 by tauto. apply setn_other. tauto.
Qed.

(** argmax *)
Definition ele (a b : ext) : Prop := better b a = true \/ better a b = false.
Lemma better_irrefl a : better a a = false.
Proof. destruct a; cbn; auto. destruct (Rlt_dec r r); auto. lra. Qed.
Lemma better_trans a b c : better a b = true -> better b c = true -> better a c = true.
Proof.
  unfold better. destruct a, b, c; cbn; auto; try discriminate.
  destruct (Rlt_dec r0 r), (Rlt_dec r1 r0), (Rlt_dec r1 r); auto; lra.
Qed.
Lemma better_neg_trans a b c : better a b = false -> better b c = false -> better a c = false.
Proof.
  unfold better. destruct a, b, c; cbn; auto; try discriminate.
  destruct (Rlt_dec r0 r), (Rlt_dec r1 r0), (Rlt_dec r1 r); auto; lra.
Qed.
Lemma better_total a b : better a b = true -> better b a = false.
Proof.
  unfold better. destruct a, b; cbn; auto; try discriminate.
  destruct (Rlt_dec r0 r), (Rlt_dec r r0); auto; lra.
Qed.

Lemma argmax_from_spec l : forall best bi pre,
  nth bi pre NaN = best -> (bi < length pre)%nat -> (forall j, (j < length pre)%nat -> better (nth j pre NaN) best = false) ->
  let r := argmax_from best bi (length pre) l in
  (r < length (pre ++ l))%nat /\ forall j, (j < length (pre ++ l))%nat -> better (nth j (pre ++ l) NaN) (nth r (pre ++ l) NaN) = false.
Proof.
  induction l as [|a l IH]; intros best bi pre Hn Hb Hm; cbn zeta.
  - cbn. rewrite app_nil_r. split; [exact Hb|]. rewrite Hn. exact Hm.
  - cbn [argmax_from].
    replace (pre ++ a :: l) with ((pre ++ [a]) ++ l) by now rewrite <- app_assoc.
    replace (S (length pre)) with (length (pre ++ [a])) by (rewrite app_length; cbn; lia).
    destruct (better a best) eqn:E.
    + apply IH; rewrite ?app_length; cbn; [|lia|].
      * rewrite app_nth2, Nat.sub_diag by lia. reflexivity.
      * intros j Hj. destruct (Nat.eq_dec j (length pre)) as [->|Nj].
        -- rewrite app_nth2, Nat.sub_diag by lia. cbn. apply better_irrefl.
        -- rewrite app_nth1 by lia. apply better_neg_trans with best; [apply Hm; lia|]. now apply better_total.
    + apply IH; rewrite ?app_length; cbn; [|lia|].
      * now rewrite app_nth1.
      * intros j Hj. destruct (Nat.eq_dec j (length pre)) as [->|Nj].
        -- rewrite app_nth2, Nat.sub_diag by lia. exact E.
        -- rewrite app_nth1 by lia. apply Hm. lia.
Qed.
Lemma argmax_spec l : l <> [] ->
  (argmax l < length l)%nat /\ forall j, (j < length l)%nat -> better (nth j l NaN) (nth (argmax l) l NaN) = false.
Proof.
  destruct l as [|a l]; [congruence|]. intros _. apply (argmax_from_spec l a 0 [a]); cbn; auto.
  intros [|j] Hj; [apply better_irrefl|lia].
Qed.

(** acceptance *)
Lemma ratio_nonneg_fin e : metr_ratio (Fin e) = Fin (if Rlt_dec e 50 then exp e else 11 / 10).
Proof. unfold metr_ratio. cbn. destruct (Rlt_dec e 50); reflexivity. Qed.

Lemma accepts_fin e u : 0 <= u < 1 -> accepts (Fin e) u false = true <-> u < Rmin 1 (exp e).
Proof.
  intros Hu. unfold accepts. rewrite ratio_nonneg_fin, orb_false_r. cbn.
  assert (H50 : 50 <= e -> 1 <= exp e).
  { intros H. rewrite <- exp_0. left. apply exp_increasing. lra. }
  destruct (Rlt_dec e 50) as [H|H].
  - destruct (Rlt_dec u (exp e)) as [H1|H1].
    + split; auto. intros _. apply Rmin_glb_lt; lra.
    + split; [discriminate|]. intros H2. pose proof (Rmin_r 1 (exp e)). lra.
  - destruct (Rlt_dec u (11 / 10)) as [H1|H1]; [|lra]. split; auto. intros _. apply Rmin_glb_lt; [lra|].
    assert (1 <= exp e) by (apply H50; lra). lra.
Qed.

Lemma detailed_balance a b : exp a * Rmin 1 (exp (b - a)) = exp b * Rmin 1 (exp (a - b)).
Proof.
  assert (E : forall c d, exp c * exp (d - c) = exp d) by (intros; rewrite <- exp_plus; f_equal; lra).
  destruct (Rle_lt_dec a b) as [H|H].
  - rewrite Rmin_left. 2:{ rewrite <- exp_0. destruct (Req_dec a b) as [->|N]; [replace (b - b) with 0 by lra; lra|]. left. apply exp_increasing. lra. }
    rewrite Rmin_right. 2:{ rewrite <- exp_0. destruct (Req_dec a b) as [->|N]; [replace (b - b) with 0 by lra; lra|]. left. apply exp_increasing. lra. }
    rewrite E. lra.
  - rewrite Rmin_right. 2:{ rewrite <- exp_0. left. apply exp_increasing. lra. }
    rewrite Rmin_left. 2:{ rewrite <- exp_0. left. apply exp_increasing. lra. }
    rewrite E. lra.
Qed.

Section Sampler.
Variables (S Omega : Type) (lik prior : list ext -> ext).
Variable propose : Omega -> list ext -> list ext -> prop S -> list ext.
Variable adapt : nat -> trace -> prop S -> S.

(** one accepted move with some proposal whose indices are [ind] *)
Definition moved (inds : list (list nat)) (x y : list ext) : Prop :=
  prior y <> NInf /\ lik y <> NaN /\ length y = length x /\
  exists ind, In ind inds /\ forall j d, ~ In j ind -> nth j y d = nth j x d.

Lemma jump_spec x o pr lk w u y pr' lk' jt : jump S Omega lik prior propose x o pr lk w u = Ok (y, pr', lk', jt) ->
  (y = x /\ pr' = pr /\ lk' = lk /\ jt = 0) \/
  (moved [p_indices o] x y /\ pr' = prior y /\ lk' = lik y /\ jt = 1).
Proof.
  unfold jump. destruct (scatter _ _ _) as [xs|] eqn:E; [|discriminate]. cbn zeta.
  destruct (negb (isninf (prior xs))) eqn:E1; [|intros [= <- <- <- <-]; left; auto].
  destruct (isnan (lik xs)) eqn:E2; [discriminate|].
  destruct (accepts _ _ _); intros [= <- <- <- <-]; [right|left; auto].
  destruct (scatter_spec _ _ _ _ E) as [H1 H2]. split; [|auto]. split; [destruct (prior xs); discriminate|]. split; [destruct (lik xs); discriminate|].
  split; [exact H1|]. exists (p_indices o). split; [now left|exact H2].
Qed.

Definition consistent (x : list ext) (pr lk : ext) : Prop := pr = prior x /\ lk = lik x.

Lemma moved_incl a b x y : incl a b -> moved a x y -> moved b x y.
Proof. intros H (H1 & H2 & H3 & ind & H4 & H5). repeat split; auto. exists ind. auto. Qed.

Lemma sweep_spec i rnd t os : forall k x pr lk y pr' lk' os',
  sweep S Omega lik prior propose adapt i k rnd t x pr lk os = Ok (y, pr', lk', os') -> consistent x pr lk ->
  consistent y pr' lk' /\ map p_indices os' = map p_indices os /\ map p_auto os' = map p_auto os /\
  clos_refl_trans _ (moved (map p_indices os)) x y.
Proof.
  induction os as [|o os IH]; intros k x pr lk y pr' lk' os'; cbn [sweep].
  - intros [= <- <- <- <-] C. split; [exact C|]. repeat split. apply rt_refl.
  - destruct (jump _ _ _ _ _ _ _ _ _ _ _) as [[[[x1 pr1] lk1] jt]|e] eqn:E; [|discriminate].
    destruct (sweep _ _ _ _ _ _ _ _ _ _ _ _ _ os) as [[[[x2 pr2] lk2] os2]|e] eqn:E2; [|discriminate].
    intros [= <- <- <- <-] C. apply jump_spec in E.
    assert (C1 : consistent x1 pr1 lk1).
    { destruct E as [(-> & -> & -> & _)|(_ & -> & -> & _)]; [exact C|split; reflexivity]. }
    destruct (IH _ _ _ _ _ _ _ _ E2 C1) as (C2 & H1 & H2 & H3). split; [exact C2|]. cbn [map p_indices p_auto]. rewrite H1, H2. repeat split.
    apply rt_trans with x1.
    + destruct E as [(-> & _)|(M & _)]; [apply rt_refl|]. apply rt_step. revert M. apply moved_incl. intros z Hz. destruct Hz as [<-|[]]. now left.
    + clear - H3. induction H3; [|apply rt_refl|eapply rt_trans; eassumption]. apply rt_step. revert H. apply moved_incl. intros z Hz. now right.
Qed.

Definition linked (inds : list (list nat)) (l : list (list ext)) : Prop :=
  forall i x y, nth_error l i = Some x -> nth_error l (1 + i) = Some y -> clos_refl_trans _ (moved inds) x y.

Definition good_trace (inds : list (list nat)) (x0 : list ext) (t : trace) : Prop :=
  nth_error (t_x t) 0 = Some x0 /\ length (t_x t) = Datatypes.S (length (t_f t)) /\ linked inds (t_x t) /\
  forall i f, nth_error (t_f t) i = Some f -> exists x, nth_error (t_x t) (1 + i) = Some x /\ f = lik x.

Definition info_of (t : trace) (inf : option info) : Prop :=
  (t_f t = [] -> inf = None) /\ (t_f t <> [] -> inf = Some (collect t)).

Lemma loop_spec x0 rnd brk inds left : forall i t inf x pr lk os t' inf',
  loop S Omega lik prior propose adapt left i rnd brk t inf x pr lk os = Ok (t', inf') ->
  map p_indices os = inds -> good_trace inds x0 t -> consistent x pr lk -> nth_error (t_x t) (length (t_f t)) = Some x -> info_of t inf ->
  good_trace inds x0 t' /\ (length (t_f t) <= length (t_f t') <= length (t_f t) + left)%nat /\
  ((length (t_f t') < length (t_f t) + left)%nat -> brk t' = true) /\
  (brk t' = false \/ left = 0%nat -> info_of t' inf') /\
  (brk t' = true -> left <> 0%nat -> exists tp y f, t' = Trace (t_x tp ++ [y]) (t_f tp ++ [f]) /\ info_of tp inf') /\
  (left <> 0%nat -> (length (t_f t) < length (t_f t'))%nat).
Proof.
  induction left as [|left IH]; intros i t inf x pr lk os t' inf' H Ho G C L I; cbn [loop] in H.
  - injection H as <- <-. split; [exact G|]. split; [lia|]. split; [lia|]. split; [auto|]. split; intros; congruence.
  - destruct (sweep _ _ _ _ _ _ _ _ _ _ _ _ _ os) as [[[[x1 pr1] lk1] os1]|e] eqn:E; [|discriminate].
    apply sweep_spec in E as (C1 & Hi & _ & M); [|exact C]. rewrite Ho in *.
    set (t1 := Trace (t_x t ++ [x1]) (t_f t ++ [lk1])) in *.
    destruct G as (G0 & G1 & G2 & G3).
    assert (Tx : t_x t1 = t_x t ++ [x1]) by reflexivity. assert (Tf : t_f t1 = t_f t ++ [lk1]) by reflexivity. clearbody t1.
    assert (Lx : length (t_x t1) = Datatypes.S (length (t_x t))) by (rewrite Tx, app_length; cbn; lia).
    assert (Lf : length (t_f t1) = Datatypes.S (length (t_f t))) by (rewrite Tf, app_length; cbn; lia).
    assert (Last : nth_error (t_x t1) (length (t_f t1)) = Some x1).
    { rewrite Lf, <- G1, Tx. rewrite nth_error_app2, Nat.sub_diag by lia. reflexivity. }
    assert (G' : good_trace inds x0 t1).
    { split; [rewrite Tx, nth_error_app1 by lia; exact G0|]. split; [lia|]. split.
      - intros j a b Ha Hb. assert (Hj : (1 + j < length (t_x t1))%nat) by (apply nth_error_Some; congruence).
        destruct (Nat.eq_dec (1 + j) (length (t_x t))) as [Ej|Nj].
        + assert (j = length (t_f t)) by lia. subst j. rewrite Tx, nth_error_app1 in Ha by lia. rewrite L in Ha. injection Ha as <-.
          replace (1 + length (t_f t))%nat with (length (t_f t1)) in Hb by lia. rewrite Last in Hb. injection Hb as <-. exact M.
        + rewrite Tx, nth_error_app1 in Ha by lia. rewrite Tx, nth_error_app1 in Hb by lia. exact (G2 j a b Ha Hb).
      - intros j f Hf. assert (Hj : (j < length (t_f t1))%nat) by (apply nth_error_Some; congruence).
        destruct (Nat.eq_dec j (length (t_f t))) as [->|Nj].
        + exists x1. replace (1 + length (t_f t))%nat with (length (t_f t1)) by lia. split; [exact Last|].
          rewrite Tf, nth_error_app2, Nat.sub_diag in Hf by lia. injection Hf as <-. apply C1.
        + rewrite Tf, nth_error_app1 in Hf by lia. destruct (G3 j f Hf) as (z & Hz & Ez). exists z. split; [|exact Ez].
          rewrite Tx, nth_error_app1; [exact Hz|]. apply nth_error_Some. congruence. }
    assert (I1 : info_of t1 (Some (collect t1))).
    { split; [|auto]. rewrite Tf. intros Hn. destruct (t_f t); discriminate. }
    destruct (brk t1) eqn:B.
    + injection H as <- <-. split; [exact G'|]. split; [lia|]. split; [auto|]. split; [intros [?|?]; [congruence|lia]|]. split.
      * intros _ _. exists t, x1, lk1. split; [|exact I]. rewrite <- Tx, <- Tf. now destruct t1.
      * intros _. lia.
    + destruct (IH _ _ _ _ _ _ _ _ _ H Hi G' C1 Last I1) as (J1 & J2 & J3 & J4 & J5 & J6).
      split; [exact J1|]. split; [lia|]. split; [intros; apply J3; lia|]. split.
      * intros [Hb|Hl]; [|lia]. apply J4. now left.
      * split; [|intros _; lia].
        intros Hb _. destruct left as [|left].
        -- cbn in H. injection H as <- <-. congruence.
        -- exact (J5 Hb ltac:(lia)).
Qed.
End Sampler.

Lemma dist_index_lt n : (0 < n)%nat -> (dist_index n < n)%nat.
Proof.
  intros H. unfold dist_index. assert (99 * Z.of_nat n / 100 < Z.of_nat n)%Z by (apply Z.div_lt_upper_bound; lia). lia.
Qed.
Lemma dist_index_width n : (n - dist_index n = Z.to_nat ((Z.of_nat n + 99) / 100))%nat.
Proof.
  unfold dist_index. pose proof (Z.div_mod (99 * Z.of_nat n) 100) as H1. pose proof (Z.div_mod (Z.of_nat n + 99) 100) as H2.
  pose proof (Z.mod_pos_bound (99 * Z.of_nat n) 100) as H3. pose proof (Z.mod_pos_bound (Z.of_nat n + 99) 100) as H4. lia.
Qed.
