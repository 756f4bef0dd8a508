(** Properties C152 (prediction grids) and C153 (estimated time of gp2Scale). *)
From Coq Require Import Reals Lra Lia Arith Permutation.
From Verif Require Import Model.Prelude Model.Gp2Scale Model.Grid.
Local Open Scope R_scope.

(** ** C152 *)
Lemma linspace_length a b n : length (linspace a b n) = n.
Proof. destruct n as [|[|n]]; [reflexivity..|]. unfold linspace. rewrite app_length, map_length, seq_length. simpl. lia. Qed.
Lemma linspace_nth a b n i : (2 <= n)%nat -> (i < n)%nat -> nth i (linspace a b n) 0 = a + INR i * ((b - a) / INR (n - 1)).
Proof.
  intros Hn Hi. destruct n as [|[|m]]; [lia..|]. unfold linspace. replace (S (S m) - 1)%nat with (S m) by lia.
  assert (0 < INR (S m)) by (apply lt_0_INR; lia).
  destruct (Nat.eq_dec i (S m)) as [->|Ne].
  - rewrite app_nth2; rewrite map_length, seq_length; [|lia]. replace (S m - S m)%nat with 0%nat by lia. simpl nth. field. lra.
  - rewrite app_nth1 by (rewrite map_length, seq_length; lia).
    set (f := fun i : nat => a + INR i * ((b - a) / INR (S m))).
    rewrite (nth_indep _ 0 (f 0%nat)) by (rewrite map_length, seq_length; lia).
    rewrite (map_nth f), seq_nth by lia. reflexivity.
Qed.
(** consecutive values differ by the same step, the first is the lower and the last the upper bound *)
Definition even_cover (a b : R) (l : list R) : Prop :=
  nth 0 l 0 = a /\ nth (length l - 1) l 0 = b /\
  (forall i, (S i < length l)%nat -> nth (S i) l 0 - nth i l 0 = (b - a) / INR (length l - 1)) /\
  (a <= b -> forall x, a <= x <= b -> exists i, (i < length l)%nat /\ Rabs (x - nth i l 0) <= (b - a) / INR (length l - 1)).
Lemma floor_nat x n : 0 <= x -> x < INR n -> exists i, (i < n)%nat /\ INR i <= x < INR i + 1.
Proof.
  induction n as [|n IH]; [simpl; lra|]. intros H0 H1. rewrite S_INR in H1. destruct (Rlt_dec x (INR n)) as [L|L].
  - destruct (IH H0 L) as (i & Hi & H). exists i. split; [lia|exact H].
  - exists n. split; [lia|lra].
Qed.
Lemma linspace_cover a b n : (2 <= n)%nat -> even_cover a b (linspace a b n).
Proof.
  intros Hn. assert (P : 0 < INR (n - 1)) by (apply lt_0_INR; lia). unfold even_cover. rewrite linspace_length.
  split; [rewrite linspace_nth by lia; simpl; ring|]. split; [rewrite linspace_nth by lia; field; lra|]. split.
  - intros i Hi. rewrite !linspace_nth by lia. rewrite S_INR. field. lra.
  - intros Hab x Hx. set (d := (b - a) / INR (n - 1)).
    assert (Hd : 0 <= d) by (apply Rmult_le_pos; [lra|left; apply Rinv_0_lt_compat; exact P]).
    destruct (Req_dec (b - a) 0) as [Z|Z].
    + exists 0%nat. split; [lia|]. rewrite linspace_nth by lia. fold d. replace (x - (a + INR 0 * d)) with 0 by (simpl; lra). rewrite Rabs_R0. exact Hd.
    + assert (Dp : 0 < d) by (apply Rmult_lt_0_compat; [lra|apply Rinv_0_lt_compat; exact P]).
      assert (Db : INR (n - 1) * d = b - a) by (unfold d; field; lra).
      destruct (floor_nat ((x - a) / d) n) as (i & Hi & H1 & H2).
      * apply Rmult_le_pos; [lra|left; apply Rinv_0_lt_compat; exact Dp].
      * apply (Rmult_lt_reg_r d); [exact Dp|]. replace ((x - a) / d * d) with (x - a) by (field; lra).
        replace n with (S (n - 1)) by lia. rewrite S_INR, Rmult_plus_distr_r, Db. lra.
      * exists i. split; [exact Hi|]. rewrite linspace_nth by lia. fold d.
        assert (E : (x - a) / d * d = x - a) by (field; lra).
        assert (INR i * d <= x - a) by (rewrite <- E; apply Rmult_le_compat_r; lra).
        assert (x - a <= (INR i + 1) * d) by (rewrite <- E; apply Rmult_le_compat_r; lra).
        rewrite Rabs_right; lra.
Qed.

Lemma product_nth {A B} (dx : A) (dy : B) (ys : list B) : forall xs i j, (i < length xs)%nat -> (j < length ys)%nat ->
  nth (i * length ys + j) (flat_map (fun x => map (fun y => (x, y)) ys) xs) (dx, dy) = (nth i xs dx, nth j ys dy).
Proof.
  induction xs as [|x xs IH]; intros i j Hi Hj; [simpl in Hi; lia|]. cbn [flat_map]. destruct i as [|i].
  - rewrite app_nth1 by (rewrite map_length; simpl; lia). simpl. rewrite (nth_indep _ _ (x, dy)) by (rewrite map_length; lia). now rewrite (map_nth (fun y => (x, y))).
  - rewrite app_nth2; rewrite map_length; [|simpl; lia]. replace (S i * length ys + j - length ys)%nat with (i * length ys + j)%nat by (simpl; lia).
    simpl in Hi. rewrite IH by lia. reflexivity.
Qed.
Lemma product_length {A B} (ys : list B) (xs : list A) : length (flat_map (fun x => map (fun y => (x, y)) ys) xs) = (length xs * length ys)%nat.
Proof. induction xs as [|x xs IH]; simpl; [reflexivity|]. now rewrite app_length, map_length, IH. Qed.

(** C152 for two or more points per direction: the grid is the product of two evenly spaced sequences that start and end at
    the bounds; row i * resy + j belongs to x_i and y_j, so that values reshape to (resx, resy) *)
Theorem grid_covers_partial : forall bx by_ resx resy, (2 <= resx)%nat -> (2 <= resy)%nat ->
  exists xs ys, length xs = resx /\ length ys = resy /\ even_cover (fst bx) (snd bx) xs /\ even_cover (fst by_) (snd by_) ys /\
  length (make_2d_x_pred bx by_ resx resy) = (resx * resy)%nat /\
  (forall i j, (i < resx)%nat -> (j < resy)%nat -> nth (i * resy + j) (make_2d_x_pred bx by_ resx resy) (0, 0) = (nth i xs 0, nth j ys 0)) /\
  make_1d_x_pred bx resx = Some xs.
Proof.
  intros bx by_ resx resy Hx Hy. exists (linspace (fst bx) (snd bx) resx), (linspace (fst by_) (snd by_) resy).
  rewrite !linspace_length. split; [reflexivity|]. split; [reflexivity|]. split; [now apply linspace_cover|]. split; [now apply linspace_cover|].
  split; [unfold make_2d_x_pred; now rewrite product_length, !linspace_length|]. split.
  - intros i j Hi Hj. unfold make_2d_x_pred. set (ys := linspace (fst by_) (snd by_) resy). assert (L : length ys = resy) by apply linspace_length.
    rewrite <- L at 1. apply product_nth; [now rewrite linspace_length|lia].
  - unfold make_1d_x_pred. destruct resx; [lia|reflexivity].
Qed.
Print Assumptions grid_covers_partial.
(** C152 is false for one point (the upper bound is missing) and for none (the one-dimensional grid raises) *)
Theorem grid_covers_refuted : forall a b, a <> b ->
  ~ even_cover a b (linspace a b 1) /\ make_1d_x_pred (a, b) 1 = Some [a] /\ make_1d_x_pred (a, b) 0 = None.
Proof. intros a b H. split; [|split; reflexivity]. intros (_ & E & _). simpl in E. now apply H. Qed.
Print Assumptions grid_covers_refuted.
Example grid_example : make_2d_x_pred (0, 1) (2, 4) 2 3 = [(0, 2); (0, 3); (0, 4); (1, 2); (1, 3); (1, 4)].
Proof. cbn. repeat f_equal; lra. Qed.

(** ** C153: the estimated time bounds every schedule from below *)
Definition batches (D b : nat) : nat := ((D + b - 1) / b)%nat.
(** the tasks submitted for the prior covariance of D points, distributed by blocks *)
Definition tasks (D b : nat) : nat := length (snd (plan D D (Z.of_nat b) true Blockwise)).
Lemma filter_row (b B i k : nat) : (0 < b)%nat -> (k <= B)%nat ->
  length (filter (fun j => Nat.leb (i * b) (j * b)) (seq k (B - k))) = (B - Nat.max i k)%nat.
Proof.
  intros Hb. remember (B - k)%nat as m eqn:Em. revert k Em. induction m as [|m IH]; intros k Em Hk; [simpl; lia|].
  cbn [seq filter]. specialize (IH (S k) ltac:(lia) ltac:(lia)). destruct (Nat.leb_spec (i * b) (k * b)) as [L|L]; cbn [length]; rewrite IH; nia.
Qed.
Lemma tasks_eq D b : (0 < b)%nat -> tasks D b = fold_right Nat.add 0%nat (map (fun i => (batches D b - i)%nat) (seq 0 (batches D b))).
Proof.
  intros Hb. unfold tasks, plan. cbn [snd]. rewrite map_length. unfold ranges, range_starts, clamp1. replace (Z.to_nat (Z.max 1 (Z.of_nat b))) with b by lia.
  fold (batches D b). set (B := batches D b).
  assert (F : forall (f : nat -> nat * nat) l l2, (forall i, fst (f i) = (i * b)%nat) ->
    length (filter (fun p : (nat * nat) * (nat * nat) => Nat.leb (fst (fst p)) (fst (snd p))) (list_prod (map f l) (map f l2))) =
    fold_right Nat.add 0%nat (map (fun i => length (filter (fun j => Nat.leb (i * b) (j * b)) l2)) l)).
  { intros f l l2 Hf. induction l as [|i l IH]; [reflexivity|]. cbn [map list_prod fold_right]. rewrite filter_app, app_length, IH. f_equal.
    clear IH. induction l2 as [|j l2 IH]; [reflexivity|]. cbn [map filter fst snd]. rewrite !Hf. destruct (Nat.leb (i * b) (j * b)); cbn [length]; now rewrite IH. }
  rewrite map_map. rewrite (F (fun i => ((i * b)%nat, Nat.min (i * b + b) D))) by reflexivity. f_equal. apply map_ext_in. intros i Hi. apply in_seq in Hi.
  pose proof (filter_row b B i 0 Hb ltac:(lia)) as R. rewrite Nat.sub_0_r in R. rewrite R. lia.
Qed.
Lemma sum_down B : (2 * fold_right Nat.add 0 (map (fun i => B - i) (seq 0 B)) = B * (B + 1))%nat.
Proof.
  assert (G : forall m k, (k + m = B)%nat -> (2 * fold_right Nat.add 0 (map (fun i => B - i) (seq k m)) = m * (m + 1))%nat).
  { induction m as [|m IH]; intros k Hk; [reflexivity|]. cbn [seq map fold_right]. specialize (IH (S k) ltac:(lia)). nia. }
  now apply G.
Qed.
(** a schedule assigns each task to one of n workers; with equal tasks it takes the largest load *)
Definition load (sched : list nat) (w : nat) : nat := count_occ Nat.eq_dec sched w.
Definition finishes (sched : list nat) (n : nat) (tb T : R) : Prop := forall w, (w < n)%nat -> INR (load sched w) * tb <= T.
Lemma load_sum sched : forall n, (forall w, In w sched -> (w < n)%nat) -> length sched = fold_right Nat.add 0%nat (map (load sched) (seq 0 n)).
Proof.
  induction sched as [|a s IH]; intros n H.
  - simpl. induction n as [|n IHn]; [reflexivity|]. rewrite seq_S, map_app, fold_right_app. simpl. rewrite <- IHn by (intros w []). reflexivity.
  - simpl length. rewrite (IH n) by (intros w Hw; apply H; now right).
    assert (Ha : (a < n)%nat) by (apply H; now left). clear -Ha.
    assert (G : forall m k, fold_right Nat.add 0%nat (map (load (a :: s)) (seq k m)) = (fold_right Nat.add 0%nat (map (load s) (seq k m)) + if andb (Nat.leb k a) (Nat.ltb a (k + m)) then 1 else 0)%nat).
    { induction m as [|m IHm]; intros k; cbn [seq map fold_right].
      - destruct (Nat.leb_spec k a), (Nat.ltb_spec a (k + 0)); simpl; lia.
      - rewrite IHm. unfold load at 1. cbn [count_occ]. fold (load s k). destruct (Nat.eq_dec a k) as [->|Ne].
        + destruct (Nat.leb_spec (S k) k), (Nat.leb_spec k k), (Nat.ltb_spec k (k + S m)); simpl; fold (load s k); unfold load; lia.
        + destruct (Nat.leb_spec (S k) a), (Nat.leb_spec k a), (Nat.ltb_spec a (S k + m)), (Nat.ltb_spec a (k + S m)); simpl; unfold load; lia. }
    rewrite G. destruct (Nat.leb_spec 0 a), (Nat.ltb_spec a (0 + n)); simpl; lia.
Qed.
Lemma sum_bound (f : nat -> nat) l c : (forall w, In w l -> INR (f w) <= c) -> INR (fold_right Nat.add 0%nat (map f l)) <= INR (length l) * c.
Proof.
  induction l as [|w l IH]; intros H; [simpl; lra|]. cbn [map fold_right length]. rewrite plus_INR, S_INR.
  assert (INR (f w) <= c) by (apply H; now left). assert (INR (fold_right Nat.add 0%nat (map f l)) <= INR (length l) * c) by (apply IH; intros v Hv; apply H; now right). lra.
Qed.
Lemma batches_lb D b : (0 < b)%nat -> INR D <= INR (batches D b) * INR b.
Proof.
  intros Hb. rewrite <- mult_INR. apply le_INR. unfold batches. pose proof (Nat.div_mod (D + b - 1) b ltac:(lia)). pose proof (Nat.mod_upper_bound (D + b - 1) b ltac:(lia)). nia.
Qed.
Lemma batches_ub D b : (0 < b)%nat -> INR (batches D b) * INR b < INR D + INR b.
Proof.
  intros Hb. rewrite <- mult_INR, <- plus_INR. apply lt_INR. unfold batches. pose proof (Nat.div_mod (D + b - 1) b ltac:(lia)). nia.
Qed.
Lemma tasksE D b : (0 < b)%nat -> INR (tasks D b) = INR (batches D b) * (INR (batches D b) + 1) / 2.
Proof.
  intros Hb. pose proof (sum_down (batches D b)) as E. rewrite <- (tasks_eq D b Hb) in E. apply (f_equal INR) in E.
  rewrite !mult_INR, plus_INR in E. change (INR 1) with 1 in E. change (INR 2) with 2 in E. lra.
Qed.

(** C153, the half that holds: no schedule finishes earlier, and the balanced one needs less than
    (D/b + 1)(D/b + 2) / 2 / n + 1 tasks' time, which for many batches per worker is close *)
Theorem exec_time_partial : forall D b n tb, (0 < b)%nat -> (0 < n)%nat -> 0 <= tb ->
  (forall sched T, length sched = tasks D b -> (forall w, In w sched -> (w < n)%nat) -> finishes sched n tb T -> exec_time D b n tb <= T) /\
  (exists sched, length sched = tasks D b /\ (forall w, In w sched -> (w < n)%nat) /\
     finishes sched n tb (((INR D / INR b + 1) * (INR D / INR b + 2) / (2 * INR n) + 1) * tb)).
Proof.
  intros D b n tb Hb Hn Ht. assert (Pb : 0 < INR b) by now apply lt_0_INR. assert (Pn : 0 < INR n) by now apply lt_0_INR.
  set (q := INR D / INR b). assert (Q1 : q <= INR (batches D b)).
  { unfold q. apply (Rmult_le_reg_r (INR b)); [exact Pb|]. replace (INR D / INR b * INR b) with (INR D) by (field; lra). now apply batches_lb. }
  assert (Q2 : INR (batches D b) <= q + 1).
  { unfold q. apply (Rmult_le_reg_r (INR b)); [exact Pb|]. replace ((INR D / INR b + 1) * INR b) with (INR D + INR b) by (field; lra). left. now apply batches_ub. }
  assert (Q0 : 0 <= q) by (apply Rmult_le_pos; [apply pos_INR|left; now apply Rinv_0_lt_compat]).
  split.
  - intros sched T L W F. assert (S : INR (length sched) * tb <= INR n * T).
    { rewrite (load_sum sched n W). destruct (Req_dec tb 0) as [->|Nt].
      - rewrite Rmult_0_r. apply Rmult_le_pos; [lra|]. specialize (F 0%nat Hn). rewrite Rmult_0_r in F. exact F.
      - assert (0 < tb) by lra. rewrite <- (seq_length n 0) at 2.
        assert (K : INR (fold_right Nat.add 0%nat (map (load sched) (seq 0 n))) <= INR (length (seq 0 n)) * (T / tb)).
        { apply sum_bound. intros w Hw. apply in_seq in Hw. apply (Rmult_le_reg_r tb); [lra|]. replace (T / tb * tb) with T by (field; lra). apply F. lia. }
        apply (Rmult_le_compat_r tb) in K; [|lra]. replace (INR (length (seq 0 n)) * (T / tb) * tb) with (INR (length (seq 0 n)) * T) in K by (field; lra). exact K. }
    rewrite L, tasksE in S by exact Hb.
    assert (E : exec_time D b n tb = q * q / 2 * tb / INR n) by (unfold exec_time, q; field; lra). rewrite E.
    apply (Rmult_le_reg_l (INR n)); [exact Pn|]. replace (INR n * (q * q / 2 * tb / INR n)) with (q * q / 2 * tb) by (field; lra).
    apply Rle_trans with (2 := S). apply Rmult_le_compat_r; [exact Ht|].
    assert (q * q <= INR (batches D b) * (INR (batches D b) + 1)) by (apply Rmult_le_compat; lra). lra.
  - exists (map (fun t => (t mod n)%nat) (seq 0 (tasks D b))). split; [now rewrite map_length, seq_length|]. split.
    + intros w Hw. apply in_map_iff in Hw as (t & <- & _). apply Nat.mod_upper_bound. lia.
    + assert (C : forall m w, (w < n)%nat -> (load (map (fun t => t mod n) (seq 0 m)) w * n + w < m + n)%nat).
      { intros m w Hw. induction m as [|m IH]; [simpl; lia|]. rewrite seq_S, map_app. unfold load in *. rewrite count_occ_app. cbn [map count_occ Nat.add].
        destruct (Nat.eq_dec (m mod n) w) as [Em|Em]; [|lia].
        assert (K : (count_occ Nat.eq_dec (map (fun t : nat => t mod n) (seq 0 m)) w * n <= m - w)%nat).
        { pose proof (Nat.div_mod m n ltac:(lia)) as DM. rewrite Em in DM. set (cc := count_occ _ _ _) in *.
          assert (cc <= m / n)%nat by nia. nia. }
        pose proof (Nat.mod_le m n ltac:(lia)). nia. }
      intros w Hw. specialize (C (tasks D b) w Hw). set (ld := load _ w) in *.
      apply Rmult_le_compat_r; [exact Ht|]. assert (C' : INR ld * INR n < INR (tasks D b) + INR n) by (rewrite <- mult_INR, <- plus_INR; apply lt_INR; lia).
      rewrite tasksE in C' by exact Hb. apply (Rmult_le_reg_r (INR n)); [exact Pn|].
      replace (((q + 1) * (q + 2) / (2 * INR n) + 1) * INR n) with ((q + 1) * (q + 2) / 2 + INR n) by (field; lra).
      assert (INR (batches D b) * (INR (batches D b) + 1) <= (q + 1) * (q + 2)) by (apply Rmult_le_compat; pose proof (pos_INR (batches D b)); lra). lra.
Qed.
Print Assumptions exec_time_partial.
(** C153 is false: with many workers the estimate is below any fraction of the time of every schedule *)
Theorem exec_time_refuted : forall K, 0 < K -> exists D b n, (0 < b)%nat /\ (0 < n)%nat /\ should_distribute D D (Z.of_nat b) Blockwise = true /\
  forall tb, 0 < tb -> forall sched T, length sched = tasks D b -> (forall w, In w sched -> (w < n)%nat) -> finishes sched n tb T -> K * exec_time D b n tb < T.
Proof.
  intros K HK. assert (exists n, INR n > 2 * K) as [n Hn].
  { exists (Z.to_nat (up (2 * K))). destruct (archimed (2 * K)) as [A _]. rewrite INR_IZR_INZ, Z2Nat.id; [exact A|]. apply le_IZR. lra. }
  assert (0 < INR n) by lra. exists 2%nat, 1%nat, n.
  split; [lia|]. assert (Pn : (0 < n)%nat) by (apply INR_lt; simpl; lra). split; [exact Pn|]. split; [reflexivity|]. intros tb Ht sched T L W F.
  destruct sched as [|a s]; [discriminate L|].
  specialize (F a (W a (or_introl eq_refl))). unfold load in F. cbn [count_occ] in F. destruct (Nat.eq_dec a a); [|congruence].
  rewrite S_INR in F. pose proof (pos_INR (count_occ Nat.eq_dec s a)) as Pc.
  assert (tb <= T) by (apply Rle_trans with (2 := F); rewrite <- (Rmult_1_l tb) at 1; apply Rmult_le_compat_r; lra).
  unfold exec_time. simpl. apply Rlt_le_trans with tb; [|lra].
  replace (K * ((1 + 1) * ((1 + 1) * 1) * tb / (2 * INR n * (1 * (1 * 1))))) with (2 * K / INR n * tb) by (field; lra).
  assert (2 * K / INR n < 1) by (apply (Rmult_lt_reg_r (INR n)); [lra|]; replace (2 * K / INR n * INR n) with (2 * K) by (field; lra); lra).
  assert (2 * K / INR n * tb < 1 * tb) by (apply Rmult_lt_compat_r; lra). lra.
Qed.
Print Assumptions exec_time_refuted.
(** 1000 points in batches of 100 on 5 workers: 55 tasks, estimate 10 tasks' time, 11 needed *)
Example exec_time_example : tasks 1000 100 = 55%nat /\ exec_time 1000 100 5 1 = 10.
Proof. split; [reflexivity|]. unfold exec_time. change 1000%nat with (10 * 100)%nat. rewrite mult_INR. replace (INR 10) with 10 by (simpl; lra). replace (INR 5) with 5 by (simpl; lra).
  assert (INR 100 <> 0) by (apply not_0_INR; discriminate). field. exact H. Qed.
