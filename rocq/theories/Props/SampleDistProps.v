(** C99-C104: distances between samples. *)
From Coq Require Import Reals Lra Lia List Permutation Psatz.
From Verif Require Import Model.Prelude Model.Ext Model.Kernels Model.Training Model.SampleDist
  Spec.Sums Spec.SampleDistSpec Proofs.SampleDistP Props.TrainingProps.
Import ListNotations.
Local Open Scope R_scope.

(** the sample [l] of points with [D] columns *)
Definition of_rows (D : nat) (l : list point) : sample := {| s_dim := D; s_rows := l |}.
Ltac dsm s := destruct s as [?d ?l]; cbn [s_dim s_rows] in *; subst.

(** ** C99: the energy distance is the square of a metric of empirical distributions *)
Theorem energy_metric : forall D a b, a <> [] -> b <> [] ->
  exists v, energy_distance (of_rows D a) (of_rows D b) = Ok v /\
    v = 2 * pair_average (euclid D) a b - pair_average (euclid D) a a - pair_average (euclid D) b b /\     (* the clip at zero never acts *)
    0 <= v /\ energy_distance (of_rows D b) (of_rows D a) = Ok v /\
    (v = 0 <-> forall z, share D z a = share D z b) /\
    forall c, c <> [] -> exists u w, energy_distance (of_rows D a) (of_rows D c) = Ok u /\ energy_distance (of_rows D c) (of_rows D b) = Ok w /\
      sqrt v <= sqrt u + sqrt w.
Proof.
  intros D a b A B. exists (discrepancy (euclid D) a b). rewrite !(energy_eq D) by auto. cbn [of_rows s_rows].
  split; [reflexivity|]. split; [reflexivity|]. split; [apply discrepancy_nonneg; auto using nt_euclid, euclid_sym|].
  split; [f_equal; apply discrepancy_sym; auto using euclid_sym|]. split; [apply discrepancy_zero; auto|].
  intros c C. exists (discrepancy (euclid D) a c), (discrepancy (euclid D) c b). rewrite !(energy_eq D) by auto.
  split; [reflexivity|]. split; [reflexivity|]. apply discrepancy_triangle; auto using nt_euclid, euclid_sym.
Qed.
(** The order of the rows and how often the whole sample is repeated do not matter; moving all rows changes nothing, stretching them scales the distance. *)
Lemma pair_average_map {X Y} (f : Y -> Y -> R) (h : X -> Y) a b : pair_average f (map h a) (map h b) = pair_average (fun x y => f (h x) (h y)) a b.
Proof. unfold pair_average, average. rewrite !add_up_map, !map_length. f_equal. apply add_up_ext. intros x _. now rewrite add_up_map. Qed.
Lemma pair_average_scal {X} c (f : X -> X -> R) a b : pair_average (fun x y => c * f x y) a b = c * pair_average f a b.
Proof.
  unfold pair_average. rewrite <- average_scal. apply average_ext. intros x _. apply (average_scal c (f x)).
Qed.
Lemma pair_average_ext {X} (f g : X -> X -> R) a b : (forall x y, f x y = g x y) -> pair_average f a b = pair_average g a b.
Proof. intros H. apply average_ext. intros x _. apply average_ext. auto. Qed.
Lemma sqdist_move D c v x y : sqdist D (fun i => c * x i + v i) (fun i => c * y i + v i) = c ^ 2 * sqdist D x y.
Proof. unfold sqdist. rewrite <- rsum_scal. apply rsum_ext. intros. ring. Qed.
Lemma euclid_move D c v x y : euclid D (fun i => c * x i + v i) (fun i => c * y i + v i) = Rabs c * euclid D x y.
Proof.
  unfold euclid. change (sqrt (sqdist D (fun i => c * x i + v i) (fun i => c * y i + v i)) = Rabs c * sqrt (sqdist D x y)). rewrite sqdist_move.
  rewrite sqrt_mult_alt by apply pow2_ge_0. f_equal. replace (c ^ 2) with (Rsqr c) by (unfold Rsqr; ring). apply sqrt_Rsqr_abs.
Qed.
Theorem energy_moves : forall D a b c (v : point), a <> [] -> b <> [] ->
  exists e, energy_distance (of_rows D a) (of_rows D b) = Ok e /\
    energy_distance (of_rows D (map (fun x i => c * x i + v i) a)) (of_rows D (map (fun x i => c * x i + v i) b)) = Ok (Rabs c * e) /\
    (forall a' b', a' <> [] -> b' <> [] -> same_distribution a a' -> same_distribution b b' -> energy_distance (of_rows D a') (of_rows D b') = Ok e).
Proof.
  intros D a b c v A B. exists (discrepancy (euclid D) a b). rewrite (energy_eq D) by auto. split; [reflexivity|]. split.
  - rewrite (energy_eq D); [|reflexivity|reflexivity|destruct a; [congruence|discriminate]|destruct b; [congruence|discriminate]]. cbn [of_rows s_rows]. f_equal.
    unfold discrepancy. rewrite !pair_average_map.
    rewrite !(pair_average_ext (fun x y => euclid D (fun i => c * x i + v i) (fun i => c * y i + v i)) (fun x y => Rabs c * euclid D x y)) by (intros; apply euclid_move).
    rewrite !pair_average_scal. ring.
  - intros a' b' A' B' SA SB. rewrite (energy_eq D) by auto. cbn [of_rows s_rows]. f_equal. unfold discrepancy, pair_average.
    assert (E : forall (x x' y y' : list point), x <> [] -> x' <> [] -> y <> [] -> y' <> [] -> same_distribution x x' -> same_distribution y y' ->
      average (fun u => average (fun w => euclid D u w) y') x' = average (fun u => average (fun w => euclid D u w) y) x).
    { intros x x' y y' X X' Y Y' S S'. rewrite <- (average_same _ x x') by auto. apply average_ext. intros u _. symmetry. apply average_same; auto. }
    rewrite (E a a' b b'), (E a a' a a'), (E b b' b b') by auto. reflexivity.
Qed.
Print Assumptions energy_metric. Print Assumptions energy_moves.
Example energy_ex : let p x := (fun _ => x) : point in
  energy_distance (of_rows 1 [p 0]) (of_rows 1 [p 1; p (-1)]) = Ok 1 /\ same_distribution [p 0; p 1] [p 1; p 0; p 1; p 0].
Proof.
  intros p. split.
  - rewrite (energy_eq 1) by (reflexivity || discriminate). f_equal. unfold discrepancy, pair_average, average, euclid, p. cbn.
    replace (0 + (0 - 1) * ((0 - 1) * 1)) with 1 by ring. replace (0 + (0 - -1) * ((0 - -1) * 1)) with 1 by ring. replace (0 + (0 - 0) * ((0 - 0) * 1)) with 0 by ring.
    replace (0 + (1 - 1) * ((1 - 1) * 1)) with 0 by ring. replace (0 + (-1 - -1) * ((-1 - -1) * 1)) with 0 by ring.
    replace (0 + (1 - -1) * ((1 - -1) * 1)) with (2 * 2) by ring. replace (0 + (-1 - 1) * ((-1 - 1) * 1)) with (2 * 2) by ring.
    rewrite sqrt_0, sqrt_1, sqrt_square by lra. field.
  - exists 2%nat, 1%nat. split; [discriminate|]. split; [discriminate|]. cbn. apply perm_trans with [p 1; p 0; p 0; p 1]; [apply perm_swap|].
    apply perm_skip, perm_skip, perm_swap.
Qed.

(** ** C100: samples with different numbers of columns *)
(** the part that holds: empty samples are rejected by all three; unequal numbers of columns are rejected by the sliced distance, and by the other two unless one sample has one column *)
Theorem columns_partial : forall a b gamma w1 n draws,
  (s_rows a = [] \/ s_rows b = [] -> energy_distance a b = Err SEmpty /\ mmd_rbf gamma a b = Err SEmpty /\ sliced w1 n draws a b = Err SEmpty) /\
  (s_rows a <> [] -> s_rows b <> [] -> s_dim a <> s_dim b ->
     sliced w1 n draws a b = Err SShape /\
     (s_dim a <> 1%nat -> s_dim b <> 1%nat -> energy_distance a b = Err SShape /\
       ((2 <= length (s_rows a))%nat -> (2 <= length (s_rows b))%nat -> mmd_rbf gamma a b = Err SShape))).
Proof.
  intros a b gamma w1 n draws. unfold energy_distance, mmd_rbf, sliced, as_2d. split.
  - intros H. destruct (s_rows a) eqn:Ea, (s_rows b) eqn:Eb; auto. destruct H; discriminate.
  - intros A B H. destruct (s_rows a) eqn:Ea; [congruence|]. destruct (s_rows b) eqn:Eb; [congruence|]. rewrite <- Ea, <- Eb. apply Nat.eqb_neq in H. rewrite H.
    split; [reflexivity|]. intros H1 H2. unfold columns. rewrite H. apply Nat.eqb_neq in H1. apply Nat.eqb_neq in H2. rewrite H1, H2. split; [reflexivity|].
    intros La Lb. destruct (Nat.ltb_spec (length (s_rows a)) 2); [lia|]. destruct (Nat.ltb_spec (length (s_rows b)) 2); [lia|]. reflexivity.
Qed.
(** A sample with one column is compared with one of several columns, by repeating its column; a constant column has distance zero from a sample of three constant columns. *)
Theorem columns_refuted : ~ (forall a b, s_dim a <> s_dim b -> exists e, energy_distance a b = Err e).
Proof.
  intros H. destruct (H (of_rows 1 [fun _ => 0]) (of_rows 3 [fun _ => 0]) ltac:(discriminate)) as [e E].
  unfold energy_distance in E. cbn in E. discriminate.
Qed.
Print Assumptions columns_partial. Print Assumptions columns_refuted.
Example columns_ex : energy_distance (of_rows 2 [fun _ => 0]) (of_rows 3 [fun _ => 0]) = Err SShape.
Proof. reflexivity. Qed.

(** ** C101: the kernel estimate is unbiased and stays close to a squared distance *)
Theorem mmd_estimate : forall D g a b, (2 <= length a)%nat -> (2 <= length b)%nat ->
  let k (x y : point) := exp (- g * rsum (fun i => (x i - y i) ^ 2) D) in
  exists v, mmd_rbf (Some g) (of_rows D a) (of_rows D b) = Ok (Fin v) /\
    mmd_rbf (Some g) (of_rows D b) (of_rows D a) = Ok (Fin v) /\
    (0 <= g -> 0 <= mean_discrepancy k a b /\
       mean_discrepancy k a b - / INR (length a) - / INR (length b) <= v <= mean_discrepancy k a b /\ v <= 2).
Proof.
  intros D g a b A B k. assert (Na : a <> []) by (intros E; rewrite E in A; cbn in A; lia). assert (Nb : b <> []) by (intros E; rewrite E in B; cbn in B; lia).
  exists (mmd_value (rbf g D) a b). rewrite !(mmd_eq D) by auto. cbn [of_rows s_rows]. split; [reflexivity|]. split.
  - do 2 f_equal. unfold mmd_value. rewrite (pair_average_sym (rbf g D) b a) by auto using rbf_sym. ring.
  - intros G. change k with (rbf g D). pose proof (rbf_range g D) as R0.
    assert (R1 : forall x y, 0 <= rbf g D x y <= 1) by (intros x y; specialize (R0 x y G); lra).
    pose proof (distinct_pairs_sym (rbf g D) a A (rbf_refl g D) R1). pose proof (distinct_pairs_sym (rbf g D) b B (rbf_refl g D) R1).
    pose proof (mean_discrepancy_nonneg (rbf g D) a b (rbf_mult g D G) (rbf_sym g D) Na Nb) as M.
    pose proof (pair_average_nonneg (rbf g D) a b (fun x y => proj1 (R1 x y))). split; [exact M|]. unfold mean_discrepancy in *. unfold mmd_value.
    set (u := pair_average (rbf g D) a a) in *. set (w := pair_average (rbf g D) b b) in *. set (z := pair_average (rbf g D) a b) in *. clearbody u w z. repeat split; lra.
Qed.
(** Its average over all samples of n and m rows drawn independently from two populations is the squared discrepancy of the populations. *)
Theorem mmd_unbiased : forall D g n m p q, (2 <= n)%nat -> (2 <= m)%nat -> p <> [] -> q <> [] ->
  let k (x y : point) := exp (- g * rsum (fun i => (x i - y i) ^ 2) D) in
  average (fun a => average (fun b => match mmd_rbf (Some g) (of_rows D a) (of_rows D b) with Ok (Fin v) => v | _ => 0 end) (draws_of q m)) (draws_of p n)
    = mean_discrepancy k p q.
Proof.
  intros D g n m p q Hn Hm P Q k. rewrite (average_ext _ (fun a => distinct_pairs_average k a + average (fun b => distinct_pairs_average k b + -2 * pair_average k a b) (draws_of q m))).
  - rewrite average_plus, (expect_distinct p n k) by auto.
    rewrite (average_ext (fun x => average (fun b => distinct_pairs_average k b + -2 * pair_average k x b) (draws_of q m)) (fun x => pair_average k q q + -2 * average (fun b => pair_average k x b) (draws_of q m))).
    + rewrite average_plus, average_const, average_scal, expect_cross by (auto using draws_nonempty; lia). unfold mean_discrepancy. ring.
    + intros x _. rewrite average_plus, (expect_distinct q m k), average_scal by auto. reflexivity.
  - intros a Ha. apply draws_length in Ha.
    rewrite (average_ext _ (fun b => distinct_pairs_average k a + (distinct_pairs_average k b + -2 * pair_average k a b))).
    + rewrite average_plus, average_const by (apply draws_nonempty; auto). reflexivity.
    + intros b Hb. apply draws_length in Hb. rewrite (mmd_eq D) by (cbn; auto; lia). cbn [of_rows s_rows]. unfold mmd_value. change (rbf g D) with k. ring.
Qed.
Print Assumptions mmd_estimate. Print Assumptions mmd_unbiased.
Example draws_ex : draws_of [true; false] 2 = [[true; true]; [true; false]; [false; true]; [false; false]] /\
  mmd_rbf None (of_rows 1 [fun _ => 0]) (of_rows 1 [fun _ => 0; fun _ => 1]) = Ok NaN.
Proof. split; reflexivity. Qed.

(** ** C102: a sample compared with itself *)
(** the part that holds: the energy distance and the sliced distance are zero; the kernel estimate is at most zero, and not below -2/n *)
Theorem itself_partial : forall D a w1 n draws, a <> [] -> (forall l, w1 l l = 0) ->
  energy_distance (of_rows D a) (of_rows D a) = Ok 0 /\ sliced w1 n draws (of_rows D a) (of_rows D a) = Ok 0 /\
  (forall gamma, (2 <= length a)%nat -> match gamma with Some g => 0 <= g | None => True end ->
     exists v, mmd_rbf gamma (of_rows D a) (of_rows D a) = Ok (Fin v) /\ - (2 / INR (length a)) <= v <= 0).
Proof.
  intros D a w1 n draws A W. split; [|split].
  - rewrite (energy_eq D) by auto. f_equal. unfold discrepancy. ring.
  - unfold sliced, as_2d. cbn [of_rows s_rows s_dim]. destruct a as [|x a]; [congruence|]. rewrite Nat.eqb_refl. f_equal.
    assert (K : forall l, lsum (map (fun t => w1 (project D (unit_of D (draws t)) (of_rows D (x :: a))) (project D (unit_of D (draws t)) (of_rows D (x :: a)))) l) = 0).
    { intros l. rewrite <- add_up_lsum, (add_up_ext _ (fun _ => 0)) by (intros; apply W). rewrite add_up_const. ring. }
    unfold of_rows in K. rewrite K. unfold Rdiv. ring.
  - intros gamma L G. set (g := match gamma with Some g => g | None => auto_gamma D (of_rows D a) (of_rows D a) end).
    assert (Hg : 0 <= g) by (unfold g; destruct gamma; [exact G|left; apply auto_gamma_pos]).
    exists (mmd_value (rbf g D) a a). split; [rewrite (mmd_eq D) by auto; reflexivity|].
    assert (R1 : forall x y, 0 <= rbf g D x y <= 1) by (intros x y; pose proof (rbf_range g D x y Hg); lra).
    pose proof (distinct_pairs_sym (rbf g D) a L (rbf_refl g D) R1) as H. unfold mmd_value. unfold Rdiv. lra.
Qed.
Theorem itself_refuted : ~ (forall D g a, 0 < g -> (2 <= length a)%nat -> mmd_rbf (Some g) (of_rows D a) (of_rows D a) = Ok (Fin 0)).
Proof.
  intros H. specialize (H 1%nat 1 [(fun _ => 0) : point; (fun _ => 1) : point] ltac:(lra) ltac:(cbn; lia)).
  rewrite (mmd_eq 1) in H by (cbn; auto). cbn [of_rows s_rows] in H. injection H as H.
  unfold mmd_value in H. rewrite pair_average_eq in H by discriminate. unfold distinct_pairs_average, rbf, sqdist in H. cbn [add_up length rsum INR] in H.
  replace (- (1) * (0 + (0 - 0) ^ 2)) with 0 in H by ring. replace (- (1) * (0 + (1 - 1) ^ 2)) with 0 in H by ring.
  replace (- (1) * (0 + (0 - 1) ^ 2)) with (-1) in H by ring. replace (- (1) * (0 + (1 - 0) ^ 2)) with (-1) in H by ring.
  rewrite exp_0 in H. assert (exp (-1) < 1) by (rewrite <- exp_0; apply exp_increasing; lra). lra.
Qed.
Print Assumptions itself_partial. Print Assumptions itself_refuted.
Example itself_ex : forall v, mmd_rbf (Some 1) (of_rows 1 [(fun _ => 0); (fun _ => 1)]) (of_rows 1 [(fun _ => 0); (fun _ => 1)]) = Ok (Fin v) -> -1 <= v <= 0.
Proof.
  intros v E. destruct (itself_partial 1 [(fun _ => 0) : point; (fun _ => 1) : point] (fun _ _ => 0) 1 (fun _ _ => 0) ltac:(discriminate) ltac:(reflexivity)) as (_ & _ & H).
  destruct (H (Some 1) ltac:(cbn; lia) ltac:(lra)) as (u & U & B). pose proof (eq_trans (eq_sym U) E) as F. injection F as <-. cbn in B. lra.
Qed.

(** ** C103: units of the data and the automatic scale *)
Lemma rinsert_scale c x l : 0 < c -> map (Rmult c) (rinsert x l) = rinsert (c * x) (map (Rmult c) l).
Proof.
  intros C. induction l as [|y l IH]; cbn; [reflexivity|]. destruct (Rle_dec x y) as [H|H], (Rle_dec (c * x) (c * y)) as [H'|H']; cbn; try reflexivity; try nra. now rewrite IH.
Qed.
Lemma rsort_scale c l : 0 < c -> rsort (map (Rmult c) l) = map (Rmult c) (rsort l).
Proof. intros C. unfold rsort. induction l as [|x l IH]; cbn; [reflexivity|]. rewrite IH, rinsert_scale; auto. Qed.
Lemma median_scale c l : 0 < c -> median (map (Rmult c) l) = c * median l.
Proof.
  intros C. unfold median. rewrite rsort_scale, map_length by auto.
  assert (N : forall i, nth i (map (Rmult c) (rsort l)) 0 = c * nth i (rsort l) 0).
  { intros i. rewrite <- (map_nth (Rmult c)). rewrite Rmult_0_r. reflexivity. }
  rewrite !N. destruct (Nat.odd (length l)); [reflexivity|]. field.
Qed.
Lemma row_move D c v (x : point) l l' : agree D (row (of_rows D l) (fun i => c * x i + v i)) (fun i => c * row (of_rows D l') x i + v i).
Proof.
  intros i Hi. unfold row. cbn. destruct (Nat.eqb_spec D 1) as [->|]; [|reflexivity]. assert (i = 0)%nat by lia. now subst.
Qed.
Lemma table_move D c v a b : table (sqdist D) (of_rows D (map (fun x i => c * x i + v i) a)) (of_rows D (map (fun x i => c * x i + v i) b)) =
  map (map (Rmult (c ^ 2))) (table (sqdist D) (of_rows D a) (of_rows D b)).
Proof.
  unfold table. cbn [of_rows s_rows]. rewrite !map_map. apply map_ext. intros x. rewrite !map_map. apply map_ext. intros y.
  rewrite <- sqdist_move with (v := v). apply sqdist_ext; apply row_move.
Qed.
Definition moved_by (c : R) (v : point) (l : list point) : list point := map (fun x i => c * x i + v i) l.
Definition half_scale (D : nat) (a b : list point) : R := median (concat (map (fun x => map (fun y => rsum (fun i => (x i - y i) ^ 2) D) b) a)).
Lemma half_scale_eq D a b : half_scale D a b = median (concat (table (sqdist D) (of_rows D a) (of_rows D b))).
Proof.
  unfold half_scale, table. do 2 f_equal. cbn. apply map_ext. intros x. apply map_ext. intros y. apply sqdist_ext; intros i Hi; symmetry; apply row_agree with D; auto.
Qed.
(** the part that holds: as long as twice the median squared distance is not below 1e-12 before and after, changing the units and the origin changes nothing *)
Theorem units_partial : forall D c v a b, c <> 0 -> (2 <= length a)%nat -> (2 <= length b)%nat ->
  (/ 10 ^ 12 <= 2 * half_scale D a b -> / 10 ^ 12 <= c ^ 2 * (2 * half_scale D a b) ->
   mmd_rbf None (of_rows D (moved_by c v a)) (of_rows D (moved_by c v b)) = mmd_rbf None (of_rows D a) (of_rows D b)) /\
  (forall gamma, mmd_rbf gamma (of_rows D (moved_by 1 v a)) (of_rows D (moved_by 1 v b)) = mmd_rbf gamma (of_rows D a) (of_rows D b)).
Proof.
  intros D c v a b C A B.
  assert (MV : forall g g' u, g' * u ^ 2 = g -> mmd_value (rbf g' D) (moved_by u v a) (moved_by u v b) = mmd_value (rbf g D) a b).
  { intros g g' u G. unfold mmd_value, distinct_pairs_average, moved_by.
    assert (R : forall x y, rbf g' D (fun i => u * x i + v i) (fun i => u * y i + v i) = rbf g D x y).
    { intros x y. unfold rbf. rewrite sqdist_move. f_equal. rewrite <- G. ring. }
    rewrite pair_average_map, !map_length, !add_up_map. f_equal; [f_equal|f_equal; apply pair_average_ext; auto]; f_equal; f_equal;
      apply add_up_ext; intros x _; rewrite ?add_up_map; auto; apply add_up_ext; auto. }
  assert (C2 : 0 < c ^ 2) by nra. assert (P12 : 0 < / 10 ^ 12) by (apply Rinv_0_lt_compat, pow_lt; lra). split.
  - intros H1 H2. rewrite !(mmd_eq D) by (cbn; unfold moved_by; rewrite ?map_length; auto). cbn [of_rows s_rows]. do 2 f_equal. apply MV.
    unfold auto_gamma, moved_by. rewrite table_move. rewrite <- concat_map, median_scale by auto.
    rewrite half_scale_eq in H1, H2. set (m := median (concat (table (sqdist D) (of_rows D a) (of_rows D b)))) in *. clearbody m.
    rewrite !Rmax_left by lra. field. split; [lra|]. nra.
  - intros gamma. rewrite !(mmd_eq D) by (cbn; unfold moved_by; rewrite ?map_length; auto). cbn [of_rows s_rows]. do 2 f_equal. apply MV.
    destruct gamma as [g|]; [ring|]. unfold auto_gamma, moved_by. rewrite table_move, <- concat_map, median_scale by lra. rewrite (pow1 2), !Rmult_1_l, !Rmult_1_r. reflexivity.
Qed.
(** For small data the automatic scale is a constant of the program and the estimate depends on the units. *)
Lemma median4 q : 0 < q -> median [0; q; q; 0] = q / 2.
Proof.
  intros Q. unfold median, rsort. cbn [fold_right rinsert length Nat.odd negb Nat.even].
  repeat (match goal with |- context [Rle_dec ?x ?y] => destruct (Rle_dec x y); try lra end; cbn [rinsert]). all: cbn; lra.
Qed.
Lemma pair_value t : 0 < t -> let a := [(fun _ => 0) : point; (fun _ => t) : point] in
  exists v, mmd_rbf None (of_rows 1 a) (of_rows 1 a) = Ok (Fin v) /\ v = exp (- (t ^ 2 / Rmax (t ^ 2) (/ 10 ^ 12))) - 1.
Proof.
  intros T a. eexists. split; [apply (mmd_eq 1); cbn; auto|]. cbn [of_rows s_rows].
  assert (G : auto_gamma 1 (of_rows 1 a) (of_rows 1 a) = 1 / Rmax (t ^ 2) (/ 10 ^ 12)).
  { unfold auto_gamma. do 2 f_equal. replace (concat (table (sqdist 1) (of_rows 1 a) (of_rows 1 a))) with [0; t ^ 2; t ^ 2; 0].
    - rewrite median4 by nra. field.
    - unfold a, table, sqdist, row. cbn. repeat (f_equal; try ring). }
  rewrite G. set (h := Rmax (t ^ 2) (/ 10 ^ 12)).
  assert (H : 0 < h) by (unfold h; pose proof (Rmax_l (t ^ 2) (/ 10 ^ 12)); nra). clearbody h.
  unfold mmd_value. rewrite pair_average_eq by discriminate. unfold distinct_pairs_average, rbf, sqdist, a. cbn [add_up length rsum INR].
  replace (- (1 / h) * (0 + (0 - 0) ^ 2)) with 0 by ring. replace (- (1 / h) * (0 + (t - t) ^ 2)) with 0 by ring.
  replace (- (1 / h) * (0 + (0 - t) ^ 2)) with (- (t ^ 2 / h)) by (field; lra). replace (- (1 / h) * (0 + (t - 0) ^ 2)) with (- (t ^ 2 / h)) by (field; lra).
  rewrite exp_0. field.
Qed.
Theorem units_refuted : ~ (forall D c a b, c <> 0 -> mmd_rbf None (of_rows D (moved_by c (fun _ => 0) a)) (of_rows D (moved_by c (fun _ => 0) b)) = mmd_rbf None (of_rows D a) (of_rows D b)).
Proof.
  intros H. specialize (H 1%nat (/ 10 ^ 7) [(fun _ => 0) : point; (fun _ => 1) : point] [(fun _ => 0) : point; (fun _ => 1) : point] ltac:(apply Rinv_neq_0_compat, pow_nonzero; lra)).
  destruct (pair_value 1 ltac:(lra)) as (v & V & Ev).
  assert (M : mmd_rbf None (of_rows 1 [(fun _ => 0) : point; (fun _ => / 10 ^ 7) : point]) (of_rows 1 [(fun _ => 0) : point; (fun _ => / 10 ^ 7) : point]) =
              mmd_rbf None (of_rows 1 (moved_by (/ 10 ^ 7) (fun _ => 0) [(fun _ => 0) : point; (fun _ => 1) : point])) (of_rows 1 (moved_by (/ 10 ^ 7) (fun _ => 0) [(fun _ => 0) : point; (fun _ => 1) : point]))).
  { unfold moved_by. cbn [map]. f_equal.
    all: f_equal; repeat (f_equal; try (apply FunctionalExtensionality.functional_extensionality; intros; lra)). }
  destruct (pair_value (/ 10 ^ 7) ltac:(apply Rinv_0_lt_compat, pow_lt; lra)) as (w & W & Ew).
  rewrite M, H, V in W. injection W as W. rewrite Ev, Ew in W. rewrite pow1 in W.
  rewrite Rmax_left in W by (apply Rle_trans with 1; [rewrite <- Rinv_1; apply Rinv_le_contravar; [lra|]|lra]; apply pow_R1_Rle; lra).
  rewrite Rmax_right in W by (rewrite pow_inv; apply Rinv_le_contravar; [apply pow_lt; lra|rewrite <- pow_mult; apply Rle_pow; [lra|lia]]).
  assert (E : exp (- (1 / 1)) = exp (- ((/ 10 ^ 7) ^ 2 / / 10 ^ 12))) by lra. apply exp_inv in E.
  replace ((/ 10 ^ 7) ^ 2 / / 10 ^ 12) with (/ 100) in E by (field; lra). lra.
Qed.
Print Assumptions units_partial. Print Assumptions units_refuted.
Example units_ex : half_scale 1 [(fun _ => 0); (fun _ => 2)] [(fun _ => 0); (fun _ => 2)] = 2.
Proof.
  unfold half_scale. replace (concat _) with [0; 4; 4; 0]; [rewrite median4 by lra; lra|]. cbn. repeat (f_equal; try ring).
Qed.

(** ** C104: the sliced distance *)
Lemma lsum_le {X} (f g : X -> R) l : (forall x, f x <= g x) -> lsum (map f l) <= lsum (map g l).
Proof. intros H. induction l as [|x l IH]; cbn; [lra|]. unfold lsum in IH. pose proof (H x). lra. Qed.
(** With the distance on the line a pseudometric, so is the sliced distance between samples of the same number of columns, for every number of projections and
    every seed; and it does not exceed the largest of the projected distances. *)
Theorem sliced_metric : forall w1, pseudo_metric w1 -> forall n draws D a b c, a <> [] -> b <> [] -> c <> [] ->
  exists ab bc ac, sliced w1 n draws (of_rows D a) (of_rows D b) = Ok ab /\ sliced w1 n draws (of_rows D b) (of_rows D c) = Ok bc /\
    sliced w1 n draws (of_rows D a) (of_rows D c) = Ok ac /\ sliced w1 n draws (of_rows D b) (of_rows D a) = Ok ab /\
    0 <= ab /\ ac <= ab + bc /\
    (forall u, (forall v : point, let along l := map (fun x : point => rsum (fun i => x i * v i) D) l in rsum (fun i => v i ^ 2) D <= 1 -> w1 (along a) (along b) <= u) -> ab <= u).
Proof.
  intros w1 (W0 & WP & WS & WT) n draws D a b c A B C.
  set (m := Z.to_nat (Z.max 1 n)). assert (Hm : 0 < INR m) by (apply lt_0_INR; unfold m; lia).
  set (S x y := lsum (map (fun t => w1 (project D (unit_of D (draws t)) (of_rows D x)) (project D (unit_of D (draws t)) (of_rows D y))) (seq 0 m)) / INR m).
  assert (E : forall x y, x <> [] -> y <> [] -> sliced w1 n draws (of_rows D x) (of_rows D y) = Ok (S x y)).
  { intros x y X Y. unfold sliced, as_2d. cbn [of_rows s_rows s_dim]. destruct x; [congruence|]. destruct y; [congruence|]. rewrite Nat.eqb_refl. reflexivity. }
  exists (S a b), (S b c), (S a c). rewrite !E by auto. split; [reflexivity|]. split; [reflexivity|]. split; [reflexivity|].
  assert (I : 0 < / INR m) by (apply Rinv_0_lt_compat, Hm). split; [|split; [|split]].
  - f_equal. unfold S. f_equal. f_equal. apply map_ext. intros. apply WS.
  - unfold S. apply Rmult_le_pos; [|lra]. rewrite <- add_up_lsum. rewrite <- (Rmult_0_r (INR (length (seq 0 m)))), <- (add_up_const 0). apply add_up_le. intros. apply WP.
  - unfold S, Rdiv. rewrite <- Rmult_plus_distr_r. apply Rmult_le_compat_r; [lra|]. rewrite <- !add_up_lsum, <- add_up_plus. apply add_up_le. intros. apply WT.
  - intros u H. unfold S. apply (Rmult_le_reg_r (INR m)); [exact Hm|]. unfold Rdiv. rewrite Rmult_assoc, Rinv_l, Rmult_1_r by lra.
    replace (u * INR m) with (lsum (map (fun _ => u) (seq 0 m))).
    + apply lsum_le. intros t. apply (H (unit_of D (draws t))). unfold unit_of. set (h := Rmax (norm D (draws t)) (/ 10 ^ 12)).
      assert (P12 : 0 < / 10 ^ 12) by (apply Rinv_0_lt_compat, pow_lt; lra).
      assert (Hh : 0 < h) by (unfold h; pose proof (Rmax_r (norm D (draws t)) (/ 10 ^ 12)); lra).
      rewrite (rsum_ext _ (fun i => / h ^ 2 * draws t i ^ 2)) by (intros; field; lra). rewrite rsum_scal.
      assert (Q : rsum (fun i => draws t i ^ 2) D <= h ^ 2).
      { assert (N : norm D (draws t) <= h) by apply Rmax_l. assert (0 <= norm D (draws t)) by apply sqrt_pos.
        assert (P : 0 <= rsum (fun i => draws t i ^ 2) D) by (apply rsum_nonneg; intros; apply pow2_ge_0).
        pose proof (sqrt_sqrt _ P) as SS. fold (norm D (draws t)) in SS. rewrite <- SS. nra. }
      apply (Rmult_le_reg_l (h ^ 2)); [nra|]. rewrite <- Rmult_assoc, Rinv_r, Rmult_1_l, Rmult_1_r by nra. exact Q.
    + rewrite <- add_up_lsum, add_up_const, seq_length. ring.
Qed.
Print Assumptions sliced_metric.
Example w1_ex : let w (a b : list R) := Rabs (lsum a - lsum b) in pseudo_metric w /\
  sliced w 1 (fun _ _ => 3) (of_rows 1 [fun _ => 2]) (of_rows 1 [fun _ => 5]) = Ok 3.
Proof.
  intros w. split.
  - unfold w. repeat split; intros.
    + unfold Rminus. rewrite Rplus_opp_r. apply Rabs_R0.
    + apply Rabs_pos.
    + apply Rabs_minus_sym.
    + replace (lsum x - lsum z) with ((lsum x - lsum y) + (lsum y - lsum z)) by ring. apply Rabs_triang.
  - unfold sliced. replace (Z.to_nat (Z.max 1 1)) with 1%nat by reflexivity. unfold w. cbn. f_equal. unfold unit_of, norm. cbn. replace (0 + 3 * (3 * 1)) with (3 * 3) by ring. rewrite sqrt_square by lra.
    rewrite Rmax_left.
    + replace (0 + 2 * (3 / 3) + 0 - (0 + 5 * (3 / 3) + 0)) with (-3) by field. rewrite Rabs_left by lra. field.
    + apply Rle_trans with 1; [|lra]. rewrite <- Rinv_1. apply Rinv_le_contravar; lra.
Qed.
