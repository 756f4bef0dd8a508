(** The support-aware Wendland block and the Wendland kernel in many dimensions. *)
From Coq Require Import Reals Lra Lia List Psatz FinFun.
From Verif Require Import Model.Prelude Model.Kernels Spec.Sums Spec.KernelSpec Spec.KernelSupportSpec Proofs.PsdP.
Import ListNotations.
Local Open Scope R_scope.

Lemma clip1_ge d : 1 <= d -> clip1 d = 1.
Proof. unfold clip1. destruct (Rlt_dec 1 d); lra. Qed.
Lemma clip1_le d : d <= 1 -> clip1 d = d.
Proof. unfold clip1. destruct (Rlt_dec 1 d); lra. Qed.
Lemma wendland_poly_1 amp : wendland_poly 1 amp = 0.
Proof. unfold wendland_poly. ring. Qed.

(** ** Positions *)
Lemma triplets_in row nl i j : In (i, j) (triplets_from row nl) <-> (row <= i < row + length nl)%nat /\ In j (nth (i - row) nl []).
Proof.
  revert row. induction nl as [|c t IH]; intros row; cbn [triplets_from length].
  - cbn. split; [tauto|]. intros [H _]. lia.
  - rewrite in_app_iff, IH, in_map_iff. split.
    + intros [[c' [E Hc]]|[H1 H2]].
      * injection E as <- <-. split; [lia|]. rewrite Nat.sub_diag. exact Hc.
      * split; [lia|]. replace (i - row)%nat with (S (i - S row)) by lia. exact H2.
    + intros [H1 H2]. destruct (Nat.eq_dec i row) as [->|].
      * left. rewrite Nat.sub_diag in H2. exists j. auto.
      * right. split; [lia|]. replace (i - row)%nat with (S (i - S row)) in H2 by lia. exact H2.
Qed.
Lemma nodup_app {A} (a b : list A) : NoDup a -> NoDup b -> (forall x, In x a -> ~ In x b) -> NoDup (a ++ b).
Proof.
  intros Ha Hb H. induction Ha as [|x a Hx Ha IH]; cbn; auto. constructor.
  - rewrite in_app_iff. intros [C|C]; [auto|]. apply (H x); [left; reflexivity|exact C].
  - apply IH. intros y Hy. apply H. right. exact Hy.
Qed.
Lemma triplets_nodup row nl : (forall i, (i < length nl)%nat -> NoDup (nth i nl [])) -> NoDup (triplets_from row nl).
Proof.
  revert row. induction nl as [|c t IH]; intros row H; cbn; [constructor|]. apply nodup_app.
  - apply Injective_map_NoDup; [intros a b E; congruence|]. apply (H 0%nat). cbn. lia.
  - apply IH. intros i Hi. apply (H (S i)). cbn. lia.
  - intros [i j] Ha Hb. apply in_map_iff in Ha as [c' [E _]]. apply triplets_in in Hb as [Hb _]. injection E as <- <-. lia.
Qed.
Lemma coo_map (f : nat * nat -> R) ps i j : NoDup ps ->
  (In (i, j) ps -> coo_entry (map (fun p => (f p, fst p, snd p)) ps) i j = f (i, j)) /\
  (~ In (i, j) ps -> coo_entry (map (fun p => (f p, fst p, snd p)) ps) i j = 0).
Proof.
  induction ps as [|[a b] ps IH]; intros N; cbn [map coo_entry fst snd]; [split; [intros []|auto]|].
  inversion N as [|? ? Nx Np]; subst. destruct (IH Np) as [I1 I2]. split.
  - intros [E|Hin].
    + injection E as -> ->. rewrite !Nat.eqb_refl. cbn [andb]. rewrite I2 by exact Nx. ring.
    + rewrite I1 by exact Hin. destruct (Nat.eqb_spec a i) as [->|]; cbn [andb]; [|ring].
      destruct (Nat.eqb_spec b j) as [->|]; [contradiction|ring].
  - intros Hn. rewrite I2 by (intros C; apply Hn; right; exact C).
    destruct (Nat.eqb_spec a i) as [->|]; cbn [andb]; [|ring].
    destruct (Nat.eqb_spec b j) as [->|]; [exfalso; apply Hn; left; reflexivity|ring].
Qed.
Lemma coo_drop_zero ts i j :
  coo_entry (filter (fun t : triplet => if Req_EM_T (fst (fst t)) 0 then false else true) ts) i j = coo_entry ts i j.
Proof.
  induction ts as [|[[v r] c] t IH]; [reflexivity|]. cbn [filter fst]. destruct (Req_EM_T v 0) as [->|].
  - cbn [coo_entry]. rewrite IH. destruct (_ && _); ring.
  - cbn [coo_entry]. rewrite IH. reflexivity.
Qed.

(** ** The bounding boxes *)
Lemma fold_min_le l i a : fold_left (fun m (b : point) => Rmin m (b i)) l a <= a /\
  forall b, In b l -> fold_left (fun m (b : point) => Rmin m (b i)) l a <= b i.
Proof.
  revert a. induction l as [|c l IH]; intros a; cbn; [split; [lra|tauto]|].
  destruct (IH (Rmin a (c i))) as [I1 I2]. pose proof (Rmin_l a (c i)). pose proof (Rmin_r a (c i)).
  split; [lra|]. intros b [<-|Hb]; [lra|]. apply I2, Hb.
Qed.
Lemma fold_max_ge l i a : a <= fold_left (fun m (b : point) => Rmax m (b i)) l a /\
  forall b, In b l -> b i <= fold_left (fun m (b : point) => Rmax m (b i)) l a.
Proof.
  revert a. induction l as [|c l IH]; intros a; cbn; [split; [lra|tauto]|].
  destruct (IH (Rmax a (c i))) as [I1 I2]. pose proof (Rmax_l a (c i)). pose proof (Rmax_r a (c i)).
  split; [lra|]. intros b [<-|Hb]; [lra|]. apply I2, Hb.
Qed.
Lemma colmin_le z i p : In p z -> colmin z i <= p i.
Proof. destruct z as [|a t]; [intros []|]. cbn. destruct (fold_min_le t i (a i)) as [H1 H2]. intros [<-|H]; auto. Qed.
Lemma colmax_ge z i p : In p z -> p i <= colmax z i.
Proof. destruct z as [|a t]; [intros []|]. cbn. destruct (fold_max_ge t i (a i)) as [H1 H2]. intros [<-|H]; auto. Qed.
Lemma block_distance_le D z1 z2 p q : In p z1 -> In q z2 -> block_distance D z1 z2 <= euclid D p q.
Proof.
  intros Hp Hq. unfold block_distance, euclid. apply sqrt_le_1_alt. apply rsum_le. intros i _.
  pose proof (colmin_le z1 i p Hp). pose proof (colmax_ge z1 i p Hp). pose proof (colmin_le z2 i q Hq). pose proof (colmax_ge z2 i q Hq).
  set (m := Rmax 0 (Rmax (colmin z1 i - colmax z2 i) (colmin z2 i - colmax z1 i))).
  assert (0 <= m) by apply Rmax_l.
  assert (m <= Rabs (p i - q i)).
  { unfold m. apply Rmax_lub; [apply Rabs_pos|]. apply Rmax_lub; unfold Rabs; destruct (Rcase_abs _); lra. }
  rewrite <- (pow2_abs (p i - q i)). apply pow_incr. lra.
Qed.

(** ** The sparse block *)
Definition scaled (D : nat) (hps : nat -> R) (x : point) : point := fun i => x i / hps (S i).
Lemma dense_scaled D x y hps : wendland_dense D x y hps = wendland_poly (clip1 (euclid D (scaled D hps x) (scaled D hps y))) (hps O).
Proof.
  unfold wendland_dense, euclid, scaled. do 3 f_equal. apply rsum_ext. intros i _. f_equal. unfold Rdiv. ring.
Qed.
Lemma dense_outside D x y hps : 1 <= euclid D (scaled D hps x) (scaled D hps y) -> wendland_dense D x y hps = 0.
Proof. intros H. rewrite dense_scaled, clip1_ge by exact H. apply wendland_poly_1. Qed.
Lemma whiten_exact D xs hps : exists f, whiten D xs (S D) hps = Ok (D, map f xs) /\ forall x i, (i < D)%nat -> f x i = scaled D hps x i.
Proof.
  unfold whiten. cbn [Nat.pred]. rewrite Nat.eqb_refl. cbn [orb].
  replace (if (D =? 1)%nat then D else D) with D by (destruct (Nat.eqb D 1); reflexivity). eexists. split; [reflexivity|].
  intros x i Hi. unfold scaled. cbv beta. destruct (Nat.eqb_spec D 1) as [->|]; [|reflexivity]. replace i with O by lia. reflexivity.
Qed.
Lemma euclid_ext D p p' q q' : (forall i, (i < D)%nat -> p i = p' i) -> (forall i, (i < D)%nat -> q i = q' i) -> euclid D p q = euclid D p' q'.
Proof. intros H1 H2. unfold euclid. f_equal. apply rsum_ext. intros i Hi. rewrite H1, H2; auto. Qed.
Lemma dist_sq_euclid D z1 z2 i j : dist_sq D z1 z2 (i, j) = rsum (fun k => (nthp z1 i k - nthp z2 j k) ^ 2) D.
Proof. unfold dist_sq. apply rsum_ext. intros k _. cbn. ring. Qed.
Lemma sqrt_le_one a : 0 <= a -> (sqrt a <= 1 <-> a <= 1).
Proof.
  intros H. split; intros K.
  - rewrite <- sqrt_1 in K. apply sqrt_le_0 in K; lra.
  - rewrite <- sqrt_1. apply sqrt_le_1_alt, K.
Qed.
Lemma nthp_map (f : point -> point) xs i : (i < length xs)%nat -> nthp (map f xs) i = f (nthp xs i).
Proof. intros H. unfold nthp. rewrite (nth_indep _ _ (f (fun _ => 0))) by (rewrite map_length; exact H). apply map_nth. Qed.

Section Block.
Variable query : nat -> list point -> list point -> list (list nat).
Hypothesis search : ball_search query.
Lemma sparse_block_l D x1 x2 hps :
  exists ts, support_triplets query D x1 x2 (S D) hps = Ok ts /\
    (forall i j, (i < length x1)%nat -> (j < length x2)%nat ->
       coo_entry ts i j = wendland_dense D (nth i x1 (fun _ => 0)) (nth j x2 (fun _ => 0)) hps) /\
    (forall v i j, In (v, i, j) ts -> v <> 0 /\ (i < length x1)%nat /\ (j < length x2)%nat).
Proof.
  unfold support_triplets.
  destruct (Nat.eqb_spec (length x1) 0) as [E1|E1]; [exists []; split; [reflexivity|]; split; [intros; lia|intros ? ? ? []]|].
  destruct (Nat.eqb_spec (length x2) 0) as [E2|E2]; [exists []; split; [reflexivity|]; split; [intros; lia|intros ? ? ? []]|].
  cbn [orb]. destruct (whiten_exact D x1 hps) as [f1 [W1 F1]]. destruct (whiten_exact D x2 hps) as [f2 [W2 F2]].
  rewrite W1, W2. set (z1 := map f1 x1). set (z2 := map f2 x2).
  assert (DE : forall i j, (i < length x1)%nat -> (j < length x2)%nat ->
     euclid D (nthp z1 i) (nthp z2 j) = euclid D (scaled D hps (nth i x1 (fun _ => 0))) (scaled D hps (nth j x2 (fun _ => 0)))).
  { intros i j Hi Hj. unfold z1, z2. rewrite !nthp_map by assumption. apply euclid_ext; intros k Hk; [apply F1, Hk|apply F2, Hk]. }
  assert (L1 : length z1 = length x1) by apply map_length. assert (L2 : length z2 = length x2) by apply map_length.
  destruct (Rlt_dec 1 (block_distance D z1 z2)) as [B|B].
  - exists []. split; [reflexivity|]. split; [|intros ? ? ? []]. intros i j Hi Hj. cbn. symmetry. apply dense_outside.
    rewrite <- DE by assumption.
    pose proof (block_distance_le D z1 z2 (nthp z1 i) (nthp z2 j)) as K.
    assert (In (nthp z1 i) z1) by (apply nth_In; lia). assert (In (nthp z2 j) z2) by (apply nth_In; lia).
    specialize (K H H0). lra.
  - eexists. split; [reflexivity|].
    destruct (search D z1 z2) as [Q0 Q1]. pose proof (eq_trans Q0 L1) as Q2. change (nat -> R) with point in *.
    set (rc := triplets_from 0 (query D z1 z2)).
    set (inside := filter (fun p => if Rle_dec (dist_sq D z1 z2 p) 1 then true else false) rc).
    assert (RC : forall i j, In (i, j) rc <-> (i < length x1)%nat /\ (j < length x2)%nat /\ euclid D (nthp z1 i) (nthp z2 j) <= 1).
    { intros i j. unfold rc. rewrite triplets_in, Q2, Nat.sub_0_r. split.
      - intros [Hi Hj]. destruct (Q1 i ltac:(lia)) as [_ Q]. apply Q in Hj. rewrite L2 in Hj. unfold nthp. intuition lia.
      - intros [Hi [Hj He]]. split; [lia|]. destruct (Q1 i ltac:(lia)) as [_ Q]. apply Q. rewrite L2. auto. }
    assert (INS : forall i j, In (i, j) inside <-> (i < length x1)%nat /\ (j < length x2)%nat /\ euclid D (nthp z1 i) (nthp z2 j) <= 1).
    { intros i j. unfold inside. rewrite filter_In, RC. split; [tauto|]. intros H. split; [exact H|].
      destruct (Rle_dec (dist_sq D z1 z2 (i, j)) 1) as [|N]; [reflexivity|]. exfalso. apply N.
      destruct H as [_ [_ H]]. unfold euclid in H. rewrite <- dist_sq_euclid in H. refine (proj1 (sqrt_le_one _ _) H).
      rewrite dist_sq_euclid. apply rsum_nonneg. intros; apply pow2_ge_0. }
    assert (ND : NoDup inside).
    { unfold inside. apply NoDup_filter, triplets_nodup. rewrite Q0. intros i Hi. apply (Q1 i Hi). }
    split.
    + intros i j Hi Hj. rewrite coo_drop_zero.
      destruct (coo_map (fun p => wendland_poly (sqrt (Rmin (dist_sq D z1 z2 p) 1)) (hps O)) inside i j ND) as [C1 C2].
      destruct (Rle_dec (euclid D (nthp z1 i) (nthp z2 j)) 1) as [H|H].
      * rewrite C1 by (apply INS; auto). rewrite dense_scaled, <- DE by assumption. rewrite clip1_le by exact H.
        unfold euclid in *. rewrite <- dist_sq_euclid in *. f_equal. f_equal. apply Rmin_left. apply sqrt_le_one; [|exact H].
        rewrite dist_sq_euclid. apply rsum_nonneg. intros; apply pow2_ge_0.
      * rewrite C2 by (rewrite INS; tauto). symmetry. apply dense_outside. rewrite <- DE by assumption. lra.
    + intros v i j Hin. apply filter_In in Hin as [Hin Hv]. cbn in Hv. destruct (Req_EM_T v 0); [discriminate|].
      apply in_map_iff in Hin as [[a b] [E Hin]]. cbn in E. injection E as <- <- <-. apply INS in Hin. tauto.
Qed.
End Block.

(** ** The corners of a cube *)
Fixpoint bools (n : nat) : list (list bool) :=
  match n with O => [[]] | S m => map (cons false) (bools m) ++ map (cons true) (bools m) end.
Fixpoint sgn (b : list bool) : R := match b with [] => 1 | true :: t => - sgn t | false :: t => sgn t end.
Fixpoint ham (a b : list bool) : nat :=
  match a, b with x :: s, y :: t => (if Bool.eqb x y then 0 else 1) + ham s t | _, _ => 0 end.
Definition corner (a : R) (b : list bool) : point := fun i => if nth i b false then a else 0.
Definition cube (a : R) (n : nat) : list (R * point) := map (fun b => (sgn b, corner a b)) (bools n).
Lemma bools_len n b : In b (bools n) -> length b = n.
Proof.
  revert b. induction n; cbn; [intros b [<-|[]]; reflexivity|]. intros b H. apply in_app_iff in H as [H|H];
  apply in_map_iff in H as [c [<- H]]; cbn; f_equal; auto.
Qed.
Lemma rsum_first f n : rsum f (S n) = f O + rsum (fun i => f (S i)) n.
Proof. induction n; cbn in *; [lra|]. rewrite IHn. lra. Qed.
Lemma corner_dist a n b c : length b = n -> length c = n ->
  rsum (fun i => (corner a b i - corner a c i) ^ 2) n = a ^ 2 * INR (ham b c).
Proof.
  revert b c. induction n; intros b c Hb Hc; destruct b as [|x b], c as [|y c]; try discriminate; [cbn; ring|].
  rewrite rsum_first. cbn in Hb, Hc. rewrite (rsum_ext _ (fun i => (corner a b i - corner a c i) ^ 2)) by (intros; reflexivity).
  rewrite IHn by lia. cbn [ham]. rewrite plus_INR. unfold corner. cbn [nth]. destruct x, y; cbn; ring.
Qed.
Definition T (n : nat) (f : nat -> R) : R :=
  sum_list (map (fun b => sum_list (map (fun c => sgn b * sgn c * f (ham b c)) (bools n))) (bools n)).
Lemma sl_ext_in {A} (f h : A -> R) l : (forall a, In a l -> f a = h a) -> sum_list (map f l) = sum_list (map h l).
Proof. intros H. f_equal. apply map_ext_in, H. Qed.
Lemma T_step n f : T (S n) f = 2 * (T n f - T n (fun k => f (S k))).
Proof.
  unfold T. cbn [bools]. rewrite map_app, sl_app, !map_map.
  assert (A : sum_list (map (fun x => sum_list (map (fun c => sgn (false :: x) * sgn c * f (ham (false :: x) c)) (map (cons false) (bools n) ++ map (cons true) (bools n)))) (bools n)) = T n f - T n (fun k => f (S k))).
  { unfold T. unfold Rminus.
    replace (- sum_list (map (fun b => sum_list (map (fun c => sgn b * sgn c * f (S (ham b c))) (bools n))) (bools n)))
      with (-1 * sum_list (map (fun b => sum_list (map (fun c => sgn b * sgn c * f (S (ham b c))) (bools n))) (bools n))) by ring.
    rewrite <- sl_scal, <- sl_plus. apply sl_ext. intros b. rewrite map_app, sl_app, !map_map. f_equal.
    rewrite <- sl_scal. apply sl_ext. intros c. cbn. ring. }
  assert (B : sum_list (map (fun x => sum_list (map (fun c => sgn (true :: x) * sgn c * f (ham (true :: x) c)) (map (cons false) (bools n) ++ map (cons true) (bools n)))) (bools n)) = T n f - T n (fun k => f (S k))).
  { unfold T. unfold Rminus.
    replace (- sum_list (map (fun b => sum_list (map (fun c => sgn b * sgn c * f (S (ham b c))) (bools n))) (bools n)))
      with (-1 * sum_list (map (fun b => sum_list (map (fun c => sgn b * sgn c * f (S (ham b c))) (bools n))) (bools n))) by ring.
    rewrite <- sl_scal, <- sl_plus. apply sl_ext. intros b. rewrite map_app, sl_app, !map_map. rewrite Rplus_comm. f_equal.
    - apply sl_ext. intros c. cbn. ring.
    - rewrite <- sl_scal. apply sl_ext. intros c. cbn. ring. }
  rewrite A, B. unfold T. ring.
Qed.
(** signed binomial coefficients *)
Fixpoint coef (n k : nat) : Z :=
  match n with O => if Nat.eqb k 0 then 1 else 0 | S m => coef m k - match k with O => 0 | S j => coef m j end end.
Lemma coef_over n k : (n < k)%nat -> coef n k = 0%Z.
Proof.
  revert k. induction n; intros k H; cbn; [destruct (Nat.eqb_spec k 0); [lia|reflexivity]|].
  rewrite IHn by lia. destruct k; [lia|]. rewrite IHn by lia. reflexivity.
Qed.
Lemma T_coef n f : T n f = 2 ^ n * rsum (fun k => IZR (coef n k) * f k) (S n).
Proof.
  revert f. induction n; intros f.
  - unfold T. cbn. ring.
  - rewrite T_step, !IHn. cbn [pow]. rewrite (Rmult_assoc 2 (2 ^ n)). f_equal. rewrite <- Rmult_minus_distr_l. f_equal.
    rewrite (rsum_first (fun k => IZR (coef (S n) k) * f k)).
    rewrite (rsum_ext (fun i => IZR (coef (S n) (S i)) * f (S i)) (fun i => IZR (coef n (S i)) * f (S i) + - 1 * (IZR (coef n i) * f (S i)))).
    2:{ intros i _. cbn [coef]. rewrite minus_IZR. ring. }
    rewrite rsum_plus, rsum_scal. cbn [coef]. rewrite Z.sub_0_r.
    assert (E : rsum (fun k => IZR (coef n k) * f k) (S n) = IZR (coef n O) * f O + rsum (fun i => IZR (coef n (S i)) * f (S i)) (S n)).
    { rewrite <- (rsum_first (fun k => IZR (coef n k) * f k) (S n)). cbn [rsum]. rewrite (coef_over n (S n)) by lia. lra. }
    rewrite E. lra.
Qed.
Lemma cube_form a n (k : point -> point -> R) (f : nat -> R) :
  (forall b c, length b = n -> length c = n -> k (corner a b) (corner a c) = f (ham b c)) ->
  quad_form k (cube a n) = 2 ^ n * rsum (fun j => IZR (coef n j) * f j) (S n).
Proof.
  intros H. rewrite <- T_coef. unfold quad_form, cube, T. rewrite map_map. apply sl_ext_in. intros b Hb.
  rewrite map_map. apply sl_ext_in. intros c Hc. cbn. rewrite H by (apply bools_len; assumption). reflexivity.
Qed.
Lemma wend_expand d : (1 - d) ^ 8 * (32 * d ^ 3 + 25 * d ^ 2 + 8 * d + 1) =
  1 - 11 * (d ^ 2) + 66 * (d ^ 2) ^ 2 - 462 * (d ^ 2) ^ 3 - 1155 * (d ^ 2) ^ 4 - 231 * (d ^ 2) ^ 5
  + d * (1056 * (d ^ 2) ^ 3 + 704 * (d ^ 2) ^ 4 + 32 * (d ^ 2) ^ 5).
Proof. ring. Qed.
Definition cube_val (j : nat) : R := wendland_poly (clip1 (sqrt ((19 / 50) ^ 2 * INR j))) 1.
Lemma cube_kernel n b c : length b = n -> length c = n ->
  wendland_dense n (corner (19 / 50) b) (corner (19 / 50) c) (fun _ => 1) = cube_val (ham b c).
Proof.
  intros Hb Hc. unfold wendland_dense, cube_val. do 3 f_equal. rewrite <- (corner_dist (19 / 50) n b c Hb Hc).
  apply rsum_ext. intros i _. unfold Rdiv. rewrite Rinv_1, Rmult_1_r. reflexivity.
Qed.
Lemma cube_val_far j : (7 <= j)%nat -> cube_val j = 0.
Proof.
  intros H. unfold cube_val. rewrite clip1_ge; [apply wendland_poly_1|]. rewrite <- sqrt_1. apply sqrt_le_1_alt.
  apply le_INR in H. replace (INR 7) with 7 in H by (cbn; ring). lra.
Qed.
Lemma cube_val_near j e : (j <= 6)%nat -> e = 361 / 2500 * INR j ->
  cube_val j = 1 - 11 * e + 66 * e ^ 2 - 462 * e ^ 3 - 1155 * e ^ 4 - 231 * e ^ 5
               + 19 / 50 * sqrt (INR j) * (1056 * e ^ 3 + 704 * e ^ 4 + 32 * e ^ 5).
Proof.
  intros H ->. unfold cube_val. apply le_INR in H. replace (INR 6) with 6 in H by (cbn; ring). pose proof (pos_INR j) as P.
  rewrite clip1_le. 2:{ rewrite <- sqrt_1. apply sqrt_le_1_alt. lra. }
  assert (E : sqrt ((19 / 50) ^ 2 * INR j) = 19 / 50 * sqrt (INR j)).
  { rewrite sqrt_mult_alt by lra. rewrite sqrt_pow2 by lra. reflexivity. }
  rewrite E. unfold wendland_poly. rewrite Rmult_1_l, wend_expand.
  assert (Q : (19 / 50 * sqrt (INR j)) ^ 2 = 361 / 2500 * INR j).
  { rewrite Rpow_mult_distr. rewrite <- Rsqr_pow2 with (x := sqrt (INR j)). rewrite Rsqr_sqrt by exact P. field. }
  rewrite Q. ring.
Qed.
Lemma sqrt_between a lo hi : 0 <= lo -> 0 <= hi -> lo * lo <= a <= hi * hi -> lo <= sqrt a <= hi.
Proof.
  intros L H B. split.
  - rewrite <- (sqrt_square lo L). apply sqrt_le_1_alt, B.
  - rewrite <- (sqrt_square hi H). apply sqrt_le_1_alt, B.
Qed.
Lemma cube_negative : rsum (fun j => IZR (coef 21 j) * cube_val j) 22 < 0.
Proof.
  replace (rsum (fun j => IZR (coef 21 j) * cube_val j) 22) with (rsum (fun j => IZR (coef 21 j) * cube_val j) 7).
  2:{ cbn [rsum]. rewrite (cube_val_far 7), (cube_val_far 8), (cube_val_far 9), (cube_val_far 10), (cube_val_far 11), (cube_val_far 12), (cube_val_far 13), (cube_val_far 14), (cube_val_far 15), (cube_val_far 16), (cube_val_far 17), (cube_val_far 18), (cube_val_far 19), (cube_val_far 20), (cube_val_far 21) by lia. rewrite !Rmult_0_r, !Rplus_0_r. reflexivity. }
  assert (C0 : coef 21 0 = 1%Z) by (vm_compute; reflexivity).
  assert (C1 : coef 21 1 = (-21)%Z) by (vm_compute; reflexivity).
  assert (C2 : coef 21 2 = 210%Z) by (vm_compute; reflexivity).
  assert (C3 : coef 21 3 = (-1330)%Z) by (vm_compute; reflexivity).
  assert (C4 : coef 21 4 = 5985%Z) by (vm_compute; reflexivity).
  assert (C5 : coef 21 5 = (-20349)%Z) by (vm_compute; reflexivity).
  assert (C6 : coef 21 6 = 54264%Z) by (vm_compute; reflexivity).
  cbn [rsum]. rewrite C0, C1, C2, C3, C4, C5, C6.
  rewrite (cube_val_near 0 0), (cube_val_near 1 (361 / 2500)), (cube_val_near 2 (722 / 2500)), (cube_val_near 3 (1083 / 2500)),
    (cube_val_near 4 (1444 / 2500)), (cube_val_near 5 (1805 / 2500)), (cube_val_near 6 (2166 / 2500)) by (try lia; cbn; field).
  replace (INR 0) with 0 by reflexivity. replace (INR 1) with 1 by reflexivity. replace (INR 2) with 2 by (cbn; ring).
  replace (INR 3) with 3 by (cbn; ring). replace (INR 4) with (2 * 2) by (cbn; ring). replace (INR 5) with 5 by (cbn; ring).
  replace (INR 6) with 6 by (cbn; ring). rewrite sqrt_0, sqrt_1, sqrt_square by lra.
  pose proof (sqrt_between 2 (14142135623730950 / 10000000000000000) (14142135623730951 / 10000000000000000) ltac:(lra) ltac:(lra) ltac:(lra)).
  pose proof (sqrt_between 3 (17320508075688772 / 10000000000000000) (17320508075688773 / 10000000000000000) ltac:(lra) ltac:(lra) ltac:(lra)).
  pose proof (sqrt_between 5 (22360679774997896 / 10000000000000000) (22360679774997898 / 10000000000000000) ltac:(lra) ltac:(lra) ltac:(lra)).
  pose proof (sqrt_between 6 (24494897427831780 / 10000000000000000) (24494897427831781 / 10000000000000000) ltac:(lra) ltac:(lra) ltac:(lra)).
  lra.
Qed.
Lemma rsum_pad f n D : (n <= D)%nat -> (forall i, (n <= i < D)%nat -> f i = 0) -> rsum f D = rsum f n.
Proof.
  intros H Z. induction D; [replace n with O by lia; reflexivity|]. destruct (Nat.eq_dec n (S D)) as [->|]; [reflexivity|].
  cbn. rewrite IHD, Z by (intros; try apply Z; lia). ring.
Qed.
Definition stretched (hps : nat -> R) (p : R * point) : R * point := (fst p, fun i => snd p i * hps (S i)).
Lemma stretched_kernel D hps b c : (21 <= D)%nat -> (forall i, (i < D)%nat -> hps (S i) <> 0) -> length b = 21%nat -> length c = 21%nat ->
  wendland_dense D (fun i => corner (19 / 50) b i * hps (S i)) (fun i => corner (19 / 50) c i * hps (S i)) hps = hps O * cube_val (ham b c).
Proof.
  intros HD Hh Hb Hc. unfold wendland_dense, cube_val. rewrite <- (corner_dist (19 / 50) 21 b c Hb Hc).
  rewrite (rsum_pad _ 21 D HD).
  - unfold wendland_poly. rewrite (rsum_ext _ (fun i => (corner (19 / 50) b i - corner (19 / 50) c i) ^ 2)); [ring|].
    intros i Hi. f_equal. field. apply Hh. lia.
  - intros i Hi. unfold corner. rewrite !nth_overflow by lia. unfold Rdiv. ring.
Qed.
Lemma wendland_invalid D hps : (21 <= D)%nat -> 0 < hps O -> (forall i, (i < D)%nat -> hps (S i) <> 0) ->
  quad_form (fun x y => wendland_dense D x y hps) (map (stretched hps) (cube (19 / 50) 21)) < 0.
Proof.
  intros HD H0 Hh.
  assert (E : quad_form (fun x y => wendland_dense D x y hps) (map (stretched hps) (cube (19 / 50) 21))
              = hps O * (2 ^ 21 * rsum (fun j => IZR (coef 21 j) * cube_val j) 22)).
  { rewrite <- T_coef. unfold T, quad_form, cube. rewrite !map_map. rewrite <- sl_scal. apply sl_ext_in. intros b Hb.
    rewrite map_map. rewrite <- sl_scal. apply sl_ext_in. intros c Hc. unfold stretched. cbn [fst snd].
    rewrite stretched_kernel by (try apply bools_len; auto). ring. }
  rewrite E. pose proof cube_negative. assert (0 < 2 ^ 21) by (apply pow_lt; lra). nra.
Qed.
