From Coq Require Import Reals Lra Lia.
From Verif Require Import Model.Prelude Model.GGMPDensity Proofs.GGMPDensityP Model.Histogram Props.GGMPDensityProps.
Local Open Scope R_scope.

Lemma smallest_le : forall l a, smallest a l <= a /\ forall x, In x l -> smallest a l <= x.
Proof.
  induction l as [|z l IH]; intros a; cbn; [split; [lra|intros x []]|]. destruct (IH (Rmin a z)) as [A B].
  pose proof (Rmin_l a z). pose proof (Rmin_r a z). split; [lra|]. intros x [->|Hx]; [lra|apply B, Hx].
Qed.
Lemma largest_ge : forall l a, a <= largest a l /\ forall x, In x l -> x <= largest a l.
Proof.
  induction l as [|z l IH]; intros a; cbn; [split; [lra|intros x []]|]. destruct (IH (Rmax a z)) as [A B].
  pose proof (Rmax_l a z). pose proof (Rmax_r a z). split; [lra|]. intros x [->|Hx]; [lra|apply B, Hx].
Qed.
Lemma outer_spec : forall y, fst (outer y) < snd (outer y) /\ forall x, In x y -> fst (outer y) <= x <= snd (outer y).
Proof.
  intros [|a r]; cbn [outer]; [cbn; split; [lra|intros x []]|]. cbv zeta. destruct (smallest_le r a) as [A B]. destruct (largest_ge r a) as [C D].
  destruct (Req_EM_T _ _) as [E|E]; cbn [fst snd].
  - split; [lra|]. intros x [->|H]; [lra|]. specialize (B x H). specialize (D x H). lra.
  - split; [lra|]. intros x [->|H]; [lra|]. specialize (B x H). specialize (D x H). lra.
Qed.
Lemma width_pos : forall b y, (1 <= b)%nat -> 0 < width b y.
Proof.
  intros b y H. unfold width. apply Rdiv_lt_0_compat; [pose proof (proj1 (outer_spec y)); lra|]. apply lt_0_INR. lia.
Qed.

(** each sample is in one bin *)
Definition ge (b : nat) (y : list R) (i : nat) (x : R) : R := if Rle_dec (edge b y i) x then 1 else 0.
Lemma edge_mono : forall b y i, (1 <= b)%nat -> edge b y i <= edge b y (i + 1).
Proof. intros b y i H. unfold edge. rewrite plus_INR. cbn [INR]. pose proof (width_pos b y H). nra. Qed.
Definition one (c : bool) : R := if c then 1 else 0.
Lemma in_bin_ge : forall b y i x, (1 <= b)%nat -> one (in_bin b y i x) = ge b y i x - (if (i =? b - 1)%nat then 0 else ge b y (i + 1) x).
Proof.
  intros b y i x H. unfold in_bin, ge. pose proof (edge_mono b y i H).
  destruct (Rle_dec (edge b y i) x); destruct (i =? b - 1)%nat; try destruct (Rlt_dec x (edge b y (i + 1))); try destruct (Rle_dec (edge b y (i + 1)) x); cbn; lra.
Qed.
Lemma tele : forall b y x m j, (1 <= b)%nat -> (j + m = b)%nat -> (1 <= m)%nat -> lsum (map (fun i => one (in_bin b y i x)) (seq j m)) = ge b y j x.
Proof.
  induction m as [|m IH]; intros j Hb Hj Hm; [lia|]. cbn [seq map lsum]. rewrite in_bin_ge by exact Hb. destruct m as [|m].
  - cbn [seq map lsum]. replace (j =? b - 1)%nat with true by (symmetry; apply Nat.eqb_eq; lia). lra.
  - rewrite (IH (S j)) by lia. replace (j =? b - 1)%nat with false by (symmetry; apply Nat.eqb_neq; lia). replace (j + 1)%nat with (S j) by lia. lra.
Qed.
Lemma count_sum : forall b y i l, INR (length (filter (in_bin b y i) l)) = lsum (map (fun x => one (in_bin b y i x)) l).
Proof.
  induction l as [|x l IH]; [reflexivity|]. cbn [filter map lsum]. destruct (in_bin b y i x); cbn [one]; [cbn [length]; rewrite S_INR|]; rewrite IH; lra.
Qed.
Lemma lsum_swap : forall (f : nat -> R -> R) l m, lsum (map (fun i => lsum (map (f i) l)) m) = lsum (map (fun x => lsum (map (fun i => f i x) m)) l).
Proof.
  intros f l m. induction l as [|x l IH]; cbn; [induction m as [|i m IH]; cbn; [reflexivity|rewrite IH; lra]|]. rewrite <- IH. rewrite <- lsum_plus. reflexivity.
Qed.
Lemma lsum_const : forall (A : Type) (l : list A) c, lsum (map (fun _ => c) l) = INR (length l) * c.
Proof. induction l as [|x l IH]; intros c; [cbn; lra|]. cbn [map lsum length]. rewrite S_INR, IH. lra. Qed.
Lemma counts_total : forall b y, (1 <= b)%nat -> lsum (map (fun i => INR (count b y i)) (seq 0 b)) = INR (length y).
Proof.
  intros b y H. rewrite (lsum_ext _ (fun i => lsum (map (fun x => one (in_bin b y i x)) y))) by (intros; apply count_sum).
  rewrite (lsum_swap (fun i x => one (in_bin b y i x))). rewrite (lsum_ext _ (fun _ => 1)); [rewrite lsum_const; lra|].
  intros x Hx. rewrite tele by lia. unfold ge, edge. cbn [INR]. destruct (outer_spec y) as [_ O]. specialize (O x Hx). destruct (Rle_dec _ x); lra.
Qed.
Lemma hist_total : forall b y, (1 <= b)%nat -> y <> [] -> lsum (map (fun i => hist b y i * width b y) (seq 0 b)) = 1.
Proof.
  intros b y H Hy. assert (L : 0 < INR (length y)) by (apply lt_0_INR; destruct y; [congruence|cbn; lia]). pose proof (width_pos b y H) as W.
  rewrite (lsum_ext _ (fun i => / INR (length y) * INR (count b y i))) by (intros; unfold hist; field; lra).
  rewrite lsum_scal, counts_total by exact H. field. lra.
Qed.
Lemma hist_nonneg : forall b y i, (1 <= b)%nat -> y <> [] -> 0 <= hist b y i.
Proof.
  intros b y i H Hy. assert (L : 0 < INR (length y)) by (apply lt_0_INR; destruct y; [congruence|cbn; lia]). pose proof (width_pos b y H) as W.
  unfold hist. apply Rmult_le_pos; [apply pos_INR|]. left. apply Rinv_0_lt_compat. nra.
Qed.

(** spacing of the centers *)
Definition center (b : nat) (y : list R) (i : nat) : R := / 2 * (edge b y i + edge b y (i + 1)).
Lemma center_diff : forall b y i j, center b y i - center b y j = (INR i - INR j) * width b y.
Proof. intros. unfold center, edge. rewrite !plus_INR. cbn [INR]. lra. Qed.
Lemma gradient_centers : forall b y, (2 <= b)%nat -> gradient (map (center b y) (seq 0 b)) = Ok (map (fun _ => width b y) (seq 0 b)).
Proof.
  intros b y H. unfold gradient. rewrite map_length, seq_length. replace (b <? 2)%nat with false by (symmetry; apply Nat.ltb_ge; lia).
  f_equal. apply map_ext_in. intros i Hi. apply in_seq in Hi.
  assert (N : forall j, (j < b)%nat -> nth j (map (center b y) (seq 0 b)) 0 = center b y j).
  { intros j Hj. rewrite nth_indep with (d' := center b y 0%nat) by (rewrite map_length, seq_length; exact Hj). rewrite map_nth, seq_nth by exact Hj. reflexivity. }
  destruct (Nat.eqb_spec i 0); [rewrite !N, center_diff by lia; cbn; lra|].
  destruct (Nat.eqb_spec i (b - 1)); [rewrite !N, center_diff, !minus_INR by lia; cbn [INR]; lra|].
  rewrite !N, center_diff, minus_INR, plus_INR by lia. cbn [INR]. lra.
Qed.

(** the whole function *)
Lemma empirical_cases : forall floor b y, 0 < floor -> (2 <= b)%nat -> y <> [] ->
  exists z, 1 <= z <= 1 + floor * (INR b * width b y) /\
  z = lsum (map (fun i => Rmax (hist b y i) floor * width b y) (seq 0 b)) /\
  empirical_pdf floor b y = Ok (map (center b y) (seq 0 b), map (fun i => Rmax (hist b y i) floor / z) (seq 0 b)).
Proof.
  intros floor b y F Hb Hy. pose proof (width_pos b y ltac:(lia)) as W.
  set (f := map (fun i => Rmax (hist b y i) floor) (seq 0 b)).
  assert (M : lsum (map2 Rmult (map pos f) (map Rabs (map (fun _ => width b y) (seq 0 b)))) = lsum (map (fun i => Rmax (hist b y i) floor * width b y) (seq 0 b))).
  { unfold f. rewrite !map_map. generalize (seq 0 b) as l. induction l as [|i l IH]; [reflexivity|]. cbn [map map2 lsum]. rewrite IH. f_equal.
    rewrite Rabs_pos_eq by lra. unfold pos. rewrite (Rmax_left _ 0); [reflexivity|]. pose proof (Rmax_r (hist b y i) floor). lra. }
  assert (Z1 : 1 <= lsum (map (fun i => Rmax (hist b y i) floor * width b y) (seq 0 b))).
  { rewrite <- (hist_total b y ltac:(lia) Hy) at 1. apply lsum_le. intros i _. apply Rmult_le_compat_r; [lra|apply Rmax_l]. }
  assert (Z2 : lsum (map (fun i => Rmax (hist b y i) floor * width b y) (seq 0 b)) <= 1 + floor * (INR b * width b y)).
  { apply Rle_trans with (lsum (map (fun i => hist b y i * width b y + floor * width b y) (seq 0 b))).
    - apply lsum_le. intros i _. pose proof (hist_nonneg b y i ltac:(lia) Hy). unfold Rmax. destruct (Rle_dec _ _); nra.
    - rewrite lsum_plus, hist_total, lsum_const, seq_length by (assumption || lia). lra. }
  exists (lsum (map (fun i => Rmax (hist b y i) floor * width b y) (seq 0 b))). split; [split; assumption|]. split; [reflexivity|].
  unfold empirical_pdf. destruct y as [|a r]; [congruence|]. set (y := a :: r) in *.
  replace (map (fun i => Some (Rmax (hist b y i) floor)) (seq 0 b)) with (map Some f) by (unfold f; rewrite map_map; reflexivity).
  change (fun i : nat => / 2 * (edge b y i + edge b y (i + 1))) with (center b y).
  unfold normalize_pdf. rewrite !map_length. unfold f at 1. rewrite map_length, seq_length, Nat.eqb_refl. cbn [negb].
  rewrite gradient_centers by exact Hb.
  assert (A : all_some (map Some f) = Some f) by (clear; induction f as [|x f IH]; [reflexivity|cbn; rewrite IH; reflexivity]).
  rewrite A. cbv zeta. rewrite M. destruct (Rle_dec _ 0) as [N|N]; [lra|]. f_equal. f_equal. unfold f. rewrite map_map. apply map_ext. intros i.
  unfold pos. rewrite (Rmax_left _ 0); [reflexivity|]. pose proof (Rmax_r (hist b y i) floor). lra.
Qed.

(** ** change of units *)
Lemma smallest_scale : forall c l a, 0 < c -> smallest (c * a) (map (Rmult c) l) = c * smallest a l.
Proof.
  intros c l a C. revert a. induction l as [|x l IH]; intros a; [reflexivity|]. cbn. rewrite <- IH. f_equal.
  unfold Rmin. destruct (Rle_dec (c * a) (c * x)), (Rle_dec a x); nra.
Qed.
Lemma largest_scale : forall c l a, 0 < c -> largest (c * a) (map (Rmult c) l) = c * largest a l.
Proof.
  intros c l a C. revert a. induction l as [|x l IH]; intros a; [reflexivity|]. cbn. rewrite <- IH. f_equal.
  unfold Rmax. destruct (Rle_dec (c * a) (c * x)), (Rle_dec a x); nra.
Qed.
Definition spread (y : list R) : Prop := exists u v, In u y /\ In v y /\ u <> v.
Lemma spread_outer : forall a r, spread (a :: r) -> smallest a r <> largest a r.
Proof.
  intros a r (u & v & Hu & Hv & N) E. destruct (smallest_le r a) as [A B]. destruct (largest_ge r a) as [C D]. apply N.
  assert (Q : forall x, In x (a :: r) -> x = smallest a r) by (intros x [<-|H]; [lra|specialize (B x H); specialize (D x H); lra]).
  rewrite (Q u Hu), (Q v Hv). reflexivity.
Qed.
Lemma outer_scale : forall c y, 0 < c -> spread y -> outer (map (Rmult c) y) = (c * fst (outer y), c * snd (outer y)).
Proof.
  intros c [|a r] C S; [destruct S as (u & v & [] & _)|]. cbn [map outer]. cbv zeta. rewrite smallest_scale, largest_scale by exact C.
  pose proof (spread_outer a r S). destruct (Req_EM_T (smallest a r) _) as [E|E]; [contradiction|]. destruct (Req_EM_T (c * smallest a r) _) as [E'|E'].
  - apply Rmult_eq_reg_l in E'; [contradiction|lra].
  - reflexivity.
Qed.
Lemma width_scale : forall c b y, 0 < c -> spread y -> width b (map (Rmult c) y) = c * width b y.
Proof. intros. unfold width. rewrite outer_scale by assumption. cbn [fst snd]. unfold Rdiv. rewrite <- Rmult_minus_distr_l. ring. Qed.
Lemma edge_scale : forall c b y i, 0 < c -> spread y -> edge b (map (Rmult c) y) i = c * edge b y i.
Proof. intros. unfold edge. rewrite width_scale, outer_scale by assumption. cbn [fst]. ring. Qed.
Lemma in_bin_scale : forall c b y i x, 0 < c -> spread y -> in_bin b (map (Rmult c) y) i (c * x) = in_bin b y i x.
Proof.
  intros c b y i x C S. unfold in_bin. rewrite !edge_scale by assumption.
  destruct (Rle_dec (c * edge b y i) (c * x)), (Rle_dec (edge b y i) x); try reflexivity; try (exfalso; nra).
  destruct (i =? b - 1)%nat; [reflexivity|]. destruct (Rlt_dec (c * x) (c * edge b y (i + 1))), (Rlt_dec x (edge b y (i + 1))); try reflexivity; exfalso; nra.
Qed.
Lemma count_scale : forall c b y i, 0 < c -> spread y -> count b (map (Rmult c) y) i = count b y i.
Proof.
  intros c b y i C S. unfold count. assert (G : forall l, length (filter (in_bin b (map (Rmult c) y) i) (map (Rmult c) l)) = length (filter (in_bin b y i) l)).
  { induction l as [|x l IH]; [reflexivity|]. cbn [map filter]. rewrite in_bin_scale by assumption. destruct (in_bin b y i x); cbn [length]; rewrite IH; reflexivity. }
  apply G.
Qed.
Lemma hist_scale : forall c b y i, (1 <= b)%nat -> 0 < c -> spread y -> hist b (map (Rmult c) y) i = hist b y i / c.
Proof.
  intros c b y i Hb C S. unfold hist. rewrite count_scale, width_scale, map_length by assumption. pose proof (width_pos b y Hb).
  assert (L : 0 < INR (length y)) by (apply lt_0_INR; destruct S as (u & v & H' & _); destruct y; [destruct H'|cbn; lia]). field. lra.
Qed.
Lemma count_le : forall b y i, (count b y i <= length y)%nat.
Proof. intros. unfold count. generalize y at 2 3 as l. induction l as [|x l IH]; cbn; [lia|]. destruct (in_bin b y i x); cbn; lia. Qed.
Lemma hist_le : forall b y i, (1 <= b)%nat -> y <> [] -> hist b y i <= / width b y.
Proof.
  intros b y i Hb Hy. pose proof (width_pos b y Hb). assert (L : 0 < INR (length y)) by (apply lt_0_INR; destruct y; [congruence|cbn; lia]).
  unfold hist. replace (/ width b y) with (INR (length y) / (INR (length y) * width b y)) by (field; lra).
  apply Rmult_le_compat_r; [left; apply Rinv_0_lt_compat; nra|]. apply le_INR, count_le.
Qed.
