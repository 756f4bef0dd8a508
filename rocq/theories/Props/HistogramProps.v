(** C176, C177: the density of samples. *)
From Coq Require Import Reals Lra Lia.
From Verif Require Import Model.Prelude Model.GGMPDensity Proofs.GGMPDensityP Model.Histogram Proofs.HistogramP.
Local Open Scope R_scope.

(** C176: for any samples and at least two bins the result is a density on the centers of the bins: as many values as bins, all positive,
    times the common spacing they sum to one.  Between it and the histogram are at most the floor and a factor near one. *)
Theorem empirical_pdf_density : forall floor b y, 0 < floor -> (2 <= b)%nat -> y <> [] ->
  exists d w, empirical_pdf floor b y = Ok (map (center b y) (seq 0 b), d) /\ length d = b /\ 0 < w /\
    (forall i, center b y (S i) - center b y i = w) /\ (forall v, In v d -> 0 < v) /\ lsum (map (fun v => v * w) d) = 1 /\
    (forall x, In x y -> center b y 0 - w / 2 <= x <= center b y (b - 1) + w / 2) /\
    (forall i, (i < b)%nat -> nth i d 0 <= INR (count b y i) / (INR (length y) * w) + floor /\
       INR (count b y i) / (INR (length y) * w) <= nth i d 0 * (1 + floor * (INR b * w))).
Proof.
  intros floor b y F Hb Hy. destruct (empirical_cases floor b y F Hb Hy) as (z & Z & EZ & E). pose proof (width_pos b y ltac:(lia)) as W.
  exists (map (fun i => Rmax (hist b y i) floor / z) (seq 0 b)), (width b y). split; [exact E|]. split; [rewrite map_length, seq_length; reflexivity|].
  split; [exact W|]. split; [intros i; rewrite center_diff, S_INR; lra|]. split.
  { intros v Hv. apply in_map_iff in Hv. destruct Hv as [i [<- _]]. apply Rdiv_lt_0_compat; [|lra]. pose proof (Rmax_r (hist b y i) floor). lra. }
  split.
  { rewrite map_map. rewrite (lsum_ext _ (fun i => / z * (Rmax (hist b y i) floor * width b y))) by (intros; field; lra).
    rewrite lsum_scal, <- EZ. field. lra. }
  split.
  { intros x Hx. destruct (outer_spec y) as [_ O]. specialize (O x Hx). unfold center, edge. rewrite !plus_INR, minus_INR by lia. cbn [INR].
    assert (B : INR b * width b y = snd (outer y) - fst (outer y)) by (unfold width; field; apply not_0_INR; lia). lra. }
  intros i Hi. fold (hist b y i).
  assert (N : nth i (map (fun i => Rmax (hist b y i) floor / z) (seq 0 b)) 0 = Rmax (hist b y i) floor / z).
  { rewrite nth_indep with (d' := Rmax (hist b y 0%nat) floor / z) by (rewrite map_length, seq_length; exact Hi).
    rewrite (map_nth (fun i => Rmax (hist b y i) floor / z)), seq_nth by exact Hi. reflexivity. }
  rewrite N. pose proof (hist_nonneg b y i ltac:(lia) Hy) as H0. pose proof (Rmax_l (hist b y i) floor) as M1. 
  assert (M2 : Rmax (hist b y i) floor <= hist b y i + floor) by (apply Rmax_lub; lra). split.
  - apply Rle_trans with (Rmax (hist b y i) floor); [|exact M2]. apply Rmult_le_reg_r with z; [lra|]. unfold Rdiv. rewrite Rmult_assoc, Rinv_l by lra. nra.
  - apply Rle_trans with (Rmax (hist b y i) floor / z * z); [unfold Rdiv; rewrite Rmult_assoc, Rinv_l by lra; lra|].
    apply Rmult_le_compat_l; [|lra]. apply Rmult_le_pos; [lra|]. left. apply Rinv_0_lt_compat. lra.
Qed.
Print Assumptions empirical_pdf_density.

(** C177: in other units the density should be the same function.  It is not: whatever the samples, in small enough units (large
    numbers) the result is the uniform density. *)
Theorem empirical_pdf_units_refuted : forall floor b y, 0 < floor -> (2 <= b)%nat -> spread y -> exists c0, 0 < c0 /\ forall c, c0 <= c ->
  empirical_pdf floor b (map (Rmult c) y) = Ok (map (fun i => c * center b y i) (seq 0 b), map (fun _ => / (INR b * (c * width b y))) (seq 0 b)).
Proof.
  intros floor b y F Hb S. pose proof (width_pos b y ltac:(lia)) as W. exists (/ (floor * width b y)).
  assert (P : 0 < floor * width b y) by nra. split; [apply Rinv_0_lt_compat, P|]. intros c Hc.
  assert (C : 0 < c) by (eapply Rlt_le_trans; [apply Rinv_0_lt_compat, P|exact Hc]).
  assert (Y : y <> []) by (destruct S as (u & v & H & _); intros ->; destruct H).
  assert (Y' : map (Rmult c) y <> []) by (destruct y; [congruence|discriminate]).
  destruct (empirical_cases floor b (map (Rmult c) y) F Hb Y') as (z & Z & EZ & E). rewrite E.
  assert (M : forall i, Rmax (hist b (map (Rmult c) y) i) floor = floor).
  { intros i. apply Rmax_right. eapply Rle_trans; [apply hist_le; [lia|exact Y']|]. rewrite width_scale by assumption.
    rewrite <- (Rinv_involutive floor) by lra. apply Rinv_le_contravar; [apply Rinv_0_lt_compat, F|].
    apply Rmult_le_reg_r with (/ width b y); [apply Rinv_0_lt_compat, W|]. rewrite Rmult_assoc, Rinv_r by lra.
    rewrite <- Rinv_mult_distr in * by lra. lra. }
  f_equal. f_equal.
  - apply map_ext. intros i. unfold center. rewrite !edge_scale by assumption. lra.
  - apply map_ext. intros i. rewrite M. rewrite (lsum_ext _ (fun _ => floor * width b (map (Rmult c) y))) in EZ by (intros; rewrite M; reflexivity).
    rewrite lsum_const, seq_length, width_scale in EZ by assumption. rewrite EZ. assert (0 < INR b) by (apply lt_0_INR; lia).
    field. repeat split; lra.
Qed.
Print Assumptions empirical_pdf_units_refuted.
(** With values of the histogram at or above the floor in both units, the density scales as it should. *)
Theorem empirical_pdf_units_partial : forall floor b y c, 0 < floor -> (2 <= b)%nat -> spread y -> 0 < c ->
  (forall i, (i < b)%nat -> floor <= hist b y i /\ c * floor <= hist b y i) ->
  exists d, empirical_pdf floor b y = Ok (map (center b y) (seq 0 b), d) /\
    empirical_pdf floor b (map (Rmult c) y) = Ok (map (Rmult c) (map (center b y) (seq 0 b)), map (fun v => v / c) d).
Proof.
  intros floor b y c F Hb S C H. pose proof (width_pos b y ltac:(lia)) as W.
  assert (Y : y <> []) by (destruct S as (u & v & H' & _); intros ->; destruct H').
  assert (Y' : map (Rmult c) y <> []) by (destruct y; [congruence|discriminate]).
  destruct (empirical_cases floor b y F Hb Y) as (z & Z & EZ & E). destruct (empirical_cases floor b (map (Rmult c) y) F Hb Y') as (z' & Z' & EZ' & E').
  assert (M : forall i, (i < b)%nat -> Rmax (hist b y i) floor = hist b y i) by (intros i Hi; apply Rmax_left; apply (H i Hi)).
  assert (M' : forall i, (i < b)%nat -> Rmax (hist b (map (Rmult c) y) i) floor = hist b y i / c).
  { intros i Hi. rewrite hist_scale by (assumption || lia). apply Rmax_left. destruct (H i Hi) as [_ Q]. apply Rmult_le_reg_r with c; [exact C|].
    unfold Rdiv. rewrite Rmult_assoc, Rinv_l by lra. lra. }
  assert (Z1 : z = 1).
  { rewrite EZ, <- (hist_total b y ltac:(lia) Y). apply lsum_ext. intros i Hi. apply in_seq in Hi. rewrite M by lia. reflexivity. }
  assert (Z1' : z' = 1).
  { rewrite EZ', <- (hist_total b y ltac:(lia) Y). apply lsum_ext. intros i Hi. apply in_seq in Hi. rewrite M', width_scale by (assumption || lia). field. lra. }
  eexists. split; [exact E|]. rewrite E'. rewrite !map_map. f_equal. f_equal.
  - apply map_ext. intros i. unfold center. rewrite !edge_scale by assumption. lra.
  - apply map_ext_in. intros i Hi. apply in_seq in Hi. rewrite M, M', Z1, Z1' by lia. field. lra.
Qed.
Print Assumptions empirical_pdf_units_partial.

(** three samples in two bins: 1/3 and 2/3 of the mass, until the unit is 10^12 times smaller *)
Example empirical_pdf_ex : count 2 [0; 3; 4] 0 = 1%nat /\ count 2 [0; 3; 4] 1 = 2%nat /\ width 2 [0; 3; 4] = 2 /\ spread [0; 3; 4].
Proof.
  assert (O : outer [0; 3; 4] = (0, 4)).
  { cbn. rewrite (Rmin_left 0 3), (Rmin_left 0 4), (Rmax_right 0 3), (Rmax_right 3 4) by lra. destruct (Req_EM_T 0 4); [lra|reflexivity]. }
  assert (W : width 2 [0; 3; 4] = 2) by (unfold width; rewrite O; cbn; lra).
  assert (C : forall i, edge 2 [0; 3; 4] i = 2 * INR i) by (intros; unfold edge; rewrite W, O; cbn [fst]; lra).
  split; [|split; [|split; [exact W|exists 0, 3; cbn; repeat split; auto; lra]]].
  - unfold count, filter, in_bin. rewrite !C. cbn -[Rle_dec Rlt_dec]. repeat (destruct (Rle_dec _ _); try lra); repeat (destruct (Rlt_dec _ _); try lra); reflexivity.
  - unfold count, filter, in_bin. rewrite !C. cbn -[Rle_dec Rlt_dec]. repeat (destruct (Rle_dec _ _); try lra); repeat (destruct (Rlt_dec _ _); try lra); reflexivity.
Qed.
