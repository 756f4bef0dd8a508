(** C172: the dimension of the inputs follows the data. *)
From Coq Require Import Reals List Arith Lra Lia Bool.
From Verif Require Import Model.Dims.
Import ListNotations.
Local Open Scope R_scope.

(** two points that agree in their first [c] coordinates *)
Definition agree (c : nat) (p q : point) : Prop := forall i, (i < c)%nat -> nth i p 0 = nth i q 0.

Lemma sq_agree : forall c p q q' h, agree c q q' -> sq c p q h = sq c p q' h.
Proof.
  induction c as [|c IH]; intros p q q' h H; [reflexivity|]. cbn [sq]. rewrite (IH p q q' h) by (intros i Hi; apply H; lia).
  unfold term. rewrite (H c) by lia. reflexivity.
Qed.

(** If an overwrite keeps the number of columns, it is accepted, predictions are accepted exactly for points with the columns of the
    data, and the covariance is that of a newly built GP. *)
Theorem dims_partial : forall phi s0 x h s x', build phi x h = Some s0 -> cols x' = cols x -> fst (overwrite phi s0 x') = s ->
  snd (overwrite phi s0 x') = true /\ build phi x' h = Some s /\
  (forall x_pred, cross phi s x_pred <> None <-> cols x_pred = cols (x_data s)) /\
  (forall x_pred, self_cov phi s x_pred <> None <-> cols x_pred = cols (x_data s)) /\
  (length h = cols x + 1 -> default_bounds_exist s = true)%nat.
Proof.
  intros phi s0 x h s x' Hb Hc Hs. unfold build in Hb. destruct (default_kernel phi x x h) as [k|] eqn:E; [|discriminate].
  injection Hb as <-. unfold overwrite in *. cbn [hps input_set_dim Dims.K] in *.
  assert (E' : exists k', default_kernel phi x' x' h = Some k').
  { unfold default_kernel in *. rewrite Hc. destruct ((cols x <=? cols x)%nat && (1 + cols x <=? length h)%nat)%bool; [eexists; reflexivity|discriminate]. }
  destruct E' as [k' E']. rewrite E' in *. cbn [fst snd] in *. subst s. split; [reflexivity|]. split.
  - unfold build. rewrite E', Hc. reflexivity.
  - split.
    + intros x_pred. unfold cross; cbn [input_set_dim x_data hps]. rewrite <- Hc. destruct (Nat.eqb_spec (cols x_pred) (cols x')) as [He|He].
      * split; [intros _; exact He|intros _]. unfold default_kernel in *. rewrite He.
        destruct ((cols x' <=? cols x')%nat && (1 + cols x' <=? length h)%nat)%bool; [discriminate|discriminate].
      * split; [intros H; congruence|intros H; contradiction].
    + split; [|intros Hl; unfold default_bounds_exist; cbn [hps input_set_dim x_data]; rewrite Hl, Hc, Nat.eqb_refl, Nat.leb_refl; reflexivity].
      intros x_pred. unfold self_cov; cbn [input_set_dim x_data hps]. rewrite <- Hc. destruct (Nat.eqb_spec (cols x_pred) (cols x')) as [He|He].
      * split; [intros _; exact He|intros _]. unfold default_kernel in *. rewrite He.
        destruct ((cols x' <=? cols x')%nat && (1 + cols x' <=? length h)%nat)%bool; [discriminate|discriminate].
      * split; [intros H; congruence|intros H; contradiction].
Qed.
Print Assumptions dims_partial.

(** An overwrite with fewer columns is accepted.  Afterwards points like the data are refused, points with the old number of columns are
    accepted and their last coordinates have no influence on the covariance with the data (although they do count in the prior covariance
    among these points), and there are no default bounds to train with.  With more columns than
    before the call raises after the data were replaced. *)
Theorem dims_refuted : forall phi x h s0 x', build phi x h = Some s0 -> length h = (cols x + 1)%nat ->
  ((cols x' < cols x)%nat ->
    let s := fst (overwrite phi s0 x') in
    snd (overwrite phi s0 x') = true /\ cross phi s x' = None /\ self_cov phi s x' = None /\ default_bounds_exist s = false /\
    (forall q, self_cov phi s (Arr (cols x) q) = default_kernel phi (Arr (cols x) q) (Arr (cols x) q) h) /\
    (forall q q' : list point, Forall2 (agree (cols x')) q q' ->
      cross phi s (Arr (cols x) q) <> None /\ cross phi s (Arr (cols x) q) = cross phi s (Arr (cols x) q'))) /\
  ((cols x < cols x')%nat ->
    let s := fst (overwrite phi s0 x') in snd (overwrite phi s0 x') = false /\ x_data s = x' /\ Dims.K s = Dims.K s0).
Proof.
  intros phi x h s0 x' Hb Hl. unfold build in Hb. destruct (default_kernel phi x x h) as [k|] eqn:E; [|discriminate].
  injection Hb as <-. split; intros Hc s; subst s; unfold overwrite; cbn [hps input_set_dim Dims.K].
  - assert (E' : exists k', default_kernel phi x' x' h = Some k').
    { unfold default_kernel. rewrite Nat.leb_refl. replace (1 + cols x' <=? length h)%nat with true by (symmetry; apply Nat.leb_le; lia).
      eexists; reflexivity. }
    destruct E' as [k' E']. rewrite E'. cbn [fst snd]. split; [reflexivity|]. unfold cross, self_cov, default_bounds_exist; cbn [input_set_dim x_data hps cols rows].
    replace (cols x' =? cols x)%nat with false by (symmetry; apply Nat.eqb_neq; lia).
    split; [reflexivity|]. split; [reflexivity|].
    split; [rewrite Hl, Nat.eqb_refl; cbn; apply Nat.leb_gt; lia|]. split; [intros q; rewrite Nat.eqb_refl; reflexivity|].
    intros q q' Hq. rewrite Nat.eqb_refl. unfold default_kernel; cbn [cols rows].
    replace (cols x' <=? cols x)%nat with true by (symmetry; apply Nat.leb_le; lia).
    replace (1 + cols x' <=? length h)%nat with true by (symmetry; apply Nat.leb_le; lia). cbn [andb].
    split; [discriminate|]. f_equal. apply map_ext; intros p. clear - Hq. induction Hq as [|a b q q' Hab Hq IH]; [reflexivity|].
    cbn [map]. rewrite IH, (sq_agree _ _ _ _ _ Hab). reflexivity.
  - assert (E' : default_kernel phi x' x' h = None).
    { unfold default_kernel. replace (1 + cols x' <=? length h)%nat with false by (symmetry; apply Nat.leb_gt; lia).
      rewrite andb_false_r. reflexivity. }
    rewrite E'. cbn. auto.
Qed.
Print Assumptions dims_refuted.

(** two columns, then one: (0, 0) and (0, 7) get the same covariance with the data *)
Example dims_ex : forall phi, exists s0, build phi (Arr 2 [[0; 0]; [1; 1]]) [1; 1; 1] = Some s0 /\
  let s := fst (overwrite phi s0 (Arr 1 [[0]; [1]])) in
  cross phi s (Arr 2 [[0; 0]]) = cross phi s (Arr 2 [[0; 7]]) /\ cross phi s (Arr 1 [[0]]) = None /\
  cross phi s0 (Arr 2 [[0; 7]]) = Some [[1 * phi (((0 - 0) / 1) ^ 2 + ((0 - 7) / 1) ^ 2)]; [1 * phi (((1 - 0) / 1) ^ 2 + ((1 - 7) / 1) ^ 2)]].
Proof.
  intros phi. eexists. split; [reflexivity|]. cbn -[pow]. split; [reflexivity|]. split; [reflexivity|].
  unfold cross; cbn -[pow]. unfold default_kernel; cbn -[pow]. unfold term; cbn -[pow]. rewrite !Rplus_0_l. reflexivity.
Qed.
