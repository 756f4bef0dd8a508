From Coq Require Import Reals List Arith Lra Lia.
From Verif Require Import Model.DeepKernel Spec.DeepKernelSpec.
Import ListNotations.
Local Open Scope R_scope.

Definition rid (x : R) : R := x.
Definition e_row (m i : nat) : list R := map (fun j => if Nat.eqb i j then 1 else 0) (seq 0 m).
Definition eye (n m : nat) : list (list R) := map (e_row m) (seq 0 n).

Lemma eye_shaped : forall n m, shaped n m (eye n m).
Proof.
  intros n m. split; unfold eye; [rewrite map_length, seq_length; reflexivity|]. apply Forall_forall. intros r Hr.
  apply in_map_iff in Hr. destruct Hr as [i [<- _]]. unfold e_row. rewrite map_length, seq_length. reflexivity.
Qed.

Lemma dot_zero : forall m a x i k, (k < i \/ i + m <= k)%nat -> dot rid a (map (fun j => if Nat.eqb k j then 1 else 0) (seq i m)) x = a.
Proof.
  induction m as [|m IH]; intros a x i k H; [reflexivity|]. cbn [seq map dot]. destruct x as [|b x]; [reflexivity|].
  replace (Nat.eqb k i) with false by (symmetry; apply Nat.eqb_neq; lia). rewrite IH by lia. unfold rid; lra.
Qed.
Lemma dot_e : forall m a x i k, (i <= k < i + m)%nat ->
  dot rid a (map (fun j => if Nat.eqb k j then 1 else 0) (seq i m)) x = a + nth (k - i) x 0.
Proof.
  induction m as [|m IH]; intros a x i k H; [lia|]. cbn [seq map dot]. destruct x as [|b x]; [destruct (k - i)%nat; cbn; lra|].
  destruct (Nat.eqb_spec k i) as [->|Hk].
  - rewrite dot_zero by lia. rewrite Nat.sub_diag; cbn; unfold rid; lra.
  - rewrite IH by lia. replace (k - i)%nat with (S (k - S i)) by lia. cbn [nth]. unfold rid; lra.
Qed.

Lemma combine_map_seq : forall A B (f : nat -> A) (g : nat -> B) i n, combine (map f (seq i n)) (map g (seq i n)) = map (fun j => (f j, g j)) (seq i n).
Proof. intros A B f g i n. revert i. induction n as [|n IH]; intros i; [reflexivity|]. cbn. rewrite IH. reflexivity. Qed.

Lemma linear_eye : forall n m (b : nat -> R) x,
  linear rid (Layer (eye n m) (map b (seq 0 n))) x = map (fun i => (if (i <? m)%nat then nth i x 0 else 0) + b i) (seq 0 n).
Proof.
  intros n m b x. unfold linear; cbn [weight bias]. unfold eye. rewrite combine_map_seq, map_map. apply map_ext. intros i. cbn [fst snd].
  unfold e_row, rid at 1 3. destruct (Nat.ltb_spec i m).
  - rewrite dot_e by lia. rewrite Nat.sub_0_r. lra.
  - rewrite dot_zero by lia. lra.
Qed.

Lemma nth_map_seq : forall (f : nat -> R) n i, (i < n)%nat -> nth i (map f (seq 0 n)) 0 = f i.
Proof.
  intros f n i H. rewrite nth_indep with (d' := f 0%nat) by (rewrite map_length, seq_length; exact H).
  rewrite map_nth, seq_nth by exact H. reflexivity.
Qed.

(** identity matrices, and a shift in the first layer only *)
Definition shift_net (dim lw : nat) (s : R) : network :=
  Network (Layer (eye lw dim) (map (fun _ => s) (seq 0 lw))) (Layer (eye lw lw) (map (fun _ => 0) (seq 0 lw)))
          (Layer (eye dim lw) (map (fun _ => 0) (seq 0 dim))).

Lemma map_rid : forall l, map rid l = l.
Proof. induction l; cbn; [reflexivity|]. rewrite IHl. reflexivity. Qed.

Lemma shift_net_spec : forall dim lw s x, (dim <= lw)%nat -> length x = dim -> 0 <= s -> (forall i, (i < dim)%nat -> - s <= nth i x 0) ->
  deep rid (shift_net dim lw s) x = map (fun a => a + s) x.
Proof.
  intros dim lw s x Hd Hl Hs Hx. unfold deep, forward, shift_net; cbn [layer1 layer2 layer3]. rewrite !linear_eye, map_rid.
  unfold relu. rewrite !map_map.
  apply nth_ext with (d := 0) (d' := 0 + s); [rewrite !map_length, seq_length; symmetry; exact Hl|].
  rewrite map_length, seq_length. intros i Hi. rewrite (map_nth (fun a => a + s)).
  rewrite (nth_map_seq (fun x0 => Rmax 0 (_ + 0))) by exact Hi.
  replace (i <? lw)%nat with true by (symmetry; apply Nat.ltb_lt; lia).
  rewrite (nth_map_seq (fun x0 => Rmax 0 (_ + 0))) by lia.
  replace (i <? lw)%nat with true by (symmetry; apply Nat.ltb_lt; lia).
  rewrite (nth_map_seq (fun x0 => Rmax 0 (_ + s))) by lia.
  replace (i <? dim)%nat with true by (symmetry; apply Nat.ltb_lt; lia).
  specialize (Hx i Hi). rewrite (Rmax_right 0 (nth i x 0 + s)) by lra. rewrite !Rplus_0_r. rewrite !Rmax_right by (rewrite ?Rmax_right; lra). reflexivity.
Qed.

Lemma diffs_shift : forall s x y, diffs (map (fun a => a + s) x) (map (fun a => a + s) y) = diffs x y.
Proof.
  intros s. unfold diffs. induction x as [|a x IH]; intros [|b y]; cbn; [reflexivity|reflexivity|reflexivity|]. rewrite IH. f_equal. lra.
Qed.

Fixpoint bound1 (x : list R) : R := match x with [] => 0 | a :: x' => Rmax (Rabs a) (bound1 x') end.
Fixpoint bound (X : list (list R)) : R := match X with [] => 0 | x :: X' => Rmax (bound1 x) (bound X') end.
Lemma bound1_pos : forall x, 0 <= bound1 x.
Proof. induction x; cbn; [lra|]. eapply Rle_trans; [exact IHx|apply Rmax_r]. Qed.
Lemma bound1_spec : forall x i, Rabs (nth i x 0) <= bound1 x.
Proof.
  induction x as [|a x IH]; intros [|i]; cbn; try (rewrite Rabs_R0; lra); [apply Rmax_l|]. eapply Rle_trans; [apply IH|apply Rmax_r].
Qed.
Lemma bound_pos : forall X, 0 <= bound X.
Proof. induction X; cbn; [lra|]. eapply Rle_trans; [exact IHX|apply Rmax_r]. Qed.
Lemma bound_spec : forall X x i, In x X -> - bound X <= nth i x 0.
Proof.
  intros X x i H. assert (Rabs (nth i x 0) <= bound X).
  { induction X as [|z X IH]; [destruct H|]. cbn. destruct H as [->|H]; [eapply Rle_trans; [apply bound1_spec|apply Rmax_l]|].
    eapply Rle_trans; [apply IH, H|apply Rmax_r]. }
  pose proof (Rle_abs (- nth i x 0)). rewrite Rabs_Ropp in H1. lra.
Qed.

Lemma deep_nonneg : forall rnd n x, Forall (fun a => 0 <= a) (deep rnd n x).
Proof.
  intros rnd n x. unfold deep, forward, relu at 1. apply Forall_forall. intros a Ha. apply in_map_iff in Ha. destruct Ha as [b [<- _]].
  apply Rmax_l.
Qed.

Lemma forward_rounded : forall rnd last n x y, map rnd x = map rnd y -> forward rnd last n x = forward rnd last n y.
Proof. intros. unfold forward. rewrite H. reflexivity. Qed.

Lemma quad_pull : forall k (f : list R -> list R) cx, quad (fun x y => k (f x) (f y)) cx = quad k (map (fun p => (fst p, f (snd p))) cx).
Proof. intros. unfold quad. rewrite map_map. f_equal. apply map_ext. intros p. rewrite map_map. reflexivity. Qed.

Lemma reshape_shaped : forall r c v, length v = (r * c)%nat -> shaped r c (reshape r c v).
Proof.
  induction r as [|r IH]; intros c v H; [split; [reflexivity|constructor]|]. cbn [reshape]. cbn in H.
  destruct (IH c (skipn c v)) as [A B]; [rewrite skipn_length; lia|]. split; [cbn; rewrite A; reflexivity|]. constructor; [|exact B].
  rewrite firstn_length. lia.
Qed.
Lemma reshape_concat : forall r c v, length v = (r * c)%nat -> concat (reshape r c v) = v.
Proof.
  induction r as [|r IH]; intros c v H; cbn in *; [destruct v; [reflexivity|discriminate]|]. rewrite IH by (rewrite skipn_length; lia).
  apply firstn_skipn.
Qed.
Lemma concat_reshape : forall w r c, shaped r c w -> reshape r c (concat w) = w.
Proof.
  induction w as [|row w IH]; intros r c [H1 H2]; cbn in H1; subst r; [reflexivity|]. inversion H2 as [|? ? Hr Hw]; subst. cbn [reshape concat].
  rewrite firstn_app, Nat.sub_diag, firstn_all, firstn_O, app_nil_r, skipn_app, Nat.sub_diag, skipn_all. cbn [skipn app].
  rewrite IH; [reflexivity|]. split; [reflexivity|exact Hw].
Qed.
Lemma slice_app : forall (a b c : list R), slice (length a) (length b) (a ++ b ++ c) = b.
Proof.
  intros a b c. unfold slice. rewrite skipn_app, skipn_all, Nat.sub_diag. cbn [skipn app].
  rewrite firstn_app, Nat.sub_diag, firstn_all, firstn_O, app_nil_r. reflexivity.
Qed.
Lemma skipn_skipn' : forall i j (h : list R), skipn j (skipn i h) = skipn (i + j) h.
Proof. induction i as [|i IH]; intros j h; [reflexivity|]. destruct h as [|a h]; [cbn; apply skipn_nil|]. apply IH. Qed.
Lemma slice_split : forall i j (h : list R), skipn i h = slice i j h ++ skipn (i + j) h.
Proof. intros i j h. unfold slice. rewrite <- skipn_skipn'. symmetry. apply firstn_skipn. Qed.
Lemma slice_length : forall i j (h : list R), (i + j <= length h)%nat -> length (slice i j h) = j.
Proof. intros. unfold slice. rewrite firstn_length, skipn_length. lia. Qed.

(** ** single precision *)
From Flocq Require Import Core.
Local Notation fexp := (FLT_exp (-149) 24).
Local Notation F := (generic_format radix2 fexp).
#[local] Instance p24 : Prec_gt_0 24. Proof. unfold Prec_gt_0. lia. Qed.
Lemma single_lost k a d : (-100 <= k)%Z -> F a -> bpow radix2 k <= a -> 0 <= d < bpow radix2 (k - 24) -> single (a + d) = a.
Proof.
  intros K Ha Hk Hd. assert (P : 0 < a) by (eapply Rlt_le_trans; [apply bpow_gt_0|exact Hk]).
  assert (V : Valid_exp fexp) by (apply FLT_exp_valid; exact p24).
  apply Rle_antisym.
  - apply round_N_le_midp; [exact V|exact Ha|]. rewrite succ_eq_pos by lra.
    assert (U : bpow radix2 (k - 23) <= ulp radix2 fexp a).
    { replace (bpow radix2 (k - 23)) with (ulp radix2 fexp (bpow radix2 k)) by (rewrite ulp_bpow; f_equal; unfold FLT_exp; lia).
      apply ulp_le_pos; [exact V|apply FLT_exp_monotone|apply bpow_ge_0|exact Hk]. }
    assert (E : bpow radix2 (k - 24) = bpow radix2 (k - 23) / 2).
    { replace (k - 24)%Z with (k - 23 + -1)%Z by lia. rewrite bpow_plus. change (bpow radix2 (-1)) with (/ 2). reflexivity. }
    rewrite E in Hd. lra.
  - rewrite <- (round_generic radix2 fexp ZnearestE a Ha) at 1. apply round_le; [exact V|apply valid_rnd_N|lra].
Qed.
Lemma single_id a : F a -> single a = a.
Proof. intros H. apply round_generic; [apply valid_rnd_N|exact H]. Qed.
