(** C173-C175: the network of deep kernels. *)
From Coq Require Import Reals List Arith Lra Lia ZArith.
From Flocq Require Import Core.
From Verif Require Import Model.DeepKernel Spec.DeepKernelSpec Proofs.DeepKernelP.
Import ListNotations.
Local Open Scope R_scope.

(** a network for inputs with dim columns and hidden layers of width lw *)
Definition fits (dim lw : nat) (n : network) : Prop :=
  shaped lw dim (weight (layer1 n)) /\ length (bias (layer1 n)) = lw /\ shaped lw lw (weight (layer2 n)) /\ length (bias (layer2 n)) = lw /\
  shaped dim lw (weight (layer3 n)) /\ length (bias (layer3 n)) = dim.
(** all weights and biases, in the order of the example *)
Definition params (n : network) : list R :=
  concat (weight (layer1 n)) ++ concat (weight (layer2 n)) ++ concat (weight (layer3 n)) ++ bias (layer1 n) ++ bias (layer2 n) ++ bias (layer3 n).

Lemma concat_length_shaped : forall w r c, shaped r c w -> length (concat w) = (r * c)%nat.
Proof.
  induction w as [|row w IH]; intros r c [H1 H2]; cbn in *; [subst; reflexivity|]. inversion H2; subst. rewrite app_length.
  rewrite (IH (length w) (length row)) by (split; auto). cbn. reflexivity.
Qed.

(** C173: the advertised number is the number of weights and biases, whatever the sizes. *)
Theorem deep_parameter_count : forall dim lw n, fits dim lw n -> length (params n) = number_of_hps dim lw.
Proof.
  intros dim lw n (H1 & B1 & H2 & B2 & H3 & B3). unfold params, number_of_hps. rewrite !app_length.
  rewrite (concat_length_shaped _ _ _ H1), (concat_length_shaped _ _ _ H2), (concat_length_shaped _ _ _ H3), B1, B2, B3. cbn [Nat.pow]. nia.
Qed.
Print Assumptions deep_parameter_count.
(** and vectors of that length are exactly the networks: each network comes from one vector, each vector gives a network, shorter
    vectors raise *)
Theorem deep_unpack : forall dim lw,
  (forall n, fits dim lw n -> unpack dim lw (params n) = Some n) /\
  (forall h n, length h = number_of_hps dim lw -> unpack dim lw h = Some n -> fits dim lw n /\ params n = h) /\
  (forall h, unpack dim lw h <> None <-> (number_of_hps dim lw <= length h)%nat).
Proof.
  intros dim lw.
  assert (N : (lw * dim + lw ^ 2 + lw * dim + lw + lw + dim = number_of_hps dim lw)%nat) by (unfold number_of_hps; cbn [Nat.pow]; nia).
  split; [|split].
  - intros n Hn. pose proof (deep_parameter_count dim lw n Hn) as Hc. destruct Hn as (H1 & B1 & H2 & B2 & H3 & B3).
    pose proof (concat_length_shaped _ _ _ H1) as C1. pose proof (concat_length_shaped _ _ _ H2) as C2. pose proof (concat_length_shaped _ _ _ H3) as C3.
    unfold unpack. rewrite N. replace (number_of_hps dim lw <=? length (params n))%nat with true by (symmetry; apply Nat.leb_le; lia).
    destruct n as [[w1 b1] [w2 b2] [w3 b3]]. unfold params; cbn [layer1 layer2 layer3 weight bias] in *. cbn [Nat.pow]. rewrite Nat.mul_1_r.
    assert (S1 : slice 0 (lw * dim) (concat w1 ++ concat w2 ++ concat w3 ++ b1 ++ b2 ++ b3) = concat w1).
    { rewrite <- C1. exact (slice_app [] (concat w1) _). }
    assert (S2 : slice (lw * dim) (lw * lw) (concat w1 ++ concat w2 ++ concat w3 ++ b1 ++ b2 ++ b3) = concat w2).
    { rewrite <- C1, <- C2. apply slice_app. }
    assert (S3 : slice (lw * dim + lw * lw) (lw * dim) (concat w1 ++ concat w2 ++ concat w3 ++ b1 ++ b2 ++ b3) = concat w3).
    { replace (slice (lw * dim + lw * lw) (lw * dim)) with (slice (length (concat w1 ++ concat w2)) (length (concat w3)))
        by (f_equal; rewrite ?app_length; lia). rewrite (app_assoc (concat w1)). apply slice_app. }
    assert (S4 : slice (lw * dim + lw * lw + lw * dim) lw (concat w1 ++ concat w2 ++ concat w3 ++ b1 ++ b2 ++ b3) = b1).
    { replace (slice (lw * dim + lw * lw + lw * dim) lw) with (slice (length (concat w1 ++ concat w2 ++ concat w3)) (length b1))
        by (f_equal; rewrite ?app_length; lia).
      replace (concat w1 ++ concat w2 ++ concat w3 ++ b1 ++ b2 ++ b3) with ((concat w1 ++ concat w2 ++ concat w3) ++ b1 ++ b2 ++ b3)
        by (rewrite <- !app_assoc; reflexivity). apply slice_app. }
    assert (S5 : slice (lw * dim + lw * lw + lw * dim + lw) lw (concat w1 ++ concat w2 ++ concat w3 ++ b1 ++ b2 ++ b3) = b2).
    { replace (slice (lw * dim + lw * lw + lw * dim + lw) lw) with (slice (length (concat w1 ++ concat w2 ++ concat w3 ++ b1)) (length b2))
        by (f_equal; rewrite ?app_length; lia).
      replace (concat w1 ++ concat w2 ++ concat w3 ++ b1 ++ b2 ++ b3) with ((concat w1 ++ concat w2 ++ concat w3 ++ b1) ++ b2 ++ b3)
        by (rewrite <- !app_assoc; reflexivity). apply slice_app. }
    assert (S6 : slice (lw * dim + lw * lw + lw * dim + lw + lw) dim (concat w1 ++ concat w2 ++ concat w3 ++ b1 ++ b2 ++ b3) = b3).
    { replace (slice (lw * dim + lw * lw + lw * dim + lw + lw) dim) with (slice (length (concat w1 ++ concat w2 ++ concat w3 ++ b1 ++ b2)) (length b3))
        by (f_equal; rewrite ?app_length; lia).
      replace (concat w1 ++ concat w2 ++ concat w3 ++ b1 ++ b2 ++ b3) with ((concat w1 ++ concat w2 ++ concat w3 ++ b1 ++ b2) ++ b3 ++ [])
        by (rewrite app_nil_r, <- !app_assoc; reflexivity). apply slice_app. }
    rewrite S1, S2, S3, S4, S5, S6, !concat_reshape by assumption. reflexivity.
  - intros h n Hl Hu. unfold unpack in Hu. rewrite N in Hu. rewrite Hl, Nat.leb_refl in Hu. injection Hu as <-. rewrite <- Hl in N.
    cbn [Nat.pow] in *. rewrite Nat.mul_1_r in *.
    assert (W3 : (lw * dim = dim * lw)%nat) by lia. split.
    + unfold fits; cbn [layer1 layer2 layer3 weight bias].
      repeat match goal with |- _ /\ _ => split | |- shaped _ _ _ => apply reshape_shaped end; rewrite ?slice_length; lia.
    + unfold params; cbn [layer1 layer2 layer3 weight bias]. rewrite !reshape_concat by (rewrite slice_length; lia).
      change h with (skipn 0 h) at 7. rewrite (slice_split 0 (lw * dim)). cbn [Nat.add]. f_equal.
      rewrite (slice_split (lw * dim) (lw * lw)). f_equal. rewrite (slice_split (lw * dim + lw * lw) (lw * dim)). f_equal.
      rewrite (slice_split _ lw). f_equal. rewrite (slice_split _ lw). f_equal. rewrite (slice_split _ dim).
      rewrite (skipn_all2 h) by lia. rewrite app_nil_r. reflexivity.
  - intros h. unfold unpack. rewrite N. destruct (Nat.leb_spec (number_of_hps dim lw) (length h)); split; intros; try congruence; try lia.
Qed.
Print Assumptions deep_unpack.
Example deep_parameter_count_ex : fits 3 5 (shift_net 3 5 2) /\ number_of_hps 3 5 = 68%nat.
Proof. split; [|reflexivity]. unfold fits. repeat match goal with |- _ /\ _ => split end; try reflexivity; apply eye_shaped. Qed.

(** C174: with hidden layers at least as wide as the input, any stationary kernel on any finite set of points is reached by suitable
    parameters.  In exact arithmetic. *)
Theorem deep_contains_plain_partial : forall dim lw (X : list (list R)), (dim <= lw)%nat -> Forall (fun x => length x = dim) X ->
  exists n, fits dim lw n /\ forall k, stationary k -> forall x y, In x X -> In y X -> deep_kernel (fun a => a) k n x y = k x y.
Proof.
  intros dim lw X Hd HX. exists (shift_net dim lw (bound X)). split.
  - unfold shift_net, fits; cbn. repeat match goal with |- _ /\ _ => split | |- shaped _ _ _ => apply eye_shaped end;
    rewrite ?map_length, ?seq_length; reflexivity.
  - intros k Hk x y Hx Hy. unfold deep_kernel. change (fun a : R => a) with rid. rewrite Forall_forall in HX.
    pose proof (HX x Hx) as Lx. pose proof (HX y Hy) as Ly.
    rewrite !shift_net_spec; auto using bound_pos; try (intros i _; apply bound_spec; assumption).
    apply Hk; [rewrite !map_length; congruence|congruence|apply diffs_shift].
Qed.
Print Assumptions deep_contains_plain_partial.

(** Not on all points at once: the last relu keeps the outputs non-negative.  No parameters, of any width, reproduce a squared
    exponential in the first coordinate everywhere. *)
Definition gauss0 (x y : list R) : R := exp (- (hd 0 x - hd 0 y) ^ 2).
Lemma gauss0_stationary : stationary gauss0.
Proof.
  intros x y x' y' L L' H. unfold gauss0. replace (hd 0 x - hd 0 y) with (hd 0 x' - hd 0 y'); [reflexivity|].
  destruct x as [|a x], y as [|b y], x' as [|a' x'], y' as [|b' y']; cbn in *; try discriminate; try reflexivity.
  injection H as H _. lra.
Qed.

Theorem deep_contains_plain_refuted : stationary gauss0 /\ forall dim lw n, fits (S dim) lw n ->
  exists x y, length x = S dim /\ length y = S dim /\ deep_kernel (fun a => a) gauss0 n x y <> gauss0 x y.
Proof.
  split; [exact gauss0_stationary|]. intros dim lw n _.
  set (o := fun t => hd 0 (deep (fun a => a) n (t :: repeat 0 dim))).
  assert (P : forall t, 0 <= o t).
  { intros t. unfold o. pose proof (deep_nonneg (fun a => a) n (t :: repeat 0 dim)) as N. destruct (deep (fun a => a) n (t :: repeat 0 dim)); cbn; [lra|].
    inversion N; assumption. }
  assert (D : forall s t, deep_kernel (fun a => a) gauss0 n (s :: repeat 0 dim) (t :: repeat 0 dim) = gauss0 (s :: repeat 0 dim) (t :: repeat 0 dim) ->
              (o s - o t) ^ 2 = (s - t) ^ 2).
  { intros s t H. unfold deep_kernel, gauss0 in H. apply exp_inv in H. cbn [hd] in H. fold (o s) (o t) in H. lra. }
  assert (L : forall t : R, length (t :: repeat 0 dim) = S dim) by (intros; cbn; rewrite repeat_length; reflexivity).
  set (a := o 0) in *. set (b := o (a + 1)) in *. set (c := o (- (a + 1))) in *.
  pose proof (P 0) as Pa. fold a in Pa. pose proof (P (a + 1)) as Pb. fold b in Pb. pose proof (P (- (a + 1))) as Pc. fold c in Pc.
  destruct (Req_dec (deep_kernel (fun a => a) gauss0 n (0 :: repeat 0 dim) ((a + 1) :: repeat 0 dim)) (gauss0 (0 :: repeat 0 dim) ((a + 1) :: repeat 0 dim))) as [Q1|Q1];
    [|eexists; eexists; split; [apply L|split; [apply L|exact Q1]]].
  destruct (Req_dec (deep_kernel (fun a => a) gauss0 n (0 :: repeat 0 dim) ((- (a + 1)) :: repeat 0 dim)) (gauss0 (0 :: repeat 0 dim) ((- (a + 1)) :: repeat 0 dim))) as [Q2|Q2];
    [|eexists; eexists; split; [apply L|split; [apply L|exact Q2]]].
  exists ((a + 1) :: repeat 0 dim), ((- (a + 1)) :: repeat 0 dim). split; [apply L|]. split; [apply L|]. intros Q3.
  apply D in Q1. apply D in Q2. apply D in Q3. fold a b c in Q1, Q2, Q3.
  assert (b = a + (a + 1)) by nra. assert (c = a + (a + 1)) by nra. subst b c. rewrite H, H0 in Q3. nra.
Qed.
Print Assumptions deep_contains_plain_refuted.

(** C174, the kernel stays valid for all parameters, also in single precision *)
Theorem deep_kernel_psd : forall rnd k n, psd_kernel k -> psd_kernel (deep_kernel rnd k n).
Proof. intros rnd k n Hk cx. unfold deep_kernel. rewrite (quad_pull k (deep rnd n)). apply Hk. Qed.
Print Assumptions deep_kernel_psd.
(** a kernel to start from *)
Example deep_kernel_psd_ex : psd_kernel (fun x y => hd 0 x * hd 0 y).
Proof.
  intros cx. unfold quad.
  assert (E : forall l a, sum (map (fun q : R * list R => a * fst q * (hd 0 (snd q))) l) = a * sum (map (fun q => fst q * hd 0 (snd q)) l)).
  { induction l as [|q l IH]; intros a; cbn; [lra|]. rewrite IH. lra. }
  assert (G : forall l, sum (map (fun p : R * list R => sum (map (fun q => fst p * fst q * (hd 0 (snd p) * hd 0 (snd q))) cx)) l)
              = sum (map (fun q => fst q * hd 0 (snd q)) l) * sum (map (fun q => fst q * hd 0 (snd q)) cx)).
  { induction l as [|p l IH]; cbn; [lra|]. rewrite IH.
    rewrite (map_ext _ (fun q : R * list R => (fst p * hd 0 (snd p)) * fst q * hd 0 (snd q))) by (intros; lra). rewrite E. lra. }
  rewrite G. apply Rle_0_sqr.
Qed.

(** C175: inputs are converted to single precision first, so points closer than that are one point, whatever the parameters. *)
Theorem deep_distinct_refuted : forall k a d lw n kern z, (-100 <= k)%Z -> generic_format radix2 (FLT_exp (-149) 24) a -> bpow radix2 k <= a ->
  0 < d < bpow radix2 (k - 24) -> fits 1 lw n ->
  [a + d] <> [a] /\ deep single n [a + d] = deep single n [a] /\ warp single n [a + d] = warp single n [a] /\
  deep_kernel single kern n [a + d] z = deep_kernel single kern n [a] z.
Proof.
  intros k a d lw n kern z K Ha Hk Hd _.
  assert (E : map single [a + d] = map single [a]).
  { cbn. rewrite (single_lost k a d K Ha Hk) by lra. rewrite single_id by exact Ha. reflexivity. }
  split; [intros Q; injection Q; lra|]. unfold deep_kernel, deep, warp. rewrite !(forward_rounded single _ n [a + d] [a] E). auto.
Qed.
Print Assumptions deep_distinct_refuted.
(** in exact arithmetic the points of any finite set stay apart for suitable parameters *)
Theorem deep_distinct_partial : forall dim lw (X : list (list R)), (dim <= lw)%nat -> Forall (fun x => length x = dim) X ->
  exists n, fits dim lw n /\ forall x y, In x X -> In y X -> deep (fun a => a) n x = deep (fun a => a) n y -> x = y.
Proof.
  intros dim lw X Hd HX. exists (shift_net dim lw (bound X)). split.
  - unfold shift_net, fits; cbn. repeat match goal with |- _ /\ _ => split | |- shaped _ _ _ => apply eye_shaped end;
    rewrite ?map_length, ?seq_length; reflexivity.
  - intros x y Hx Hy. change (fun a : R => a) with rid. rewrite Forall_forall in HX.
    rewrite !shift_net_spec; auto using bound_pos; try (intros i _; apply bound_spec; assumption).
    clear. revert y. induction x as [|a x IH]; intros [|b y] E; try discriminate E; [reflexivity|]. cbn in E. injection E as E1 E2.
    f_equal; [lra|]. apply IH, E2.
Qed.
Print Assumptions deep_distinct_partial.

(** 1 and 1 + 10^-8 are different doubles and one input of the network *)
Example deep_distinct_ex : forall lw n, fits 1 lw n -> deep single n [1 + / 100000000] = deep single n [1].
Proof.
  intros lw n H. refine (proj1 (proj2 (deep_distinct_refuted 0 1 (/ 100000000) lw n (fun _ _ => 0) [] _ _ _ _ H))).
  - lia.
  - change 1 with (bpow radix2 0). apply generic_format_bpow. unfold FLT_exp. lia.
  - cbn. lra.
  - cbn. lra.
Qed.
