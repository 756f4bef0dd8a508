(** The Wendland kernel of gp2Scale is not positive semidefinite in five or more dimensions: points of a cubic grid
    with spacing 1/sqrt 683 and alternating signs. *)
From Coq Require Import Reals Lra Lia List ZArith.
From Verif Require Import Model.Kernels Spec.Sums Spec.KernelSpec Proofs.PsdP Proofs.KernelSupportP Proofs.LatticeP.
Import ListNotations.

Section Eval.
Local Open Scope Z_scope.
(** the squared support radius in grid steps and the number of fractional bits *)
Variables K P : Z.
Definition even_part (k : Z) : Z := K * (((((-231 * k - 1155 * K) * k - 462 * K ^ 2) * k + 66 * K ^ 3) * k - 11 * K ^ 4) * k + K ^ 5).
Definition odd_part (k : Z) : Z := ((32 * k + 704 * K) * k + 1056 * K ^ 2) * (k * k * k).
Definition upper (c k : Z) : Z :=
  let o := c * odd_part k in (c * even_part k) * 2 ^ P + o * Z.sqrt (K * k * 2 ^ (2 * P)) + Z.max 0 o.
Fixpoint upper_sum (l : list Z) (k : Z) : Z := match l with [] => 0 | c :: t => upper c k + upper_sum t (k + 1) end.
Local Open Scope R_scope.
Definition val (k : nat) : R := wendland_poly (clip1 (sqrt (INR k / IZR K))) 1.
Hypothesis (HK : (0 < K)%Z) (HP : (0 <= P)%Z).
Let KR : 0 < IZR K. Proof. apply IZR_lt, HK. Qed.
Lemma val_far k : (K <= Z.of_nat k)%Z -> val k = 0.
Proof.
  intros H. unfold val. rewrite clip1_ge; [apply wendland_poly_1|]. rewrite <- sqrt_1. apply sqrt_le_1_alt.
  apply IZR_le in H. rewrite <- INR_IZR_INZ in H. apply Rmult_le_reg_r with (IZR K); [exact KR|]. unfold Rdiv. rewrite Rmult_assoc, Rinv_l by lra. lra.
Qed.
Lemma pow_IZR_2 a n : IZR (a ^ Z.of_nat n) = IZR a ^ n.
Proof. symmetry. apply pow_IZR. Qed.
Lemma val_near k : (Z.of_nat k < K)%Z ->
  IZR K ^ 6 * val k = IZR (even_part (Z.of_nat k)) + IZR (odd_part (Z.of_nat k)) * sqrt (IZR (K * Z.of_nat k)).
Proof.
  intros H. unfold val. apply IZR_lt in H. rewrite <- INR_IZR_INZ in H. pose proof (pos_INR k) as P0.
  assert (P1 : 0 <= INR k / IZR K) by (apply Rmult_le_pos; [exact P0|left; apply Rinv_0_lt_compat, KR]).
  rewrite clip1_le.
  2:{ rewrite <- sqrt_1. apply sqrt_le_1_alt. apply Rmult_le_reg_r with (IZR K); [exact KR|]. unfold Rdiv. rewrite Rmult_assoc, Rinv_l by lra. lra. }
  assert (E : sqrt (IZR (K * Z.of_nat k)) = IZR K * sqrt (INR k / IZR K)).
  { rewrite mult_IZR, <- INR_IZR_INZ. rewrite <- (sqrt_square (IZR K)) at 2 by lra. rewrite <- sqrt_mult_alt by nra. f_equal. field. lra. }
  rewrite E. unfold wendland_poly. rewrite Rmult_1_l, wend_expand.
  rewrite <- Rsqr_pow2, Rsqr_sqrt by exact P1. set (r := sqrt (INR k / IZR K)).
  unfold even_part, odd_part.
  repeat rewrite ?mult_IZR, ?plus_IZR, ?minus_IZR. rewrite <- !INR_IZR_INZ.
  change 2%Z with (Z.of_nat 2). change 3%Z with (Z.of_nat 3). change 4%Z with (Z.of_nat 4). change 5%Z with (Z.of_nat 5).
  rewrite !pow_IZR_2. field. lra.
Qed.
Lemma sqrt_bits x : (0 <= x)%Z -> IZR (Z.sqrt (x * 2 ^ (2 * P))) <= IZR (2 ^ P) * sqrt (IZR x) <= IZR (Z.sqrt (x * 2 ^ (2 * P))) + 1.
Proof.
  intros Hx. assert (Q : (0 < 2 ^ P)%Z) by (apply Z.pow_pos_nonneg; lia).
  assert (E : (2 ^ (2 * P) = 2 ^ P * 2 ^ P)%Z) by (rewrite <- Z.pow_add_r by lia; f_equal; lia).
  assert (S : IZR (2 ^ P) * sqrt (IZR x) = sqrt (IZR (x * 2 ^ (2 * P)))).
  { rewrite <- (sqrt_square (IZR (2 ^ P))) by (apply IZR_le; lia). rewrite <- sqrt_mult_alt.
    - f_equal. rewrite E, !mult_IZR. ring.
    - rewrite <- mult_IZR. apply IZR_le. nia. }
  rewrite S. pose proof (Z.sqrt_spec (x * 2 ^ (2 * P)) ltac:(rewrite E; nia)) as [A B].
  pose proof (Z.sqrt_nonneg (x * 2 ^ (2 * P))) as N. set (q := Z.sqrt (x * 2 ^ (2 * P))) in *.
  apply sqrt_between.
  - apply IZR_le, N.
  - rewrite <- plus_IZR. apply IZR_le. lia.
  - rewrite <- plus_IZR, <- !mult_IZR. split; apply IZR_le; lia.
Qed.
Lemma upper_ok c k : (Z.of_nat k < K)%Z -> IZR (2 ^ P) * IZR K ^ 6 * (IZR c * val k) <= IZR (upper c (Z.of_nat k)).
Proof.
  intros H. replace (IZR (2 ^ P) * IZR K ^ 6 * (IZR c * val k)) with (IZR (2 ^ P) * IZR c * (IZR K ^ 6 * val k)) by ring.
  rewrite val_near by exact H. unfold upper. cbv zeta. rewrite !plus_IZR, !mult_IZR.
  pose proof (sqrt_bits (K * Z.of_nat k) ltac:(nia)) as [A B]. rewrite mult_IZR in A, B.
  set (u := sqrt _) in *. set (q := IZR (Z.sqrt _)) in *. set (o := IZR c * IZR (odd_part (Z.of_nat k))).
  assert (M : IZR (Z.max 0 (c * odd_part (Z.of_nat k))) = Rmax 0 o).
  { unfold o. rewrite <- mult_IZR. unfold Rmax. destruct (Rle_dec 0 (IZR (c * odd_part (Z.of_nat k)))) as [L|L].
    - f_equal. apply le_IZR in L. lia.
    - apply Rnot_le_lt in L. apply lt_IZR in L. rewrite Z.max_l by lia. reflexivity. }
  rewrite M. replace (IZR (2 ^ P) * IZR c * (IZR (even_part (Z.of_nat k)) + IZR (odd_part (Z.of_nat k)) * u))
    with (IZR c * IZR (even_part (Z.of_nat k)) * IZR (2 ^ P) + o * (IZR (2 ^ P) * u)) by (unfold o; ring).
  set (v := IZR (2 ^ P) * u) in *. pose proof (Rmax_l 0 o). pose proof (Rmax_r 0 o).
  destruct (Rle_lt_dec 0 o); nra.
Qed.
Lemma upper_sum_ok l : forall k, (Z.of_nat k + Z.of_nat (length l) <= K)%Z ->
  IZR (2 ^ P) * IZR K ^ 6 * dot l (fun i => val (k + i)) <= IZR (upper_sum l (Z.of_nat k)).
Proof.
  induction l as [|c l IH]; intros k H; cbn [dot upper_sum]; [rewrite Rmult_0_r; apply Rle_refl|].
  cbn [length] in H. rewrite plus_IZR, Nat.add_0_r, Rmult_plus_distr_l. apply Rplus_le_compat; [apply upper_ok; lia|].
  specialize (IH (S k) ltac:(lia)). replace (Z.of_nat k + 1)%Z with (Z.of_nat (S k)) by lia.
  erewrite dot_ext; [exact IH|]. intros i. cbn. f_equal. lia.
Qed.
End Eval.

Local Open Scope R_scope.
Lemma negative_of_bound l : (length l <= 683)%nat -> (upper_sum 683 64 l 0 < 0)%Z -> dot l (val 683) < 0.
Proof.
  intros H1 H2. pose proof (upper_sum_ok 683 64 ltac:(lia) ltac:(lia) l 0 ltac:(lia)) as B. apply IZR_lt in H2.
  rewrite (dot_ext _ _ (val 683)) in B by (intros; reflexivity). change (Z.of_nat 0) with 0%Z in B.
  assert (0 < IZR (2 ^ 64) * 683 ^ 6) by (apply Rmult_lt_0_compat; [apply IZR_lt; reflexivity|apply pow_lt; lra]).
  set (s := IZR (2 ^ 64) * 683 ^ 6) in *. clearbody s. nra.
Qed.
Lemma sites_check : ((length (coeffs 683 27 5) <=? 683)%nat && (upper_sum 683 64 (coeffs 683 27 5) 0 <? 0)%Z)%bool = true.
Proof. vm_compute. reflexivity. Qed.
Lemma lattice_five : lat 27 5 (val 683) < 0.
Proof.
  assert (F : forall k, (683 <= k)%nat -> val 683 k = 0) by (intros k Hk; apply val_far; lia).
  rewrite (lat_coeffs 683 27 5 _ F). apply negative_of_bound.
  - apply Nat.leb_le. exact (proj1 (andb_prop _ _ sites_check)).
  - apply Z.ltb_lt. exact (proj2 (andb_prop _ _ sites_check)).
Qed.
(** a grid point in the input space, its columns stretched by the length scales *)
Definition site (hps : nat -> R) (l : list nat) : point := fun i => INR (nth i l O) * sqrt (/ 683) * hps (S i).
Lemma sq_ad x y : INR (ad x y * ad x y) = (INR x - INR y) ^ 2.
Proof.
  rewrite mult_INR. unfold ad. destruct (Nat.le_ge_cases x y) as [H|H].
  - replace (x - y + (y - x))%nat with (y - x)%nat by lia. rewrite minus_INR by exact H. ring.
  - replace (x - y + (y - x))%nat with (x - y)%nat by lia. rewrite minus_INR by exact H. ring.
Qed.
Lemma site_dist n a b : length a = n -> length b = n ->
  rsum (fun i => ((INR (nth i a O) - INR (nth i b O)) * sqrt (/ 683)) ^ 2) n = INR (dsq a b) / 683.
Proof.
  revert a b. induction n; intros a b Ha Hb; destruct a as [|x a], b as [|y b]; try discriminate; [cbn; lra|].
  rewrite rsum_first. cbn in Ha, Hb. rewrite (rsum_ext _ (fun i => ((INR (nth i a O) - INR (nth i b O)) * sqrt (/ 683)) ^ 2)) by (intros; reflexivity).
  rewrite IHn by lia. cbn [dsq nth]. rewrite plus_INR, sq_ad, Rpow_mult_distr, <- (Rsqr_pow2 (sqrt _)), Rsqr_sqrt by lra. lra.
Qed.
Lemma site_kernel D hps a b : (5 <= D)%nat -> (forall i, (i < D)%nat -> hps (S i) <> 0) -> length a = 5%nat -> length b = 5%nat ->
  wendland_dense D (site hps a) (site hps b) hps = hps O * val 683 (dsq a b).
Proof.
  intros HD Hh Ha Hb. unfold wendland_dense, val. rewrite <- (site_dist 5 a b Ha Hb). rewrite (rsum_pad _ 5 D HD).
  - unfold wendland_poly. rewrite (rsum_ext _ (fun i => ((INR (nth i a O) - INR (nth i b O)) * sqrt (/ 683)) ^ 2)); [ring|].
    intros i Hi. f_equal. unfold site. field. apply Hh. lia.
  - intros i Hi. unfold site. rewrite !nth_overflow by lia. unfold Rdiv. ring.
Qed.
Theorem wendland_invalid_five D hps : (5 <= D)%nat -> 0 < hps O -> (forall i, (i < D)%nat -> hps (S i) <> 0) ->
  exists l, quad_form (fun x y => wendland_dense D x y hps) l < 0.
Proof.
  intros HD H0 Hh. destruct (lattice_negative 27 5 (val 683)) as [N HN].
  - intros k Hk. apply val_far; lia.
  - apply lattice_five.
  - exists (map (fun p => (fst p, site hps (snd p))) (grid N 5)).
    assert (E : quad_form (fun x y => wendland_dense D x y hps) (map (fun p => (fst p, site hps (snd p))) (grid N 5)) = hps O * form N 5 (val 683)).
    { unfold quad_form, form. rewrite map_map, <- sl_scal. apply sl_ext_in. intros p Hp. rewrite map_map, <- sl_scal. apply sl_ext_in. intros q Hq.
      cbn [fst snd]. rewrite site_kernel by (try eapply grid_length; eauto). ring. }
    rewrite E. nra.
Qed.
