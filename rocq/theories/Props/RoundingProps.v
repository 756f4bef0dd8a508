(** Properties C163 to C166: double precision. *)
From Coq Require Import Reals ZArith Lra Lia List Psatz.
From Flocq Require Import Core.
From Verif Require Import Spec.Sums Model.Rounding Spec.RoundingSpec Proofs.RoundingP.
Import ListNotations.
Local Open Scope R_scope.

Lemma lit8 : 99 / 10 ^ 10 < lit 8 < 101 / 10 ^ 10.
Proof. pose proof (lit_bound 8 ltac:(lia)) as B. apply Rabs_le_inv in B. unfold u53 in B. simpl in *. lra. Qed.
Lemma lit6 : 99 / 10 ^ 8 < lit 6 < 101 / 10 ^ 8.
Proof. pose proof (lit_bound 6 ltac:(lia)) as B. apply Rabs_le_inv in B. unfold u53 in B. simpl in *. lra. Qed.
Lemma pow27 : bpow radix2 27 = 2 ^ 27. Proof. rewrite pow_IZR. reflexivity. Qed.
Lemma pow34 : bpow radix2 34 = 2 ^ 34. Proof. rewrite pow_IZR. reflexivity. Qed.
Lemma integer_double z : (Z.abs z < 2 ^ 53)%Z -> double (IZR z).
Proof. intros H. exists z, 0%Z. split; [cbn; ring|]. split; [exact H|lia]. Qed.

(** C163 is false: for every function, the kernel derivatives vanish beyond 2^27 (about 1.3e8; Unix times are 1.7e9) and the others beyond 2^34. *)
Theorem fd_double_refuted : forall f x, double x ->
  (2 ^ 27 < Rabs x -> d_kernel_dx f x = 0 /\ dkernel_dh f x = 0) /\
  (2 ^ 34 < Rabs x -> finitediff_dh f x = 0 /\ forward_6 f x = 0 /\ central_6 f x = 0).
Proof.
  intros f x D. apply double_F in D. pose proof lit8. pose proof lit6. rewrite <- pow27, <- pow34.
  assert (P27 : bpow radix2 (27 - 53) = / 67108864) by reflexivity. assert (P34 : bpow radix2 (34 - 53) = / 524288) by reflexivity.
  split; intros H1; repeat match goal with |- _ /\ _ => split end.
  - apply (forward_zero 27); [lia|exact D|exact H1|]. rewrite P27. simpl in *. lra.
  - apply (central_zero 27); [lia|exact D|exact H1|]. rewrite P27. simpl in *. lra.
  - apply (central_zero 34); [lia|exact D|exact H1|]. rewrite P34. simpl in *. lra.
  - apply (forward_zero 34); [lia|exact D|exact H1|]. rewrite P34. simpl in *. lra.
  - apply (central_zero 34); [lia|exact D|exact H1|]. rewrite P34. simpl in *. lra.
Qed.
Print Assumptions fd_double_refuted.
(** a Unix time and a signal variance: both functions have slope one, both derivatives are zero *)
Example fd_double_ex : double 1700000000 /\ d_kernel_dx (fun t => t) 1700000000 = 0 /\ double 200000000 /\ dkernel_dh (fun s => s) 200000000 = 0.
Proof.
  assert (A : double 1700000000) by (apply integer_double; lia). assert (B : double 200000000) by (apply integer_double; lia).
  split; [exact A|]. split; [apply (fd_double_refuted _ _ A); rewrite <- pow27, Rabs_pos_eq by lra; cbn; lra|].
  split; [exact B|]. apply (fd_double_refuted _ _ B); rewrite <- pow27, Rabs_pos_eq by lra; cbn; lra.
Qed.

(** C163, what is true: for arguments up to 2^16 (steps of 1e-8) and 2^22 (steps of 1e-6) an affine function gets its slope to three digits.
    Missing: errors of the values of the function, and slopes below 2^-860. *)
Theorem fd_double_partial : forall a b x, double x -> powerRZ 2 (-860) <= Rabs b ->
  let f := fun t => a + b * t in
  (Rabs x <= 2 ^ 16 -> Rabs (d_kernel_dx f x - b) <= Rabs b / 1000 /\ Rabs (dkernel_dh f x - b) <= Rabs b / 1000) /\
  (Rabs x <= 2 ^ 22 -> Rabs (finitediff_dh f x - b) <= Rabs b / 1000 /\ Rabs (forward_6 f x - b) <= Rabs b / 1000 /\ Rabs (central_6 f x - b) <= Rabs b / 1000).
Proof.
  intros a b x D Hb f. rewrite <- bpow_2 in Hb. pose proof lit8 as L8. pose proof lit6 as L6. pose proof bpow_m60 as M.
  assert (big : forall y, / 10 ^ 9 <= y -> bpow radix2 (-1022) <= Rabs y).
  { intros y Hy. assert (0 < y) by (eapply Rlt_le_trans; [|exact Hy]; simpl; lra). rewrite Rabs_pos_eq by lra.
    eapply Rle_trans; [apply (bpow_le radix2 _ (-60)); lia|]. rewrite M. simpl in Hy. lra. }
  assert (W8 : Rabs (fl (2 * lit 8) - 2 * lit 8) <= u53 * Rabs (2 * lit 8)) by (apply fl_rel, big; simpl in *; lra).
  assert (W6 : Rabs (fl (2 * lit 6) - 2 * lit 6) <= u53 * Rabs (2 * lit 6)) by (apply fl_rel, big; simpl in *; lra).
  assert (V6 : Rabs (fl (2 / 10 ^ 6) - 2 / 10 ^ 6) <= u53 * Rabs (2 / 10 ^ 6)) by (apply fl_rel, big; simpl in *; lra).
  pose proof (lit_bound 6 ltac:(lia)) as B6. apply Rabs_le_inv in B6.
  rewrite (Rabs_pos_eq (2 * lit 8)) in W8 by (simpl in *; lra). rewrite (Rabs_pos_eq (2 * lit 6)) in W6 by (simpl in *; lra). rewrite (Rabs_pos_eq (2 / 10 ^ 6)) in V6 by (simpl; lra).
  apply Rabs_le_inv in W8, W6, V6. unfold u53 in W8, W6, V6, B6.
  split; intros Hx; repeat match goal with |- _ /\ _ => split end.
  - apply (affine_forward _ (2 ^ 16)); [rewrite M; simpl in *; lra|exact Hx|unfold u53; simpl in *; lra|exact Hb].
  - apply (affine_central _ _ (2 ^ 16)); [rewrite M; simpl in *; lra|rewrite M; simpl in *; lra|exact Hx| |exact Hb].
    unfold u53. assert (Rabs (2 * lit 8 - fl (2 * lit 8)) <= / 10 ^ 20) by (apply Rabs_le; simpl in *; lra). simpl in *. lra.
  - apply (affine_central _ _ (2 ^ 22)); [rewrite M; simpl in *; lra|rewrite M; simpl in *; lra|exact Hx| |exact Hb].
    unfold u53. assert (Rabs (2 * lit 6 - fl (2 / 10 ^ 6)) <= / 10 ^ 20) by (apply Rabs_le; simpl in *; lra). simpl in *. lra.
  - apply (affine_forward _ (2 ^ 22)); [rewrite M; simpl in *; lra|exact Hx|unfold u53; simpl in *; lra|exact Hb].
  - apply (affine_central _ _ (2 ^ 22)); [rewrite M; simpl in *; lra|rewrite M; simpl in *; lra|exact Hx| |exact Hb].
    unfold u53. assert (Rabs (2 * lit 6 - fl (2 * lit 6)) <= / 10 ^ 20) by (apply Rabs_le; simpl in *; lra). simpl in *. lra.
Qed.
Print Assumptions fd_double_partial.
Example fd_double_partial_ex : double 100 /\ powerRZ 2 (-860) <= Rabs 3 /\ Rabs 100 <= 2 ^ 16.
Proof.
  split; [apply integer_double; lia|]. split; [|rewrite Rabs_pos_eq by lra; simpl; lra]. rewrite <- bpow_2, Rabs_pos_eq by lra.
  eapply Rle_trans; [apply (bpow_le radix2 _ 0); lia|]. cbn. lra.
Qed.

(** C164 is false: the box [-1, 0.1] (0.1 as a double); the corner of the unit cube is mapped outside *)
Theorem box_double_refuted : exists lo hi, double lo /\ double hi /\ lo = -1 /\ Rabs (hi - / 10) <= / 10 ^ 17 /\ hi < from_unit lo hi 1.
Proof.
  exists (-1), (3602879701896397 * powerRZ 2 (-55)).
  assert (D1 : double (-1)) by (apply integer_double; lia).
  assert (D2 : double (3602879701896397 * powerRZ 2 (-55))) by (exists 3602879701896397%Z, (-55)%Z; split; [reflexivity|split; lia]).
  assert (P55 : powerRZ 2 (-55) = / 36028797018963968) by (rewrite <- bpow_2; reflexivity).
  split; [exact D1|]. split; [exact D2|]. split; [reflexivity|]. rewrite P55. split; [apply Rabs_le; simpl; lra|].
  unfold from_unit, span. destruct (Rlt_dec _ _) as [_|N]; [|lra]. rewrite Rmax_left, Rmin_left, Rmult_1_l by lra.
  set (s := 4953959590107546 * / 4503599627370496).
  assert (Fs : double s).
  { exists 4953959590107546%Z, (-52)%Z. split; [unfold s; rewrite <- bpow_2; reflexivity|split; lia]. }
  apply double_F in Fs.
  assert (E : fl (3602879701896397 * / 36028797018963968 - -1) = s).
  { replace (3602879701896397 * / 36028797018963968 - -1) with (s - 3 / 36028797018963968) by (unfold s; lra).
    apply (lost_down 0); [lia|exact Fs|change (bpow radix2 0) with 1; unfold s; lra|]. change (bpow radix2 (0 - 53)) with (/ 9007199254740992). lra. }
  rewrite E, (fl_id s Fs). replace (-1 + s) with (450359962737050 * / 4503599627370496) by (unfold s; lra). rewrite fl_id; [lra|].
  apply double_F. exists 450359962737050%Z, (-52)%Z. split; [rewrite <- bpow_2; reflexivity|split; lia].
Qed.
Print Assumptions box_double_refuted.
(** C164, what is true: never below the box, monotone, its lower corner reached, above it by rounding errors only, and not at all if the interval starts at zero.
    Missing: logarithmic dimensions (exp and log of the mathematical library). *)
Theorem box_double_partial : forall lo hi u, double lo -> double hi -> lo < hi ->
  lo <= from_unit lo hi u /\ (forall v, u <= v -> from_unit lo hi u <= from_unit lo hi v) /\ from_unit lo hi 0 = lo /\
  from_unit lo hi u <= hi + 3 / 2 ^ 53 * (Rabs lo + Rabs hi) + 3 * powerRZ 2 (-1075) /\
  (lo = 0 -> from_unit lo hi u <= hi).
Proof.
  intros lo hi u L H I. apply double_F in L. apply double_F in H. repeat match goal with |- _ /\ _ => split end.
  - apply from_unit_low, L.
  - intros v. apply from_unit_mono.
  - apply from_unit_0, L.
  - rewrite <- bpow_2. pose proof (from_unit_over lo hi u I) as B. replace (3 / 2 ^ 53) with (3 * u53) by (unfold u53; rewrite pow_IZR; reflexivity). exact B.
  - intros ->. apply from_unit_zero; assumption.
Qed.
Print Assumptions box_double_partial.
Example box_double_ex : from_unit 0 3 1 = 3 /\ from_unit 1 3 (1 / 2) = 2.
Proof.
  assert (D : forall z, (Z.abs z < 2 ^ 53)%Z -> fl (IZR z) = IZR z) by (intros z Hz; apply fl_id, double_F, integer_double, Hz).
  unfold from_unit, span. split.
  - destruct (Rlt_dec 0 3) as [_|N]; [|lra]. rewrite Rmax_left, Rmin_left, Rmult_1_l, Rminus_0_r, Rplus_0_l, !D by (lra || lia). reflexivity.
  - destruct (Rlt_dec 1 3) as [_|N]; [|lra]. rewrite Rmax_left, Rmin_left by lra. replace (3 - 1) with 2 by lra. rewrite (D 2%Z) by lia.
    replace (1 / 2 * 2) with 1 by lra. rewrite (D 1%Z) by lia. replace (1 + 1) with 2 by lra. apply D. lia.
Qed.

Lemma qform_const c x : qform 2 (fun _ _ => c) x = c * (x O + x 1%nat) ^ 2.
Proof. unfold qform. cbn. ring. Qed.
Lemma const_psd c : 0 <= c -> pos_semidefinite 2 (fun _ _ => c).
Proof. intros H x. rewrite qform_const. apply Rmult_le_pos; [exact H|apply pow2_ge_0]. Qed.
Definition doubles (n : nat) (A : nat -> nat -> R) : Prop := forall i j, (i < n)%nat -> (j < n)%nat -> double (A i j).
Lemma lit9 : 99 / 10 ^ 11 < lit 9 < 101 / 10 ^ 11.
Proof. pose proof (lit_bound 9 ltac:(lia)) as B. apply Rabs_le_inv in B. unfold u53 in B. simpl in *. lra. Qed.
Lemma doubles_F n A : doubles n A -> forall i j, (i < n)%nat -> (j < n)%nat -> generic_format radix2 (FLT_exp (-1074) 53) (A i j).
Proof. intros H i j Hi Hj. apply double_F, H; assumption. Qed.
Lemma pow24 : bpow radix2 24 = 2 ^ 24. Proof. rewrite pow_IZR. reflexivity. Qed.
Lemma pow30 : bpow radix2 30 = 2 ^ 30. Proof. rewrite pow_IZR. reflexivity. Qed.

(** C165, what is true: below 2^24 the term has its effect *)
Theorem jitter_double_partial : forall n A, doubles n A -> pos_semidefinite n A -> (forall i, (i < n)%nat -> 0 <= A i i < 2 ^ 24) -> pos_definite n (jitter A).
Proof.
  intros n A D P B. apply definite_of_moves; [apply doubles_F, D|apply lit_F|exact P|]. intros i Hi. apply (moves 24).
  - lia.
  - apply doubles_F with n; assumption.
  - rewrite pow24. apply B, Hi.
  - change (bpow radix2 (24 - 54)) with (/ 1073741824). pose proof lit9. simpl in *. lra.
Qed.
Print Assumptions jitter_double_partial.
(** C165 is false: from 2^24 (1.7e7) on nothing is added; a data point and the same point predicted, signal variance 2e7, stay singular *)
Theorem jitter_double_refuted :
  (forall n A, doubles n A -> (forall i, (i < n)%nat -> 2 ^ 24 <= A i i) -> forall i j, (i < n)%nat -> (j < n)%nat -> jitter A i j = A i j) /\
  exists A, doubles 2 A /\ pos_semidefinite 2 A /\ ~ pos_definite 2 (jitter A).
Proof.
  assert (U : forall n A, doubles n A -> (forall i, (i < n)%nat -> 2 ^ 24 <= A i i) -> forall i j, (i < n)%nat -> (j < n)%nat -> jitter A i j = A i j).
  { intros n A D B. apply (unchanged n 24); [lia|apply doubles_F, D|apply lit_F| |rewrite pow24; exact B].
    change (bpow radix2 (24 - 53)) with (/ 536870912). pose proof lit9. simpl in *. lra. }
  split; [exact U|]. exists (fun _ _ => 20000000).
  assert (D : doubles 2 (fun _ _ => 20000000)) by (intros i j _ _; apply integer_double; lia).
  split; [exact D|]. split.
  - apply const_psd. lra.
  - intros H. specialize (H (fun i => match i with O => 1 | _ => -1 end)). rewrite (qform_ext 2 (fun _ _ => 20000000)) in H.
    + unfold qform in H. cbn in H. assert (0 < 0); [|lra]. eapply Rlt_le_trans; [apply H|right; ring]. exists O. split; [lia|lra].
    + apply U; [exact D|]. intros i _. simpl. lra.
Qed.
Print Assumptions jitter_double_refuted.
(** the same two points with signal variance 2: definite after the addition *)
Example jitter_double_ex : pos_definite 2 (jitter (fun _ _ => 2)).
Proof.
  apply jitter_double_partial.
  - intros i j _ _. apply integer_double. lia.
  - apply const_psd. lra.
  - intros i _. simpl. lra.
Qed.

(** C166, what is true: below 2^30 (dense and incomplete Cholesky) or 2^24 (ilupp) a semidefinite matrix is definite at the last attempt; the first attempt is the matrix itself. *)
Theorem shift_retries_partial : forall n A, doubles n A -> pos_semidefinite n A ->
  (exists B C D M, tried next_dense A = [A; B; C; D; M] /\ ((forall i, (i < n)%nat -> 0 <= A i i < 2 ^ 30) -> pos_definite n M)) /\
  (exists B C D M, tried next_ilupp A = [A; B; C; D; M] /\ ((forall i, (i < n)%nat -> 0 <= A i i < 2 ^ 24) -> pos_definite n M)).
Proof.
  intros n A DA P.
  destruct dense_shifts as [a [b [c [d [E [Fa [Fb [Fc [Fd [Ha [Hb Hd]]]]]]]]]]].
  destruct ilupp_shifts as [a' [b' [c' [d' [E' [Fa' [Fb' [Fc' [Fd' [Ha' [Hb' Hd']]]]]]]]]]].
  unfold tried. rewrite E, E'. cbn [map]. split.
  - exists (on_diagonal a A), (on_diagonal b A), (on_diagonal c A), (on_diagonal d A). split.
    + repeat (destruct (Req_EM_T _ 0); try lra). reflexivity.
    + intros B. apply definite_of_moves; [apply doubles_F, DA|exact Fd|exact P|]. intros i Hi. apply (moves 30).
      * lia.
      * apply doubles_F with n; assumption.
      * rewrite pow30. apply B, Hi.
      * change (bpow radix2 (30 - 54)) with (/ 16777216). simpl in *. lra.
  - exists (on_diagonal a' A), (on_diagonal b' A), (on_diagonal c' A), (on_diagonal d' A). split.
    + repeat (destruct (Req_EM_T _ 0); try lra). reflexivity.
    + intros B. apply definite_of_moves; [apply doubles_F, DA|exact Fd'|exact P|]. intros i Hi. apply (moves 24).
      * lia.
      * apply doubles_F with n; assumption.
      * rewrite pow24. apply B, Hi.
      * change (bpow radix2 (24 - 54)) with (/ 1073741824). simpl in *. lra.
Qed.
Print Assumptions shift_retries_partial.
(** C166 is false: beyond these sizes all five attempts use the same matrix *)
Theorem shift_retries_refuted : forall n A, doubles n A ->
  ((forall i, (i < n)%nat -> 2 ^ 30 <= A i i) -> forall M, In M (tried next_dense A) -> forall i j, (i < n)%nat -> (j < n)%nat -> M i j = A i j) /\
  ((forall i, (i < n)%nat -> 2 ^ 24 <= A i i) -> forall M, In M (tried next_ilupp A) -> forall i j, (i < n)%nat -> (j < n)%nat -> M i j = A i j).
Proof.
  intros n A DA.
  destruct dense_shifts as [a [b [c [d [E [Fa [Fb [Fc [Fd [Ha [Hb Hd]]]]]]]]]]].
  destruct ilupp_shifts as [a' [b' [c' [d' [E' [Fa' [Fb' [Fc' [Fd' [Ha' [Hb' Hd']]]]]]]]]]].
  unfold tried. rewrite E, E'. cbn [map].
  assert (K : forall k s, (24 <= k <= 30)%Z -> generic_format radix2 (FLT_exp (-1074) 53) s -> 0 < s < bpow radix2 (k - 53) -> (forall i, (i < n)%nat -> bpow radix2 k <= A i i) ->
    forall M, (if Req_EM_T s 0 then A else on_diagonal s A) = M -> forall i j, (i < n)%nat -> (j < n)%nat -> M i j = A i j).
  { intros k s Hk Fs Hs B M <- i j Hi Hj. destruct (Req_EM_T s 0); [reflexivity|].
    apply (unchanged n k); [lia|apply doubles_F, DA|exact Fs|lra|exact B|exact Hi|exact Hj]. }
  split; intros B M I i j Hi Hj; (destruct I as [<-|I]; [destruct (Req_EM_T 0 0); [reflexivity|lra]|]).
  - rewrite <- pow30 in B. assert (X : bpow radix2 (30 - 53) = / 8388608) by reflexivity.
    destruct I as [I|[I|[I|[I|[]]]]]; refine (K 30%Z _ _ _ _ B M I i j Hi Hj); try lia; try assumption; rewrite X; simpl in *; lra.
  - rewrite <- pow24 in B. assert (X : bpow radix2 (24 - 53) = / 536870912) by reflexivity.
    destruct I as [I|[I|[I|[I|[]]]]]; refine (K 24%Z _ _ _ _ B M I i j Hi Hj); try lia; try assumption; rewrite X; simpl in *; lra.
Qed.
Print Assumptions shift_retries_refuted.
(** a singular block with variance 3e9: singular in all five attempts *)
Example shift_retries_ex : forall M, In M (tried next_dense (fun _ _ => 3000000000)) -> pos_semidefinite 2 M /\ ~ pos_definite 2 M.
Proof.
  intros M I. assert (D : doubles 2 (fun _ _ => 3000000000)) by (intros i j _ _; apply integer_double; lia).
  assert (B : forall i, (i < 2)%nat -> 2 ^ 30 <= (fun _ _ : nat => 3000000000) i i) by (intros i _; simpl; lra).
  assert (E := proj1 (shift_retries_refuted 2 _ D) B M I). split.
  - intros x. rewrite (qform_ext 2 (fun _ _ => 3000000000)) by exact E. apply const_psd. lra.
  - intros H. specialize (H (fun i => match i with O => 1 | _ => -1 end)). rewrite (qform_ext 2 (fun _ _ => 3000000000)) in H by exact E.
    unfold qform in H. cbn in H. assert (0 < 0); [|lra]. eapply Rlt_le_trans; [apply H|right; ring]. exists O. split; [lia|lra].
Qed.
