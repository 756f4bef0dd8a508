(** Quadratic forms with alternating signs on a cubic grid: their value per point tends to a finite lattice sum. *)
From Coq Require Import Reals Lra Lia List ZArith.
From Coquelicot Require Import Coquelicot.
From Verif Require Import Spec.Sums Spec.KernelSpec Proofs.PsdP Proofs.KernelSupportP.
Import ListNotations.
Local Open Scope R_scope.

Definition ad (x y : nat) : nat := (x - y + (y - x))%nat.
Fixpoint dsq (a b : list nat) : nat :=
  match a, b with x :: s, y :: t => (ad x y * ad x y + dsq s t)%nat | _, _ => 0%nat end.
Fixpoint grid (N d : nat) : list (R * list nat) :=
  match d with
  | O => [(1, [])]
  | S e => flat_map (fun x => map (fun p => ((-1) ^ x * fst p, x :: snd p)) (grid N e)) (seq 0 N)
  end.
Definition form (N d : nat) (g : nat -> R) : R :=
  sum_list (map (fun p => sum_list (map (fun q => fst p * fst q * g (dsq (snd p) (snd q))) (grid N d))) (grid N d)).

Lemma sl_flat {A B} (f : B -> R) (h : A -> list B) l : sum_list (map f (flat_map h l)) = sum_list (map (fun a => sum_list (map f (h a))) l).
Proof. induction l; cbn; [reflexivity|]. rewrite map_app, sl_app, IHl. reflexivity. Qed.
Lemma sl_seq f n : sum_list (map f (seq 0 n)) = rsum f n.
Proof. induction n; [reflexivity|]. rewrite seq_S, map_app, sl_app, IHn. cbn. ring. Qed.
Lemma sl_rsum {A} (f : A -> nat -> R) n l : sum_list (map (fun a => rsum (f a) n) l) = rsum (fun i => sum_list (map (fun a => f a i) l)) n.
Proof.
  induction l as [|a l IH].
  - change (0 = rsum (fun _ => 0) n). induction n; cbn; [reflexivity|]. rewrite <- IHn. ring.
  - change (rsum (f a) n + sum_list (map (fun a => rsum (f a) n) l) = rsum (fun i => f a i + sum_list (map (fun a => f a i) l)) n).
    rewrite IH, <- rsum_plus. reflexivity.
Qed.
Lemma grid_length N d p : In p (grid N d) -> length (snd p) = d.
Proof.
  revert p. induction d; cbn; [intros p [<-|[]]; reflexivity|]. intros p H. apply in_flat_map in H as [x [_ H]].
  apply in_map_iff in H as [q [<- H]]. cbn. f_equal. auto.
Qed.
Lemma form_step N d g : form N (S d) g =
  rsum (fun x => rsum (fun y => (-1) ^ x * (-1) ^ y * form N d (fun k => g (ad x y * ad x y + k)%nat)) N) N.
Proof.
  unfold form at 1. cbn [grid]. rewrite sl_flat, sl_seq. apply rsum_ext. intros x _. rewrite map_map.
  rewrite (sl_ext _ (fun p => rsum (fun y => sum_list (map (fun q => (-1) ^ x * (-1) ^ y * (fst p * fst q * g (ad x y * ad x y + dsq (snd p) (snd q))%nat)) (grid N d))) N)).
  2:{ intros p. rewrite sl_flat, sl_seq. apply rsum_ext. intros y _. rewrite map_map. apply sl_ext. intros q. cbn [fst snd dsq]. ring. }
  rewrite sl_rsum. apply rsum_ext. intros y _. unfold form. rewrite <- sl_scal. apply sl_ext. intros p. rewrite <- sl_scal. reflexivity.
Qed.
(** pairs of a line, grouped by their distance *)
Definition wt (N m : nat) : R := match m with O => INR N | _ => 2 * (INR N - INR m) * (-1) ^ m end.
Lemma rsum_rev f n : rsum (fun i => f (n - S i)%nat) n = rsum f n.
Proof.
  induction n; [reflexivity|]. rewrite rsum_first. replace (S n - 1)%nat with n by lia. cbn [rsum]. rewrite <- IHn. rewrite Rplus_comm. reflexivity.
Qed.
Lemma alt_sq n : (-1) ^ n * (-1) ^ n = 1.
Proof. rewrite <- pow_add. replace (n + n)%nat with (2 * n)%nat by lia. rewrite pow_mult. replace ((-1) ^ 2) with 1 by ring. apply pow1. Qed.
Lemma alt_sub n x : (x <= n)%nat -> (-1) ^ x * (-1) ^ n = (-1) ^ (n - x).
Proof.
  intros H. replace n with (x + (n - x))%nat at 1 by lia. rewrite pow_add, <- Rmult_assoc, alt_sq. ring.
Qed.
Lemma line_pairs h N : rsum (fun x => rsum (fun y => (-1) ^ x * (-1) ^ y * h (ad x y)) N) N = rsum (fun m => wt N m * h m) (S N).
Proof.
  induction N; [cbn; ring|].
  cbn [rsum]. rewrite rsum_plus. rewrite IHN.
  assert (A : rsum (fun x => (-1) ^ x * (-1) ^ N * h (ad x N)) N = rsum (fun m => (-1) ^ (S m) * h (S m)) N).
  { rewrite <- rsum_rev. apply rsum_ext. intros i Hi. rewrite alt_sub by lia. unfold ad. replace (N - (N - S i))%nat with (S i) by lia.
    replace (N - S i - N + S i)%nat with (S i) by lia. reflexivity. }
  assert (B : rsum (fun y => (-1) ^ N * (-1) ^ y * h (ad N y)) N = rsum (fun m => (-1) ^ (S m) * h (S m)) N).
  { rewrite <- A. apply rsum_ext. intros i Hi. unfold ad. rewrite (Nat.add_comm (N - i)). ring. }
  rewrite A, B, alt_sq. replace (ad N N) with O by (unfold ad; lia).
  change (rsum (fun m => wt (S N) m * h m) N + wt (S N) N * h N + wt (S N) (S N) * h (S N)) with (rsum (fun m => wt (S N) m * h m) (S (S N))).
  rewrite (rsum_first (fun m => wt (S N) m * h m)), (rsum_first (fun m => wt N m * h m)). cbn [rsum].
  replace (wt (S N) 0) with (wt N 0 + 1) by (unfold wt; rewrite S_INR; ring).
  replace (wt (S N) (S N)) with 0 by (unfold wt; ring).
  rewrite (rsum_ext (fun i => wt (S N) (S i) * h (S i)) (fun i => wt N (S i) * h (S i) + 2 * ((-1) ^ S i * h (S i)))).
  2:{ intros i _. unfold wt. rewrite (S_INR N). ring. }
  rewrite rsum_plus, rsum_scal. ring.
Qed.
(** their limit per point *)
Definition lwt (m : nat) : R := match m with O => 1 | _ => 2 * (-1) ^ m end.
Lemma wt_lim m : is_lim_seq (fun N => wt N m / INR N) (lwt m).
Proof.
  unfold lwt.
  destruct m.
  - apply is_lim_seq_ext_loc with (fun _ => 1); [|apply is_lim_seq_const]. exists 1%nat. intros n Hn. unfold wt. field. apply not_0_INR. lia.
  - apply is_lim_seq_ext_loc with (fun N => 2 * (-1) ^ S m - 2 * (-1) ^ S m * INR (S m) * / INR N).
    + exists 1%nat. intros n Hn. unfold wt. field. apply not_0_INR. lia.
    + replace (Finite (2 * (-1) ^ S m)) with (Rbar_plus (2 * (-1) ^ S m) (Rbar_opp (Rbar_mult (2 * (-1) ^ S m * INR (S m)) 0))).
      2:{ cbn [Rbar_mult Rbar_mult' Rbar_opp]. rewrite Rmult_0_r. cbn. f_equal. ring. }
      apply is_lim_seq_minus'; [apply is_lim_seq_const|]. replace 0 with (0 : R) by reflexivity.
      apply (is_lim_seq_scal_l (fun N => / INR N) (2 * (-1) ^ S m * INR (S m)) 0).
      apply (is_lim_seq_inv INR p_infty); [apply is_lim_seq_INR|discriminate].
Qed.
(** the lattice sum: [M] bounds the coordinates that matter *)
Fixpoint lat (M d : nat) (g : nat -> R) : R :=
  match d with O => g O | S e => rsum (fun m => lwt m * lat M e (fun k => g (m * m + k)%nat)) M end.
Lemma form_zero N d : form N d (fun _ => 0) = 0.
Proof.
  unfold form. rewrite (sl_ext _ (fun _ => 0 * 0)); [rewrite sl_scal; ring|]. intros p. rewrite (sl_ext _ (fun _ => 0 * 0)); [rewrite sl_scal; ring|].
  intros; ring.
Qed.
Lemma form_ext N d g h : (forall k, g k = h k) -> form N d g = form N d h.
Proof. intros H. unfold form. apply sl_ext. intros p. apply sl_ext. intros q. rewrite H. reflexivity. Qed.
Lemma rsum_lim (f : nat -> nat -> R) (l : nat -> R) M : (forall m, (m < M)%nat -> is_lim_seq (fun n => f n m) (l m)) ->
  is_lim_seq (fun n => rsum (f n) M) (rsum l M).
Proof.
  induction M; intros H; cbn; [apply is_lim_seq_const|]. apply is_lim_seq_plus'; [apply IHM; intros; apply H; lia|apply H; lia].
Qed.
Lemma form_lim M d g : (forall k, (M * M <= k)%nat -> g k = 0) -> is_lim_seq (fun N => form N d g / INR N ^ d) (lat M d g).
Proof.
  revert g. induction d; intros g Z.
  - apply is_lim_seq_ext with (fun _ => g O); [|apply is_lim_seq_const]. intros N. unfold form. cbn. field.
  - apply is_lim_seq_ext_loc with (fun N => rsum (fun m => wt N m / INR N * (form N d (fun k => g (m * m + k)%nat) / INR N ^ d)) M).
    + exists (S M). intros N HN. rewrite form_step, (line_pairs (fun m => form N d (fun k => g (m * m + k)%nat))).
      rewrite (rsum_pad (fun m => wt N m * form N d (fun k => g (m * m + k)%nat)) M (S N)).
      * assert (P : INR N <> 0) by (apply not_0_INR; lia). symmetry. unfold Rdiv at 1. rewrite Rmult_comm, <- rsum_scal. apply rsum_ext. intros m _. cbn [pow].
        field. split; [apply pow_nonzero|]; exact P.
      * lia.
      * intros m Hm. rewrite (form_ext _ _ _ (fun _ => 0)); [rewrite form_zero; ring|]. intros k. apply Z. nia.
    + cbn [lat]. apply rsum_lim. intros m _. apply is_lim_seq_mult'; [apply wt_lim|]. apply IHd. intros k Hk. apply Z. lia.
Qed.
Theorem lattice_negative M d g : (forall k, (M * M <= k)%nat -> g k = 0) -> lat M d g < 0 -> exists N, form N d g < 0.
Proof.
  intros Z L. pose proof (form_lim M d g Z) as H. apply is_lim_seq_spec in H. cbn in H.
  assert (E : 0 < - lat M d g) by lra. destruct (H (mkposreal _ E)) as [N0 HN]. exists (S N0).
  specialize (HN (S N0) ltac:(lia)). cbn [pos] in HN. apply Rabs_def2 in HN as [HN _].
  assert (P : 0 < INR (S N0) ^ d) by (apply pow_lt, lt_0_INR; lia).
  apply Rmult_lt_reg_r with (/ INR (S N0) ^ d); [apply Rinv_0_lt_compat, P|]. rewrite Rmult_0_l. unfold Rdiv in HN. lra.
Qed.

(** Evaluation: the lattice sum as integer coefficients of the values of [g], by Horner's rule, cut at length [n]. *)
Fixpoint dot (c : list Z) (g : nat -> R) : R :=
  match c with [] => 0 | a :: t => IZR a * g O + dot t (fun k => g (S k)) end.
Fixpoint axpy (n : nat) (w : Z) (c a : list Z) : list Z :=
  match n with
  | O => []
  | S n' => match c, a with
            | x :: c', y :: a' => (w * x + y)%Z :: axpy n' w c' a'
            | x :: c', [] => (w * x)%Z :: axpy n' w c' []
            | [], y :: a' => y :: axpy n' w [] a'
            | [], [] => []
            end
  end.
Definition zwt (m : nat) : Z := match m with O => 1 | _ => if Nat.even m then 2 else -2 end%Z.
Fixpoint zeros (n : nat) (c : list Z) : list Z := match n with O => c | S n' => 0%Z :: zeros n' c end.
Fixpoint horner (n m f : nat) (c : list Z) : list Z :=
  match f with
  | O => []
  | S f' => axpy n (zwt m) c (zeros (2 * m + 1) (horner (n - (2 * m + 1)) (S m) f' c))
  end.
Fixpoint coeffs (n M d : nat) : list Z := match d with O => [1%Z] | S e => horner n 0 M (coeffs n M e) end.

Lemma dot_ext c g h : (forall k, g k = h k) -> dot c g = dot c h.
Proof. revert g h. induction c; intros g h H; cbn; [reflexivity|]. rewrite H. f_equal. apply IHc. intros; apply H. Qed.
Lemma dot_zero c g : (forall k, g k = 0) -> dot c g = 0.
Proof. revert g. induction c; intros g H; cbn; [reflexivity|]. rewrite H, IHc by (intros; apply H). ring. Qed.
Lemma dot_axpy n w c a g : (forall k, (n <= k)%nat -> g k = 0) -> dot (axpy n w c a) g = IZR w * dot c g + dot a g.
Proof.
  revert c a g. induction n; intros c a g H.
  - cbn. rewrite !dot_zero by (intros; apply H; lia). ring.
  - assert (H' : forall k, (n <= k)%nat -> g (S k) = 0) by (intros; apply H; lia).
    destruct c, a; cbn [axpy dot]; rewrite ?IHn by exact H'; cbn [dot]; rewrite ?plus_IZR, ?mult_IZR; ring.
Qed.
Lemma dot_zeros n c g : dot (zeros n c) g = dot c (fun k => g (n + k)%nat).
Proof. revert g. induction n; intros g; cbn; [reflexivity|]. rewrite IHn. ring. Qed.
Lemma zwt_lwt m : IZR (zwt m) = lwt m.
Proof.
  destruct m; [reflexivity|]. unfold zwt, lwt. destruct (Nat.even (S m)) eqn:E.
  - apply Nat.even_spec in E as [j ->]. rewrite pow_mult. replace ((-1) ^ 2) with 1 by ring. rewrite pow1. ring.
  - assert (O : Nat.odd (S m) = true) by (unfold Nat.odd; rewrite E; reflexivity). apply Nat.odd_spec in O as [j ->].
    rewrite pow_add, pow_mult. replace ((-1) ^ 2) with 1 by ring. rewrite pow1. cbn. ring.
Qed.
Lemma dot_horner f : forall n m c g, (forall k, (n <= k)%nat -> g k = 0) ->
  dot (horner n m f c) g = rsum (fun i => lwt (m + i) * dot c (fun k => g ((m + i) * (m + i) - m * m + k)%nat)) f.
Proof.
  induction f; intros n m c g H; [reflexivity|].
  cbn [horner]. rewrite dot_axpy by exact H. rewrite dot_zeros, IHf by (intros k Hk; apply H; lia).
  rewrite rsum_first, zwt_lwt. f_equal.
  - rewrite Nat.add_0_r. f_equal. apply dot_ext. intros k. f_equal. lia.
  - apply rsum_ext. intros i _. replace (m + S i)%nat with (S m + i)%nat by lia. f_equal. apply dot_ext. intros k. f_equal. nia.
Qed.
Lemma lat_ext M d g h : (forall k, g k = h k) -> lat M d g = lat M d h.
Proof.
  revert g h. induction d; intros g h H; cbn; [apply H|]. apply rsum_ext. intros m _. f_equal. apply IHd. intros; apply H.
Qed.
Lemma lat_coeffs n M d g : (forall k, (n <= k)%nat -> g k = 0) -> lat M d g = dot (coeffs n M d) g.
Proof.
  revert g. induction d; intros g H; [cbn; ring|].
  cbn [lat coeffs]. rewrite dot_horner by exact H. apply rsum_ext. intros m _. cbn [Nat.add]. rewrite Nat.mul_0_r. f_equal.
  rewrite IHd by (intros; apply H; lia). apply dot_ext. intros k. f_equal. lia.
Qed.
