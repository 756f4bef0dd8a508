(** Error bounds of difference quotients. *)
From Coq Require Import Reals Lra.
From Coquelicot Require Import Coquelicot.
From Verif Require Import Model.FiniteDiff Spec.FiniteDiffSpec.
Local Open Scope R_scope.

(** a function that starts at 0 and grows no faster than G *)
Lemma growth : forall (g G dg dG : R -> R) e, 0 <= e -> g 0 = 0 -> G 0 = 0 ->
  (forall t : R, 0 <= t <= e -> is_derive g t (dg t) /\ is_derive G t (dG t) /\ Rabs (dg t) <= dG t) -> Rabs (g e) <= G e.
Proof.
  intros g G dg dG e He g0 G0 H.
  assert (P : forall s : R, s = 1 \/ s = -1 -> 0 <= G e + s * g e).
  { intros s Hs.
    destruct (MVT_gen (fun t => G t + s * g t) 0 e (fun t => dG t + s * dg t)) as [c [Hc E]].
    - intros t Ht. rewrite Rmin_left, Rmax_right in Ht by lra. destruct (H t ltac:(lra)) as [D1 [D2 _]].
      apply (is_derive_plus (V := R_NormedModule)); [exact D2|]. apply (is_derive_scal g t s (dg t)). exact D1.
    - intros t Ht. rewrite Rmin_left, Rmax_right in Ht by lra. destruct (H t ltac:(lra)) as [D1 [D2 _]].
      apply continuity_pt_filterlim. apply (ex_derive_continuous (V := R_NormedModule) (fun t : R => G t + s * g t) t).
      exists (dG t + s * dg t). apply (is_derive_plus (V := R_NormedModule)); [exact D2|]. apply (is_derive_scal g t s (dg t)). exact D1.
    - rewrite Rmin_left, Rmax_right in Hc by lra. rewrite g0, G0 in E.
      destruct (H c Hc) as [_ [_ B]]. apply Rabs_le_between in B.
      assert (0 <= dG c + s * dg c) by (destruct Hs; subst; lra). nra. }
  apply Rabs_le. generalize (P 1 (or_introl eq_refl)) (P (-1) (or_intror eq_refl)). lra.
Qed.

Lemma central_error : forall (f : R -> R) x e M d1, 0 < e -> smooth3 f x e M d1 ->
  Rabs ((f (x + e) - f (x - e)) / (2 * e) - d1) <= M * e ^ 2 / 6.
Proof.
  intros f x e M d1 He [f1 [f2 [f3 [E1 H]]]]. subst d1.
  assert (HP : forall t, 0 <= t <= e -> Rabs (x + t - x) <= e) by (intros t Ht; apply Rabs_le; lra).
  assert (HM : forall t, 0 <= t <= e -> Rabs (x - t - x) <= e) by (intros t Ht; apply Rabs_le; lra).
  assert (DP : forall (g dg : R -> R) t, is_derive g (x + t) (dg (x + t)) -> is_derive (fun s : R => g (x + s)) t (dg (x + t))).
  { intros g dg t D. rewrite <- (Rmult_1_l (dg (x + t))). apply (is_derive_comp g (fun s => x + s) t (dg (x + t)) 1); [exact D|].
    auto_derive; [trivial | ring]. }
  assert (DM : forall (g dg : R -> R) t, is_derive g (x - t) (dg (x - t)) -> is_derive (fun s : R => g (x - s)) t (- dg (x - t))).
  { intros g dg t D. replace (- dg (x - t)) with (-1 * dg (x - t)) by ring.
    apply (is_derive_comp g (fun s => x - s) t (dg (x - t)) (-1)); [exact D|]. auto_derive; [trivial | ring]. }
  (* second derivative of the odd part *)
  assert (A2 : forall t, 0 <= t <= e -> Rabs (f2 (x + t) - f2 (x - t)) <= 2 * M * t).
  { intros t Ht. apply (growth (fun s => f2 (x + s) - f2 (x - s)) (fun s => 2 * M * s) (fun s => f3 (x + s) - - f3 (x - s)) (fun _ => 2 * M)); [lra| |ring|].
    - rewrite Rplus_0_r, Rminus_0_r. ring.
    - intros s Hs. destruct (H (x + s) (HP s ltac:(lra))) as [_ [_ [D3 B3]]]. destruct (H (x - s) (HM s ltac:(lra))) as [_ [_ [D3' B3']]].
      split; [|split].
      + apply (is_derive_minus (V := R_NormedModule)); [apply (DP f2 f3); exact D3 | apply (DM f2 f3); exact D3'].
      + auto_derive; [trivial | ring].
      + apply Rabs_le. apply Rabs_le_between in B3, B3'. lra. }
  assert (A1 : forall t, 0 <= t <= e -> Rabs (f1 (x + t) + f1 (x - t) - 2 * f1 x) <= M * t ^ 2).
  { intros t Ht. apply (growth (fun s => f1 (x + s) + f1 (x - s) - 2 * f1 x) (fun s => M * s ^ 2) (fun s => f2 (x + s) + - f2 (x - s) - 0) (fun s => 2 * M * s)); [lra| |ring|].
    - rewrite Rplus_0_r, Rminus_0_r. ring.
    - intros s Hs. destruct (H (x + s) (HP s ltac:(lra))) as [_ [D2 _]]. destruct (H (x - s) (HM s ltac:(lra))) as [_ [D2' _]].
      split; [|split].
      + apply (is_derive_minus (V := R_NormedModule)); [|apply (is_derive_const (V := R_NormedModule))].
        apply (is_derive_plus (V := R_NormedModule)); [apply (DP f1 f2); exact D2 | apply (DM f1 f2); exact D2'].
      + auto_derive; [trivial | ring].
      + replace (f2 (x + s) + - f2 (x - s) - 0) with (f2 (x + s) - f2 (x - s)) by ring. apply A2. lra. }
  assert (A0 : Rabs (f (x + e) - f (x - e) - 2 * f1 x * e) <= M * e ^ 3 / 3).
  { apply (growth (fun s => f (x + s) - f (x - s) - 2 * f1 x * s) (fun s => M * s ^ 3 / 3) (fun s => f1 (x + s) - - f1 (x - s) - 2 * f1 x) (fun s => M * s ^ 2)); [lra| |field|].
    - rewrite Rplus_0_r, Rminus_0_r. ring.
    - intros s Hs. destruct (H (x + s) (HP s Hs)) as [D1 _]. destruct (H (x - s) (HM s Hs)) as [D1' _].
      split; [|split].
      + apply (is_derive_minus (V := R_NormedModule)).
        * apply (is_derive_minus (V := R_NormedModule)); [apply (DP f f1); exact D1 | apply (DM f f1); exact D1'].
        * auto_derive; [trivial | ring].
      + auto_derive; [trivial | field].
      + replace (f1 (x + s) - - f1 (x - s) - 2 * f1 x) with (f1 (x + s) + f1 (x - s) - 2 * f1 x) by ring. apply A1. lra. }
  replace ((f (x + e) - f (x - e)) / (2 * e) - f1 x) with ((f (x + e) - f (x - e) - 2 * f1 x * e) * / (2 * e)) by (field; lra).
  rewrite Rabs_mult, (Rabs_pos_eq (/ (2 * e))) by (apply Rlt_le, Rinv_0_lt_compat; lra).
  apply Rmult_le_reg_r with (2 * e); [lra|]. rewrite Rmult_assoc, Rinv_l by lra. rewrite Rmult_1_r.
  replace (M * e ^ 2 / 6 * (2 * e)) with (M * e ^ 3 / 3) by field. exact A0.
Qed.

Lemma forward_error : forall (f : R -> R) x e M d1, 0 < e -> smooth2 f x e M d1 ->
  Rabs ((f (x + e) - f x) / e - d1) <= M * e / 2.
Proof.
  intros f x e M d1 He [f1 [f2 [E1 H]]]. subst d1.
  assert (HP : forall t, 0 <= t <= e -> Rabs (x + t - x) <= e) by (intros t Ht; apply Rabs_le; lra).
  assert (DP : forall (g dg : R -> R) t, is_derive g (x + t) (dg (x + t)) -> is_derive (fun s : R => g (x + s)) t (dg (x + t))).
  { intros g dg t D. rewrite <- (Rmult_1_l (dg (x + t))). apply (is_derive_comp g (fun s => x + s) t (dg (x + t)) 1); [exact D|].
    auto_derive; [trivial | ring]. }
  assert (A1 : forall t, 0 <= t <= e -> Rabs (f1 (x + t) - f1 x) <= M * t).
  { intros t Ht. apply (growth (fun s => f1 (x + s) - f1 x) (fun s => M * s) (fun s => f2 (x + s) - 0) (fun _ => M)); [lra| |ring|].
    - rewrite Rplus_0_r. ring.
    - intros s Hs. destruct (H (x + s) (HP s ltac:(lra))) as [_ [D2 B]]. split; [|split].
      + apply (is_derive_minus (V := R_NormedModule)); [apply (DP f1 f2); exact D2 | apply (is_derive_const (V := R_NormedModule))].
      + auto_derive; [trivial | ring].
      + rewrite Rminus_0_r. exact B. }
  assert (A0 : Rabs (f (x + e) - f x - f1 x * e) <= M * e ^ 2 / 2).
  { apply (growth (fun s => f (x + s) - f x - f1 x * s) (fun s => M * s ^ 2 / 2) (fun s => f1 (x + s) - 0 - f1 x) (fun s => M * s)); [lra| |field|].
    - rewrite Rplus_0_r. ring.
    - intros s Hs. destruct (H (x + s) (HP s Hs)) as [D1 _]. split; [|split].
      + apply (is_derive_minus (V := R_NormedModule)).
        * apply (is_derive_minus (V := R_NormedModule)); [apply (DP f f1); exact D1 | apply (is_derive_const (V := R_NormedModule))].
        * auto_derive; [trivial | ring].
      + auto_derive; [trivial | field].
      + rewrite Rminus_0_r. apply A1. exact Hs. }
  replace ((f (x + e) - f x) / e - f1 x) with ((f (x + e) - f x - f1 x * e) * / e) by (field; lra).
  rewrite Rabs_mult, (Rabs_pos_eq (/ e)) by (apply Rlt_le, Rinv_0_lt_compat; lra).
  apply Rmult_le_reg_r with e; [lra|]. rewrite Rmult_assoc, Rinv_l by lra. rewrite Rmult_1_r.
  replace (M * e / 2 * e) with (M * e ^ 2 / 2) by field. exact A0.
Qed.

Lemma truncate_Z : forall z : Z, truncate (IZR z) = IZR z.
Proof.
  assert (I : forall z, Int_part (IZR z) = z).
  { intro z. unfold Int_part. rewrite <- (tech_up (IZR z) (z + 1)); [ring| |]; rewrite plus_IZR; lra. }
  intro z. unfold truncate. destruct (Rle_dec 0 (IZR z)); [rewrite I; reflexivity|].
  replace (- IZR z) with (IZR (- z)) by apply opp_IZR. rewrite I, opp_IZR. ring.
Qed.
(** an integer moved by less than one towards or away from zero *)
Lemma truncate_up : forall (z : Z) e, 0 < e < 1 -> (0 <= z)%Z -> truncate (IZR z + e) = IZR z.
Proof.
  intros z e He Hz. apply IZR_le in Hz. unfold truncate. destruct (Rle_dec 0 (IZR z + e)); [|lra].
  unfold Int_part. rewrite <- (tech_up (IZR z + e) (z + 1)); [f_equal; ring| |]; rewrite plus_IZR; lra.
Qed.
Lemma truncate_down : forall (z : Z) e, 0 < e < 1 -> (1 <= z)%Z -> truncate (IZR z - e) = IZR (z - 1).
Proof.
  intros z e He Hz. apply IZR_le in Hz. unfold truncate. destruct (Rle_dec 0 (IZR z - e)); [|lra].
  unfold Int_part. rewrite <- (tech_up (IZR z - e) z); [f_equal| |]; lra.
Qed.
