From Coq Require Import Reals Lra Lia List.
From Verif Require Import Model.Prelude Model.TrainPlan Spec.TrainPlanSpec.
Import ListNotations.
Local Open Scope R_scope.

Lemma rmax_ge : forall l a x, In x (a :: l) -> x <= rmax_list a l.
Proof.
  induction l as [|b l IH]; intros a x H; simpl in *.
  - destruct H as [->|[]]. lra.
  - destruct H as [->|H]; [apply Rmax_l|]. eapply Rle_trans; [apply (IH b x); exact H | apply Rmax_r].
Qed.
Lemma rmin_le : forall l a x, In x (a :: l) -> rmin_list a l <= x.
Proof.
  induction l as [|b l IH]; intros a x H; simpl in *.
  - destruct H as [->|[]]. lra.
  - destruct H as [->|H]; [apply Rmin_l|]. eapply Rle_trans; [apply Rmin_r | apply (IH b x); exact H].
Qed.
Lemma rmax_in : forall l a, In (rmax_list a l) (a :: l).
Proof.
  induction l as [|b l IH]; intro a; simpl; [left; reflexivity|].
  unfold Rmax. destruct (Rle_dec a (rmax_list b l)); [right; apply IH | left; reflexivity].
Qed.
Lemma rmin_in : forall l a, In (rmin_list a l) (a :: l).
Proof.
  induction l as [|b l IH]; intro a; simpl; [left; reflexivity|].
  unfold Rmin. destruct (Rle_dec a (rmin_list b l)); [left; reflexivity | right; apply IH].
Qed.
Lemma range_nonneg : forall c, 0 <= col_range c.
Proof.
  intros [|a l]; simpl; [lra|]. assert (H := rmax_ge l a a (or_introl eq_refl)). assert (K := rmin_le l a a (or_introl eq_refl)). lra.
Qed.
Lemma range_pos_iff : forall c, 0 < col_range c <-> varies c.
Proof.
  intros [|a l]; simpl.
  - split; [lra|]. intros [x [y [[] _]]].
  - split.
    + intro H. exists (rmax_list a l), (rmin_list a l). split; [apply rmax_in|]. split; [apply rmin_in | lra].
    + intros [x [y [Hx [Hy N]]]].
      assert (A := rmax_ge l a x Hx). assert (B := rmax_ge l a y Hy). assert (C := rmin_le l a x Hx). assert (D := rmin_le l a y Hy).
      destruct (Rtotal_order x y) as [L|[E|G]]; [lra | contradiction | lra].
Qed.

Lemma rsuml_sq_nonneg : forall m l, 0 <= rsuml (map (fun v => (v - m) ^ 2) l).
Proof.
  induction l as [|a l IH]; [unfold rsuml; simpl; lra|].
  change (rsuml (map (fun v => (v - m) ^ 2) (a :: l))) with ((a - m) ^ 2 + rsuml (map (fun v => (v - m) ^ 2) l)).
  assert (H := pow2_ge_0 (a - m)). lra.
Qed.
Lemma rsuml_sq_zero : forall m l, rsuml (map (fun v => (v - m) ^ 2) l) = 0 -> forall x, In x l -> x = m.
Proof.
  induction l as [|a l IH]; intros H x Hx; [destruct Hx|].
  change (rsuml (map (fun v => (v - m) ^ 2) (a :: l))) with ((a - m) ^ 2 + rsuml (map (fun v => (v - m) ^ 2) l)) in H.
  assert (P := rsuml_sq_nonneg m l). assert (Q := pow2_ge_0 (a - m)).
  destruct Hx as [->|Hx]; [|apply IH; [lra | exact Hx]].
  assert (Z : (x - m) ^ 2 = 0) by lra. assert (x - m = 0); [|lra].
  destruct (Req_dec (x - m) 0) as [E|N]; [exact E|]. exfalso. apply (pow_nonzero _ 2) in N. contradiction.
Qed.
Lemma rsuml_const : forall l m, (forall x, In x l -> x = m) -> rsuml l = INR (length l) * m.
Proof.
  induction l as [|a l IH]; intros m H; [simpl; ring|].
  change (rsuml (a :: l)) with (a + rsuml l). rewrite (IH m) by (intros x Hx; apply H; right; exact Hx).
  rewrite (H a (or_introl eq_refl)). change (length (m :: l)) with (S (length l)). change (length (a :: l)) with (S (length l)). rewrite S_INR. ring.
Qed.
Lemma len_pos : forall (A : Type) (l : list A), l <> [] -> 0 < INR (length l).
Proof. intros A [|a l] H; [contradiction|]. apply lt_0_INR. simpl. lia. Qed.
Lemma var_nonneg : forall y, 0 <= np_var y.
Proof.
  intro y. unfold np_var at 1, np_mean at 1. rewrite map_length. destruct y as [|a l]; [simpl; unfold Rdiv; lra|].
  apply Rmult_le_pos; [apply rsuml_sq_nonneg|]. left. apply Rinv_0_lt_compat, len_pos. discriminate.
Qed.
Lemma var_pos_iff : forall y, y <> [] -> (0 < np_var y <-> varies y).
Proof.
  intros y N. assert (L := len_pos R y N). assert (LI := Rinv_0_lt_compat _ L). unfold np_var, np_mean at 1. rewrite map_length.
  set (m := np_mean y). assert (P := rsuml_sq_nonneg m y). split.
  - intro H. destruct y as [|a l]; [contradiction|].
    destruct (Req_dec (col_range (a :: l)) 0) as [E|E]; [|apply range_pos_iff; assert (Q := range_nonneg (a :: l)); lra].
    exfalso. assert (C : forall x, In x (a :: l) -> x = a).
    { intros x Hx. destruct (Req_dec x a) as [E'|E']; [exact E'|]. exfalso.
      assert (V : varies (a :: l)) by (exists x, a; split; [exact Hx | split; [left; reflexivity | exact E']]).
      apply range_pos_iff in V. lra. }
    assert (M : m = a).
    { unfold m, np_mean. rewrite (rsuml_const _ a C). field. lra. }
    assert (Z : rsuml (map (fun v => (v - m) ^ 2) (a :: l)) = 0).
    { rewrite (rsuml_const _ 0); [ring|]. intros x Hx. apply in_map_iff in Hx. destruct Hx as [v [<- Hv]]. rewrite (C v Hv), M. ring. }
    rewrite Z in H. unfold Rdiv in H. rewrite Rmult_0_l in H. lra.
  - intros [a [b [Ha [Hb D]]]]. apply Rmult_lt_0_compat; [|exact LI].
    destruct P as [P|P]; [exact P|]. exfalso. apply D.
    rewrite (rsuml_sq_zero m y (eq_sym P) a Ha). symmetry. apply (rsuml_sq_zero m y (eq_sym P) b Hb).
Qed.
