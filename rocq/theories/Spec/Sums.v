(** Finite sums of real numbers. *)
From Coq Require Import Reals Lra Lia.
Local Open Scope R_scope.

Fixpoint rsum (f : nat -> R) (n : nat) : R := match n with O => 0 | S m => rsum f m + f m end.

Lemma rsum_ext f g n : (forall i, (i < n)%nat -> f i = g i) -> rsum f n = rsum g n.
Proof. intros H. induction n; cbn; [reflexivity|]. rewrite IHn, H; auto. Qed.
Lemma rsum_plus f g n : rsum (fun i => f i + g i) n = rsum f n + rsum g n.
Proof. induction n; cbn; lra. Qed.
Lemma rsum_scal c f n : rsum (fun i => c * f i) n = c * rsum f n.
Proof. induction n; cbn; [lra|]. rewrite IHn. lra. Qed.
Lemma rsum_nonneg f n : (forall i, (i < n)%nat -> 0 <= f i) -> 0 <= rsum f n.
Proof. intros H. induction n; cbn; [lra|]. assert (0 <= f n) by (apply H; lia). assert (0 <= rsum f n) by (apply IHn; intros; apply H; lia). lra. Qed.
Lemma rsum_const c n : rsum (fun _ => c) n = INR n * c.
Proof. induction n; cbn [rsum]; [cbn; lra|]. rewrite IHn, S_INR. lra. Qed.
Lemma rsum_swap f n m : rsum (fun i => rsum (fun j => f i j) m) n = rsum (fun j => rsum (fun i => f i j) n) m.
Proof.
  induction n as [|n IH]; cbn.
  - induction m; cbn; lra.
  - rewrite IH. symmetry. rewrite (rsum_plus (fun j => rsum (fun i => f i j) n) (fun j => f n j)). reflexivity.
Qed.
Lemma rsum_le f g n : (forall i, (i < n)%nat -> f i <= g i) -> rsum f n <= rsum g n.
Proof. intros H. induction n; cbn; [lra|]. assert (f n <= g n) by (apply H; lia). assert (rsum f n <= rsum g n) by (apply IHn; intros; apply H; lia). lra. Qed.
