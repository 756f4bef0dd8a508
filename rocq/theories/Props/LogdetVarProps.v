(** Property C148: the variance reported for a stochastic likelihood. *)
From Coq Require Import Reals List Lra Lia.
From Verif Require Import Model.LogdetVar.
Import ListNotations.
Local Open Scope R_scope.

(** expectation over [t] independent draws of a finite distribution given by (probability, value) pairs *)
Fixpoint E (D : list (R * R)) (t : nat) (f : list R -> R) : R :=
  match t with
  | O => f []
  | S t' => fold_right Rplus 0 (map (fun pv => fst pv * E D t' (fun l => f (snd pv :: l))) D)
  end.
Definition distribution (D : list (R * R)) : Prop := (forall pv, In pv D -> 0 <= fst pv) /\ fold_right Rplus 0 (map fst D) = 1.
(** what is reported; zero stands for a missing value, which does not occur with two probes or more *)
Definition reported (stop : list R -> bool) mn mx l : R := match log_likelihood_variance stop mn mx l with Some v => v | None => 0 end.
(** on average the reported variance is the variance of the likelihood *)
Definition unbiased (stop : list R -> bool) (D : list (R * R)) (mn mx : nat) : Prop := forall rest,
  let L := log_likelihood stop rest mn mx in
  E D mx (reported stop mn mx) = E D mx (fun l => (L l - E D mx L) ^ 2).

Section Moments.
Variable D : list (R * R).
Hypothesis H1 : fold_right Rplus 0 (map fst D) = 1.
Let mu := fold_right Rplus 0 (map (fun pv => fst pv * snd pv) D).
Let m2 := fold_right Rplus 0 (map (fun pv => fst pv * snd pv ^ 2) D).

Lemma E_ext t f g : (forall l, length l = t -> f l = g l) -> E D t f = E D t g.
Proof.
  revert f g. induction t as [|t IH]; intros f g H; simpl; [apply H; reflexivity|]. f_equal. apply map_ext. intros pv. f_equal.
  apply IH. intros l Hl. apply H. simpl. now rewrite Hl.
Qed.
Lemma sum_lin (f g : R * R -> R) a b : fold_right Rplus 0 (map (fun pv => a * f pv + b * g pv) D) =
  a * fold_right Rplus 0 (map f D) + b * fold_right Rplus 0 (map g D).
Proof. clear. induction D as [|p l IH]; simpl; [ring|]. rewrite IH. ring. Qed.
Lemma E_lin t f g a b : E D t (fun l => a * f l + b * g l) = a * E D t f + b * E D t g.
Proof.
  revert f g. induction t as [|t IH]; intros f g; simpl; [reflexivity|].
  rewrite (map_ext _ (fun pv => a * (fst pv * E D t (fun l => f (snd pv :: l))) + b * (fst pv * E D t (fun l => g (snd pv :: l))))).
  - apply sum_lin.
  - intros pv. rewrite IH. ring.
Qed.
Lemma E_const t c : E D t (fun _ => c) = c.
Proof.
  induction t as [|t IH]; simpl; [reflexivity|]. rewrite (map_ext _ (fun pv => c * fst pv + 0 * fst pv)) by (intros; rewrite IH; ring).
  rewrite sum_lin, H1. ring.
Qed.
Lemma E_sum t : E D t total = INR t * mu.
Proof.
  induction t as [|t IH]; [simpl; ring|]. simpl E.
  rewrite (map_ext _ (fun pv => 1 * (fst pv * snd pv) + INR t * mu * fst pv)).
  - rewrite sum_lin, H1, S_INR. fold mu. ring.
  - intros pv. rewrite (E_ext _ _ (fun l => snd pv * 1 + 1 * total l)) by (intros; simpl; ring).
    rewrite E_lin, E_const, IH. ring.
Qed.
Definition sumsq (l : list R) : R := total (map (fun x => x ^ 2) l).
Lemma E_sumsq t : E D t sumsq = INR t * m2.
Proof.
  induction t as [|t IH]; [simpl; unfold sumsq; simpl; ring|]. simpl E.
  rewrite (map_ext _ (fun pv => 1 * (fst pv * snd pv ^ 2) + INR t * m2 * fst pv)).
  - rewrite sum_lin, H1, S_INR. fold m2. ring.
  - intros pv. rewrite (E_ext _ _ (fun l => (snd pv ^ 2) * 1 + 1 * sumsq l)) by (intros; unfold sumsq; simpl; ring).
    rewrite E_lin, E_const, IH. ring.
Qed.
Lemma E_sum2 t : E D t (fun l => total l ^ 2) = INR t * m2 + INR t * (INR t - 1) * mu ^ 2.
Proof.
  induction t as [|t IH]; [simpl; ring|]. simpl E.
  rewrite (map_ext _ (fun pv => 1 * (1 * (fst pv * snd pv ^ 2) + 2 * INR t * mu * (fst pv * snd pv)) + (INR t * m2 + INR t * (INR t - 1) * mu ^ 2) * fst pv)).
  - rewrite (sum_lin _ fst), sum_lin, H1, S_INR. fold m2. fold mu. ring.
  - intros pv. rewrite (E_ext _ _ (fun l => 1 * ((snd pv ^ 2) * 1 + 2 * snd pv * total l) + 1 * total l ^ 2)) by (intros; simpl; ring).
    rewrite E_lin, E_lin, E_const, IH, E_sum. ring.
Qed.
Lemma sumsqE (l : list R) c : total (map (fun x => (x - c) ^ 2) l) = sumsq l - 2 * c * total l + INR (length l) * c ^ 2.
Proof.
  assert (TC : forall y r, total (y :: r) = y + total r) by reflexivity.
  induction l as [|x l IH]; [unfold sumsq; simpl; ring|]. unfold sumsq in *. cbn [map length]. rewrite S_INR, !TC, IH. ring.
Qed.
Lemma var1E l : (2 <= length l)%nat -> var1 l / INR (length l) = (sumsq l - total l ^ 2 / INR (length l)) / (INR (length l) * (INR (length l) - 1)).
Proof.
  intros H. assert (2 <= INR (length l)) by (apply (le_INR 2); exact H).
  unfold var1. rewrite sumsqE. unfold mean. field. lra.
Qed.
Lemma moments t : (2 <= t)%nat ->
  E D t (fun l => var1 l / INR (length l)) = (m2 - mu ^ 2) / INR t /\ E D t mean = mu /\ E D t (fun l => (mean l - mu) ^ 2) = (m2 - mu ^ 2) / INR t.
Proof.
  intros H. assert (2 <= INR t) by (apply (le_INR 2); exact H). split; [|split].
  - rewrite (E_ext _ _ (fun l => / (INR t * (INR t - 1)) * sumsq l + - / (INR t ^ 2 * (INR t - 1)) * total l ^ 2)).
    + rewrite E_lin, E_sumsq, E_sum2. field. lra.
    + intros l Hl. rewrite var1E by lia. rewrite Hl. field. lra.
  - rewrite (E_ext _ _ (fun l => / INR t * total l + 0 * total l)).
    + rewrite E_lin, E_sum. field. lra.
    + intros l Hl. unfold mean. rewrite Hl. field. lra.
  - rewrite (E_ext _ _ (fun l => 1 * (/ (INR t ^ 2) * total l ^ 2 + (- 2 * mu / INR t) * total l) + 1 * mu ^ 2)).
    + rewrite E_lin, E_lin, E_const, E_sum2, E_sum. field. lra.
    + intros l Hl. unfold mean. rewrite Hl. field. lra.
Qed.
End Moments.

Lemma probe_fixed stop : forall fuel mn known rest, (length known + fuel <= mn)%nat -> (fuel <= length rest)%nat -> probe stop fuel mn known rest = known ++ firstn fuel rest.
Proof.
  induction fuel as [|f IH]; intros mn known rest H1 H2; [simpl; now rewrite app_nil_r|]. destruct rest as [|x r]; [simpl in H2; lia|].
  simpl. assert (Nat.leb mn (length known) = false) as -> by (apply Nat.leb_gt; lia). simpl.
  rewrite IH; [now rewrite <- app_assoc|rewrite app_length; simpl; lia|simpl in H2; lia].
Qed.
Lemma used_fixed stop t l : length l = t -> used stop t t l = l.
Proof. intros <-. unfold used. rewrite probe_fixed by (simpl; lia). simpl. apply firstn_all. Qed.

(** C148 with a fixed number of probes (min_num_samples = max_num_samples, at least two): whatever the distribution of a
    probe, the reported variance is on average the variance of the likelihood. *)
Theorem reported_variance_partial : forall stop D t, distribution D -> (2 <= t)%nat -> unbiased stop D t t.
Proof.
  intros stop D t [_ H1] Ht rest L. destruct (moments D H1 t Ht) as (M1 & M2 & M3).
  set (mu := fold_right Rplus 0 (map (fun pv => fst pv * snd pv) D)) in *.
  assert (EL : E D t L = - (1 / 2) * (rest + mu)).
  { rewrite (E_ext D t L (fun l => (- (1 / 2) * rest) * 1 + - (1 / 2) * mean l)).
    - rewrite E_lin, E_const, M2 by assumption. ring.
    - intros l Hl. unfold L, log_likelihood, random_logdet. simpl. rewrite (used_fixed stop t l Hl). ring. }
  rewrite (E_ext D t (reported stop t t) (fun l => 1 / 4 * (var1 l / INR (length l)) + 0 * 1)).
  - rewrite E_lin, M1. rewrite (E_ext D t (fun l => (L l - E D t L) ^ 2) (fun l => 1 / 4 * (mean l - mu) ^ 2 + 0 * 1)).
    + rewrite E_lin, M3. reflexivity.
    + intros l Hl. rewrite EL. unfold L, log_likelihood, random_logdet. simpl. rewrite (used_fixed stop t l Hl). field.
  - intros l Hl. unfold reported, log_likelihood_variance, random_logdet. rewrite (used_fixed stop t l Hl). simpl.
    destruct (Nat.ltb_spec 1 (length l)); [ring|lia].
Qed.
Print Assumptions reported_variance_partial.

Definition coin : list (R * R) := [(1 / 2, 1); (1 / 2, -1)].
Lemma coin_distribution : distribution coin.
Proof. split; [intros pv [<-|[<-|[]]]; simpl; lra|simpl; lra]. Qed.
Example reported_variance_example : unbiased (fun _ => true) coin 2 2 /\
  E coin 2 (reported (fun _ => true) 2 2) = 1 / 8.
Proof.
  split; [apply reported_variance_partial; [apply coin_distribution|auto]|].
  cbn -[Rmult Rplus Rdiv Rinv Ropp pow]. unfold var1, mean. cbn -[Rmult Rplus Rdiv Rinv Ropp]. lra.
Qed.

(** C148 is false for every rule that stops as soon as all samples agree and does not stop at two opposite ones: a probe
    that gives 1 or -1 with equal probability, two to three probes.  Reported on average 1/18, true 5/36. *)
Theorem reported_variance_refuted : forall stop,
  stop [1; 1] = true -> stop [-1; -1] = true -> stop [1; -1] = false -> stop [-1; 1] = false ->
  distribution coin /\ E coin 3 (reported stop 2 3) = 1 / 18 /\
  (forall rest, let L := log_likelihood stop rest 2 3 in E coin 3 (fun l => (L l - E coin 3 L) ^ 2) = 5 / 36) /\ ~ unbiased stop coin 2 3.
Proof.
  intros stop S1 S2 S3 S4. split; [apply coin_distribution|].
  assert (U : forall a b c, used stop 2 3 [a; b; c] = if stop [a; b] then [a; b] else [a; b; c]) by (intros; reflexivity).
  assert (A : E coin 3 (reported stop 2 3) = 1 / 18).
  { cbn -[Rmult Rplus Rdiv Rinv Ropp pow reported]. unfold reported, log_likelihood_variance, random_logdet. rewrite !U, S1, S2, S3, S4.
    cbn -[Rmult Rplus Rdiv Rinv Ropp pow var1]. unfold var1, mean. cbn -[Rmult Rplus Rdiv Rinv Ropp]. lra. }
  assert (B : forall rest, let L := log_likelihood stop rest 2 3 in E coin 3 (fun l => (L l - E coin 3 L) ^ 2) = 5 / 36).
  { intros rest L.
    assert (EL : E coin 3 L = - (1 / 2) * rest).
    { cbn -[Rmult Rplus Rdiv Rinv Ropp pow L]. unfold L, log_likelihood, random_logdet. rewrite !U, S1, S2, S3, S4. unfold mean. cbn -[Rmult Rplus Rdiv Rinv Ropp]. lra. }
    rewrite EL. cbn -[Rmult Rplus Rdiv Rinv Ropp pow L]. unfold L, log_likelihood, random_logdet. rewrite !U, S1, S2, S3, S4. unfold mean. cbn -[Rmult Rplus Rdiv Rinv Ropp]. lra. }
  split; [exact A|]. split; [exact B|]. intros H. specialize (H 0). cbv zeta in H. specialize (B 0). cbv zeta in B. rewrite A, B in H. lra.
Qed.
Print Assumptions reported_variance_refuted.
(** the rule of imate: half width of the confidence interval at most rtol times the mean; z is the normal quantile *)
Definition imate_rule (z rtol : R) (l : list R) : bool :=
  if Rle_dec (z * sqrt (var1 l / INR (length l))) (rtol * Rabs (mean l)) then true else false.
Example imate_rule_is_such : forall z rtol, 0 < z -> 0 <= rtol -> let stop := imate_rule z rtol in
  stop [1; 1] = true /\ stop [-1; -1] = true /\ stop [1; -1] = false /\ stop [-1; 1] = false.
Proof.
  intros z rtol Hz Hr stop.
  assert (V0 : forall a, var1 [a; a] / INR 2 = 0) by (intros; unfold var1, mean; simpl; field).
  assert (V2 : var1 [-1; 1] / INR 2 = 1) by (unfold var1, mean; simpl; field).
  assert (M1 : mean [1; -1] = 0) by (unfold mean; simpl; lra). assert (M2 : mean [-1; 1] = 0) by (unfold mean; simpl; lra).
  assert (V3 : var1 [1; -1] / INR 2 = 1) by (unfold var1, mean; simpl; field).
  unfold stop, imate_rule. simpl length.
  repeat match goal with |- _ /\ _ => split end; match goal with |- context [Rle_dec ?a ?b] => destruct (Rle_dec a b) as [H'|H'] end; try reflexivity; exfalso.
  - apply H'. rewrite V0, sqrt_0, Rmult_0_r. apply Rmult_le_pos; [lra|apply Rabs_pos].
  - apply H'. rewrite V0, sqrt_0, Rmult_0_r. apply Rmult_le_pos; [lra|apply Rabs_pos].
  - rewrite V3, M1, Rabs_R0, sqrt_1 in H'. lra.
  - rewrite V2, M2, Rabs_R0, sqrt_1 in H'. lra.
Qed.
