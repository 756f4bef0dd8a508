From Coq Require Import Reals Lra Lia List Arith Bool.
From Coquelicot Require Import Coquelicot.
From Verif Require Import Model.Metrics Spec.MetricsSpec Proofs.NormalP.
Import ListNotations.
Local Open Scope R_scope.

(** * lists *)
Lemma shape_eqbP s : forall t, shape_eqb s t = true <-> s = t.
Proof.
induction s as [|a s IH]; intros [|b t]; cbn; split; try congruence; intros E.
- apply andb_true_iff in E as [E1 E2]. apply Nat.eqb_eq in E1. apply IH in E2. congruence.
- inversion E; subst. rewrite Nat.eqb_refl. apply IH. reflexivity.
Qed.
Lemma sum_map_le {A} (f g : A -> R) l : (forall a, In a l -> f a <= g a) -> sum_l (map f l) <= sum_l (map g l).
Proof.
induction l as [|a l IH]; intros H; cbn; [lra|]. pose proof (H a (or_introl eq_refl)).
assert (sum_l (map f l) <= sum_l (map g l)) by (apply IH; intros; apply H; right; assumption). unfold sum_l in *. lra.
Qed.
Lemma sum_map_eq {A} (f g : A -> R) l : (forall a, In a l -> f a <= g a) -> sum_l (map f l) = sum_l (map g l) -> forall a, In a l -> f a = g a.
Proof.
induction l as [|b l IH]; intros H E a Ha; [destruct Ha|]. cbn in E. pose proof (H b (or_introl eq_refl)) as Hb.
assert (L : sum_l (map f l) <= sum_l (map g l)) by (apply sum_map_le; intros; apply H; right; assumption). unfold sum_l in *.
destruct Ha as [->|Ha]; [lra|]. apply IH; [intros; apply H; right; assumption|lra|assumption].
Qed.
Lemma sum_plus {A} (f g : A -> R) l : sum_l (map (fun a => f a + g a) l) = sum_l (map f l) + sum_l (map g l).
Proof. unfold sum_l. induction l as [|a l IH]; cbn; [lra|]. rewrite IH. lra. Qed.
Lemma sum_scal {A} c (f : A -> R) l : sum_l (map (fun a => c * f a) l) = c * sum_l (map f l).
Proof. unfold sum_l. induction l as [|a l IH]; cbn; [lra|]. rewrite IH. lra. Qed.
Lemma sum_const {A} c (l : list A) : sum_l (map (fun _ => c) l) = INR (length l) * c.
Proof. unfold sum_l. induction l as [|a l IH]; [cbn; lra|]. cbn [map fold_right length]. rewrite IH, S_INR. lra. Qed.
Lemma len_pos {A} (l : list A) : l <> [] -> 0 < INR (length l).
Proof. intros N. destruct l; [congruence|]. apply lt_0_INR. cbn. lia. Qed.
Section Mean.
Context {A : Type} (l : list A). Hypothesis N : l <> [].
Lemma mean_le f g : (forall a, In a l -> f a <= g a) -> mean_l (map f l) <= mean_l (map g l).
Proof. intros H. unfold mean_l. rewrite !map_length. apply Rmult_le_compat_r; [left; apply Rinv_0_lt_compat, len_pos; assumption|]. apply sum_map_le; assumption. Qed.
Lemma mean_eq f g : (forall a, In a l -> f a <= g a) -> (mean_l (map f l) = mean_l (map g l) <-> forall a, In a l -> f a = g a).
Proof.
intros H. pose proof (len_pos l N). split; intros E.
- apply sum_map_eq; [assumption|]. unfold mean_l in E. rewrite !map_length in E. apply (Rmult_eq_reg_r (/ INR (length l))); [exact E|]. pose proof (Rinv_0_lt_compat _ H0). lra.
- f_equal. apply map_ext_in. assumption.
Qed.
Lemma mean_const c : mean_l (map (fun _ => c) l) = c.
Proof. unfold mean_l. rewrite sum_const, map_length. pose proof (len_pos l N). field. lra. Qed.
Lemma mean_scal c f : mean_l (map (fun a => c * f a) l) = c * mean_l (map f l).
Proof. unfold mean_l. rewrite sum_scal, !map_length. unfold Rdiv. ring. Qed.
Lemma mean_plus f g : mean_l (map (fun a => f a + g a) l) = mean_l (map f l) + mean_l (map g l).
Proof. unfold mean_l. rewrite sum_plus, !map_length. unfold Rdiv. ring. Qed.
(** the mean of squares is at least the square of the mean *)
Lemma mean_sq f : mean_l (map f l) ^ 2 <= mean_l (map (fun a => f a ^ 2) l).
Proof.
set (m := mean_l (map f l)).
assert (E : mean_l (map (fun a => (f a - m) ^ 2) l) = mean_l (map (fun a => f a ^ 2) l) - m ^ 2).
{ rewrite (map_ext _ (fun a => f a ^ 2 + ((- 2 * m) * f a + m ^ 2))) by (intros; ring).
  rewrite mean_plus, mean_plus, mean_scal, mean_const. fold m. ring. }
assert (0 <= mean_l (map (fun a => (f a - m) ^ 2) l)); [|lra].
rewrite <- (mean_const 0). apply mean_le. intros. apply pow2_ge_0.
Qed.
End Mean.
Lemma combine_nil {A B} (a : list A) (b : list B) : length a = length b -> a <> [] -> combine a b <> [].
Proof. destruct a, b; cbn; congruence. Qed.
Lemma combine_all_eq (a b : list R) : length a = length b -> ((forall p, In p (combine a b) -> fst p = snd p) <-> a = b).
Proof.
revert b. induction a as [|x a IH]; intros [|y b] L; cbn in *; try lia; split; intros H; auto.
- intros p [].
- pose proof (H (x, y) (or_introl eq_refl)). cbn in H0. subst. f_equal. apply IH; [lia|]. intros; apply H; right; assumption.
- inversion H; subst. intros p [<-|Hp]; [reflexivity|]. revert p Hp. apply IH; [lia|reflexivity].
Qed.

(** * the errors *)
Section Err.
Variables (mx y : arr). Hypothesis (S0 : shape y = shape mx) (L : length (vals y) = length (vals mx)) (N : vals y <> []).
Let pr := combine (vals y) (vals mx).
Let Np : pr <> []. Proof. apply combine_nil; assumption. Qed.
Let Lp : length pr = length (vals y). Proof. unfold pr. rewrite combine_length. lia. Qed.
Lemma rmse_val : rmse mx y = Some (sqrt (mean_l (map (fun p => (fst p - snd p) ^ 2) pr))).
Proof. unfold rmse. rewrite (proj2 (shape_eqbP _ _) S0). unfold zipw, mean_l. rewrite map_length. fold pr. rewrite Lp. reflexivity. Qed.
Lemma mae_val : mae mx y = Some (mean_l (map (fun p => Rabs (fst p - snd p)) pr)).
Proof. unfold mae. rewrite (proj2 (shape_eqbP _ _) S0). reflexivity. Qed.
Lemma mae_rmse_l a b : mae mx y = Some a -> rmse mx y = Some b -> 0 <= a <= b.
Proof.
rewrite mae_val, rmse_val. intros [= <-] [= <-].
assert (0 <= mean_l (map (fun p => Rabs (fst p - snd p)) pr)).
{ rewrite <- (mean_const pr Np 0). apply mean_le; [exact Np|]. intros; apply Rabs_pos. }
split; [assumption|]. rewrite <- (sqrt_pow2 (mean_l _)) at 1 by assumption. apply sqrt_le_1_alt.
rewrite (map_ext (fun p => (fst p - snd p) ^ 2) (fun p => Rabs (fst p - snd p) ^ 2)) by (intros; symmetry; apply pow2_abs).
apply mean_sq; exact Np.
Qed.
Lemma rmse_zero_l b : rmse mx y = Some b -> (b = 0 <-> vals y = vals mx).
Proof.
rewrite rmse_val. intros [= <-].
assert (P : 0 <= mean_l (map (fun p => (fst p - snd p) ^ 2) pr)).
{ rewrite <- (mean_const pr Np 0). apply mean_le; [exact Np|]. intros; apply pow2_ge_0. }
rewrite <- combine_all_eq by exact L. fold pr.
transitivity (mean_l (map (fun _ => 0) pr) = mean_l (map (fun p => (fst p - snd p) ^ 2) pr)).
- rewrite (mean_const pr Np). split; intros E; [symmetry; apply sqrt_eq_0; assumption|apply (f_equal sqrt) in E; rewrite sqrt_0 in E; symmetry; exact E].
- rewrite (mean_eq pr Np) by (intros; apply pow2_ge_0). split; intros E p Hp; specialize (E p Hp); cbn in *.
  + assert ((fst p - snd p) ^ 2 = 0) by (cbn; lra). assert (fst p - snd p = 0) by nra. lra.
  + rewrite E. ring.
Qed.
Lemma mae_zero_l a : mae mx y = Some a -> (a = 0 <-> vals y = vals mx).
Proof.
rewrite mae_val. intros [= <-]. rewrite <- combine_all_eq by exact L. fold pr.
transitivity (mean_l (map (fun _ => 0) pr) = mean_l (map (fun p => Rabs (fst p - snd p)) pr)).
- rewrite (mean_const pr Np). split; intros E; lra.
- rewrite (mean_eq pr Np) by (intros; apply Rabs_pos). split; intros E p Hp; specialize (E p Hp); cbn in *.
  + symmetry in E. apply Rabs_eq_0 in E. lra.
  + rewrite E, Rminus_diag_eq, Rabs_R0 by reflexivity. reflexivity.
Qed.
End Err.

(** * the continuous ranked probability score *)
Section Crps.
Variable Phi : R -> R. Hypothesis H : normal_cdf Phi.
Lemma crps_termE x mu s : 0 < s -> crps_term Phi x mu s = s * score Phi ((x - mu) / s).
Proof.
intros P. unfold crps_term. change Metrics.phi with normal_pdf.
replace (s * _) with (- (s * score Phi ((x - mu) / s))) by (unfold score; ring).
rewrite Rabs_Ropp. apply Rabs_pos_eq. pose proof (score_pos Phi H ((x - mu) / s)). apply Rmult_le_pos; lra.
Qed.
Lemma RInt_sq g G a b : (forall t, is_derive G t (g t)) -> (forall t, continuity_pt g t) -> RInt g a b = G b - G a.
Proof.
intros D C. apply is_RInt_unique. apply (is_RInt_derive G g).
- intros; apply D.
- intros t _. apply continuity_pt_filterlim. apply C.
Qed.
Lemma crps_integral x mu s : 0 < s -> crps_of (fun y => Phi ((y - mu) / s)) x (crps_term Phi x mu s).
Proof.
intros P eps E. rewrite crps_termE by assumption.
destruct (anti_tail Phi H (eps / (2 * s)) ltac:(apply Rdiv_lt_0_compat; lra)) as [B [B1 HB]].
exists (Rabs mu + s * B). intros a b La Lb Lx.
assert (Dz : forall t, is_derive (fun t => (t - mu) / s) t (/ s)) by (intros; auto_derive; [lra|field; lra]).
assert (Dn : forall t, is_derive (fun t => - ((t - mu) / s)) t (- / s)) by (intros; auto_derive; [lra|field; lra]).
assert (I1 : RInt (fun y => Phi ((y - mu) / s) ^ 2) a x = s * anti Phi ((x - mu) / s) - s * anti Phi ((a - mu) / s)).
{ apply (RInt_sq _ (fun y => s * anti Phi ((y - mu) / s))).
  - intros t. replace (Phi ((t - mu) / s) ^ 2) with (s * (/ s * Phi ((t - mu) / s) ^ 2)) by (field; lra).
    apply (is_derive_scal (fun y => anti Phi ((y - mu) / s))). apply (is_derive_comp (anti Phi) (fun t => (t - mu) / s)); [apply anti_derive; exact H|apply Dz].
  - intros t. apply (continuity_pt_comp (fun t => Phi ((t - mu) / s)) (fun v => v ^ 2)).
    + apply (continuity_pt_comp (fun t => (t - mu) / s) Phi); [eapply der_cont; apply Dz|apply Phi_cont; exact H].
    + apply derivable_continuous_pt. apply derivable_pt_pow. }
assert (I2 : RInt (fun y => (1 - Phi ((y - mu) / s)) ^ 2) x b = - s * anti Phi (- ((b - mu) / s)) - - s * anti Phi (- ((x - mu) / s))).
{ apply (RInt_sq _ (fun y => - s * anti Phi (- ((y - mu) / s)))).
  - intros t. rewrite <- Phi_sym by exact H. replace (Phi (- ((t - mu) / s)) ^ 2) with (- s * (- / s * Phi (- ((t - mu) / s)) ^ 2)) by (field; lra).
    apply (is_derive_scal (fun y => anti Phi (- ((y - mu) / s)))). apply (is_derive_comp (anti Phi) (fun t => - ((t - mu) / s))); [apply anti_derive; exact H|apply Dn].
  - intros t. apply (continuity_pt_comp (fun t => 1 - Phi ((t - mu) / s)) (fun v => v ^ 2)).
    + apply (continuity_pt_minus (fun _ => 1) (fun t => Phi ((t - mu) / s))); [apply continuity_pt_const; intros ? ?; reflexivity|].
      apply (continuity_pt_comp (fun t => (t - mu) / s) Phi); [eapply der_cont; apply Dz|apply Phi_cont; exact H].
    + apply derivable_continuous_pt. apply derivable_pt_pow. }
rewrite I1, I2, <- (anti_sum Phi H).
assert (T1 : Rabs (anti Phi ((a - mu) / s)) < eps / (2 * s)).
{ apply HB. apply (Rmult_lt_reg_r s); [assumption|]. unfold Rdiv. rewrite Rmult_assoc, Rinv_l by lra. pose proof (Rle_abs (- mu)) as Q. rewrite Rabs_Ropp in Q. nra. }
assert (T2 : Rabs (anti Phi (- ((b - mu) / s))) < eps / (2 * s)).
{ apply HB. apply (Rmult_lt_reg_r s); [assumption|]. replace (- ((b - mu) / s) * s) with (- (b - mu)) by (field; lra). pose proof (Rle_abs mu) as Q. nra. }
replace (_ - s * (_ + _)) with (- (s * anti Phi ((a - mu) / s) + s * anti Phi (- ((b - mu) / s)))) by ring.
rewrite Rabs_Ropp. eapply Rle_lt_trans; [apply Rabs_triang|]. rewrite !Rabs_mult, (Rabs_pos_eq s) by lra.
apply (Rlt_le_trans _ (s * (eps / (2 * s)) + s * (eps / (2 * s)))); [apply Rplus_lt_compat; apply Rmult_lt_compat_l; lra|].
right. field. lra.
Qed.
End Crps.

(** * broadcasting of vectors *)
Lemma flat_map_single {A B} (g : A -> B) l : flat_map (fun i => [g i]) l = map g l.
Proof. induction l; cbn; congruence. Qed.
Lemma indices_vec n : indices [n] = map (fun i => [i]) (seq 0 n).
Proof. cbn. apply flat_map_single. Qed.
Lemma getb_vec n v i : (i < n)%nat -> getb (Arr [n] v) [i] = nth i v 0.
Proof.
intros L. unfold getb; cbn. unfold zipw; cbn. rewrite Nat.mul_1_r, Nat.add_0_r.
destruct (Nat.eqb_spec n 1) as [->|]; [replace i with 0%nat by lia|]; reflexivity.
Qed.
Lemma bc_vec f n a b : broadcast f (Arr [n] a) (Arr [n] b) = Some (Arr [n] (map (fun i => f (nth i a 0) (nth i b 0)) (seq 0 n))).
Proof.
unfold broadcast. cbn [shape]. replace (bshape [n] [n]) with (Some [n]) by (unfold bshape; cbn; rewrite Nat.eqb_refl; reflexivity).
cbn [option_map]. rewrite indices_vec, map_map. do 2 f_equal. apply map_ext_in. intros i Hi. apply in_seq in Hi. rewrite !getb_vec by lia. reflexivity.
Qed.
Lemma bc_m_x f mean b : length b = length mean ->
  broadcast f (m_x 1 mean) (Arr [length mean] b) = Some (Arr [length mean] (map (fun i => f (nth i mean 0) (nth i b 0)) (seq 0 (length mean)))).
Proof.
intros L. unfold m_x. rewrite Nat.div_1_r. cbn [Nat.eqb]. destruct (Nat.eqb_spec (length mean) 1) as [E|].
- rewrite E. destruct mean as [|m [|]]; try discriminate. destruct b as [|b0 [|]]; try discriminate. reflexivity.
- apply bc_vec.
Qed.
Lemma v_x1 var : v_x 1 var = Arr [length var] var.
Proof. unfold v_x. cbn. f_equal. rewrite <- (map_id var) at 2. apply flat_map_single. Qed.
Lemma nth_map0 {A} (f : A -> R) l d i : (i < length l)%nat -> nth i (map f l) 0 = f (nth i l d).
Proof. intros L. rewrite (nth_indep _ 0 (f d)) by (rewrite map_length; assumption). apply map_nth. Qed.
Lemma nth_seq_map (g : nat -> R) n i : (i < n)%nat -> nth i (map g (seq 0 n)) 0 = g i.
Proof. intros L. rewrite (nth_map0 g _ 0%nat) by (rewrite seq_length; assumption). rewrite seq_nth by assumption. reflexivity. Qed.
Lemma zipw_seq (g h : nat -> R) l : zipw Rmult (map g l) (map h l) = map (fun i => g i * h i) l.
Proof. unfold zipw. induction l as [|a l IH]; cbn; [reflexivity|]. f_equal. apply IH. Qed.

Definition covered (z y m v : R) : Prop := m - z * sqrt v <= y <= m + z * sqrt v.
Definition ind (z y m v : R) : R := if Rle_dec (m - z * sqrt v) y then if Rle_dec y (m + z * sqrt v) then 1 else 0 else 0.
Lemma ind01 z y m v : 0 <= ind z y m v <= 1.
Proof. unfold ind. destruct Rle_dec; [destruct Rle_dec|]; lra. Qed.
Lemma ind1 z y m v : ind z y m v = 1 <-> covered z y m v.
Proof. unfold ind, covered. destruct Rle_dec; [destruct Rle_dec|]; split; intros; try lra. Qed.
Section Picp.
Variable ppf : R -> R.
Variables (mean var ys : list R).
Hypothesis (Lv : length var = length mean) (Ly : length ys = length mean).
Let n := length mean.
Lemma picp_val interval : picp ppf (m_x 1 mean) (v_x 1 var) (Arr [n] ys) interval
  = Some (mean_l (map (fun i => ind (z_of ppf interval) (nth i ys 0) (nth i mean 0) (nth i var 0)) (seq 0 n))).
Proof.
unfold picp. rewrite v_x1. cbn [shape vals]. rewrite Lv. rewrite !bc_m_x by (rewrite map_length; assumption). fold n.
rewrite !bc_vec. cbn [vals]. rewrite zipw_seq. do 2 f_equal. apply map_ext_in. intros i Hi. apply in_seq in Hi.
rewrite !nth_seq_map by lia. rewrite !(nth_map0 sqrt var 0) by (fold n in Lv; lia).
unfold ind. destruct Rle_dec; [destruct Rle_dec|]; lra.
Qed.
End Picp.
Lemma seq_nil n : (0 < n)%nat -> seq 0 n <> []. Proof. destruct n; cbn; [lia|congruence]. Qed.

Section Z.
Variables (Phi ppf : R -> R). Hypothesis (H : normal_cdf Phi) (Q : quantile Phi ppf).
Lemma z_mono a b : 0 <= a -> a <= b -> b < 1 -> 0 <= z_of ppf a <= z_of ppf b.
Proof.
intros A B C. unfold z_of. split; apply (Phi_incr' Phi H).
- rewrite (Phi_0 Phi H), Q by lra. lra.
- rewrite !Q by lra. lra.
Qed.
End Z.
Lemma ind_mono z z' y m v : z <= z' -> ind z y m v <= ind z' y m v.
Proof.
intros L. pose proof (sqrt_pos v). assert (z * sqrt v <= z' * sqrt v) by (apply Rmult_le_compat_r; assumption).
unfold ind. repeat destruct Rle_dec; lra.
Qed.

(** * interval score *)
Lemma map_snd_combine {A B C} (g : B -> C) (l : list A) (l' : list B) : length l = length l' -> map (fun p => g (snd p)) (combine l l') = map g l'.
Proof. revert l'. induction l as [|a l IH]; intros [|b l'] L; cbn in *; try lia; [reflexivity|]. f_equal. apply IH. lia. Qed.
Section Interval.
Variables (Phi ppf : R -> R). Hypothesis (H : normal_cdf Phi) (Q : quantile Phi ppf).
Variables (mx vx y : arr) (interval : R).
Hypothesis (S1 : shape mx = shape vx) (S2 : shape vx = shape y) (L1 : length (vals mx) = length (vals vx)) (L2 : length (vals y) = length (vals vx)).
Hypothesis (N : vals y <> []) (I0 : 0 <= interval) (I1 : interval < 1).
Let tr := combine (combine (vals y) (vals mx)) (map sqrt (vals vx)).
Let z := z_of ppf interval.
Let Lt : length (combine (vals y) (vals mx)) = length (map sqrt (vals vx)). Proof. rewrite combine_length, map_length. lia. Qed.
Let Nt : tr <> []. Proof. apply combine_nil; [exact Lt|]. apply combine_nil; [lia|exact N]. Qed.
Lemma interval_term_ge a yy m s : 0 < a -> 2 * z * s <= interval_term a z yy m s.
Proof.
intros A. unfold interval_term. assert (0 < 2 / a) by (apply Rdiv_lt_0_compat; lra).
pose proof (Rmax_r (m - z * s - yy) 0). pose proof (Rmax_r (yy - (m + z * s)) 0).
assert (0 <= 2 / a * Rmax (m - z * s - yy) 0) by (apply Rmult_le_pos; lra). assert (0 <= 2 / a * Rmax (yy - (m + z * s)) 0) by (apply Rmult_le_pos; lra). lra.
Qed.
Lemma interval_term_eq a yy m s : 0 < a -> (2 * z * s = interval_term a z yy m s <-> m - z * s <= yy <= m + z * s).
Proof.
intros A. unfold interval_term. assert (P : 0 < 2 / a) by (apply Rdiv_lt_0_compat; lra).
pose proof (Rmax_r (m - z * s - yy) 0). pose proof (Rmax_r (yy - (m + z * s)) 0).
pose proof (Rmax_l (m - z * s - yy) 0). pose proof (Rmax_l (yy - (m + z * s)) 0).
assert (0 <= 2 / a * Rmax (m - z * s - yy) 0) by (apply Rmult_le_pos; lra). assert (0 <= 2 / a * Rmax (yy - (m + z * s)) 0) by (apply Rmult_le_pos; lra).
split; intros E.
- assert (E1 : 2 / a * Rmax (m - z * s - yy) 0 = 0) by lra. assert (E2 : 2 / a * Rmax (yy - (m + z * s)) 0 = 0) by lra.
  apply Rmult_integral in E1 as [|E1]; [lra|]. apply Rmult_integral in E2 as [|E2]; [lra|]. lra.
- rewrite !Rmax_right by lra. ring.
Qed.
Lemma mpiw_val : mpiw ppf vx interval = mean_l (map (fun p => 2 * z * snd p) tr).
Proof.
unfold mpiw, tr. rewrite (map_snd_combine (fun s => 2 * z * s)) by exact Lt. rewrite map_map. f_equal. apply map_ext. intros v.
destruct (Rle_lt_dec 0 v); [rewrite Rmax_left by assumption; reflexivity|]. rewrite Rmax_right, sqrt_0 by lra. rewrite sqrt_neg_0 by lra. reflexivity.
Qed.
Lemma interval_score_val : interval_score ppf mx vx y interval = Some (mean_l (map (fun p => interval_term (1 - interval) z (fst (fst p)) (snd (fst p)) (snd p)) tr)).
Proof. unfold interval_score. rewrite (proj2 (shape_eqbP _ _) S1), (proj2 (shape_eqbP _ _) S2). cbn [andb]. reflexivity. Qed.
Lemma interval_score_l s : interval_score ppf mx vx y interval = Some s ->
  0 <= mpiw ppf vx interval <= s /\ (s = mpiw ppf vx interval <-> forall p, In p tr -> snd (fst p) - z * snd p <= fst (fst p) <= snd (fst p) + z * snd p).
Proof.
rewrite interval_score_val, mpiw_val. intros [= <-].
assert (Z0 : 0 <= z) by (unfold z; apply (z_mono Phi ppf H Q interval interval); lra).
split; [split|].
- rewrite <- (mean_const tr Nt 0). apply mean_le; [exact Nt|]. intros [p s] Hp; cbn. apply in_combine_r in Hp. apply in_map_iff in Hp as [v [<- _]].
  pose proof (sqrt_pos v). apply Rmult_le_pos; lra.
- apply mean_le; [exact Nt|]. intros; apply interval_term_ge; lra.
- transitivity (mean_l (map (fun p => 2 * z * snd p) tr) = mean_l (map (fun p => interval_term (1 - interval) z (fst (fst p)) (snd (fst p)) (snd p)) tr)); [split; auto|].
  rewrite (mean_eq tr Nt) by (intros; apply interval_term_ge; lra).
  split; intros E p Hp; specialize (E p Hp); apply (interval_term_eq (1 - interval)); try lra; assumption.
Qed.
End Interval.

(** * CRPS, NLPD, MSLL, R2 *)
Lemma mean_pos {A} (l : list A) f : l <> [] -> (forall a, In a l -> 0 < f a) -> 0 < mean_l (map f l).
Proof.
intros N P. assert (G0 : mean_l (map (fun _ => 0) l) <= mean_l (map f l)) by (apply mean_le; [exact N|]; intros p Hp; left; apply P, Hp).
rewrite (mean_const l N) in G0. destruct G0 as [|G0]; [assumption|exfalso]. rewrite <- (mean_const l N 0) in G0 at 1.
rewrite (mean_eq l N (fun _ => 0) f) in G0 by (intros p Hp; left; apply P, Hp). destruct l as [|a l']; [congruence|].
specialize (G0 a (or_introl eq_refl)). specialize (P a (or_introl eq_refl)). lra.
Qed.
Lemma mean_nth (l : list R) : l <> [] -> mean_l l * INR (length l) = fold_right Rplus 0 l.
Proof. intros N. unfold mean_l, sum_l. pose proof (len_pos l N). field. lra. Qed.
Section Triples.
Variables (mx vx y : arr).
Hypothesis (L1 : length (vals mx) = length (vals vx)) (L2 : length (vals y) = length (vals vx)) (N : vals y <> []) (P : forall v, In v (vals vx) -> 0 < v).
Lemma trip_len {B} (f : R -> B) : length (combine (vals y) (vals mx)) = length (map f (vals vx)). Proof. rewrite combine_length, map_length. lia. Qed.
Lemma trip_nil {B} (f : R -> B) : combine (combine (vals y) (vals mx)) (map f (vals vx)) <> [].
Proof. apply combine_nil; [apply trip_len|]. apply combine_nil; [lia|exact N]. Qed.
Lemma crps_val Phi : shape mx = shape vx -> shape vx = shape y -> crps Phi mx vx y =
  (let res := map (fun p => crps_term Phi (fst (fst p)) (snd (fst p)) (snd p)) (combine (combine (vals y) (vals mx)) (map sqrt (vals vx))) in
   Some (mean_l res, sqrt (var_l res))).
Proof. intros S1 S2. unfold crps. rewrite (proj2 (shape_eqbP _ _) S1), (proj2 (shape_eqbP _ _) S2). reflexivity. Qed.
Lemma shapes_of {B} (o : option B) (r : B) : (if shape_eqb (shape mx) (shape vx) && shape_eqb (shape vx) (shape y) then o else None) = Some r -> shape mx = shape vx /\ shape vx = shape y.
Proof. destruct (shape_eqb _ _) eqn:E1; [|discriminate]. destruct (shape_eqb (shape vx) _) eqn:E2; [|discriminate]. intros _. split; apply shape_eqbP; assumption. Qed.
Lemma crps_lower_l Phi m s : normal_cdf Phi -> crps Phi mx vx y = Some (m, s) ->
  0 < (sqrt 2 - 1) / sqrt PI * mean_l (map sqrt (vals vx)) <= m /\ 0 <= s.
Proof.
intros H E. destruct (shapes_of (Some _) _ E) as [S1 S2]. rewrite (crps_val Phi S1 S2) in E. cbv zeta in E. revert E.
set (tr := combine (combine (vals y) (vals mx)) (map sqrt (vals vx))). intros [= <- <-]. split; [|apply sqrt_pos].
assert (Nt : tr <> []) by apply trip_nil.
pose proof (score_pos Phi H 0) as [C0 _]. set (c := (sqrt 2 - 1) / sqrt PI) in *.
assert (Pt : forall p, In p tr -> 0 < snd p). { intros [p s] Hp. apply in_combine_r in Hp. apply in_map_iff in Hp as [v [<- Hv]]. apply sqrt_lt_R0, P, Hv. }
assert (Es : map sqrt (vals vx) = map (fun p => snd p) tr). { unfold tr. rewrite (map_snd_combine (fun s => s)) by apply trip_len. rewrite map_id. reflexivity. }
rewrite Es. split.
- apply Rmult_lt_0_compat; [assumption|]. apply mean_pos; assumption.
- rewrite <- mean_scal. apply mean_le; [exact Nt|]. intros p Hp. rewrite crps_termE by (try exact H; apply Pt, Hp).
  pose proof (score_pos Phi H ((fst (fst p) - snd (fst p)) / snd p)) as [_ B]. fold c in B. specialize (Pt p Hp). rewrite (Rmult_comm c). apply Rmult_le_compat_l; lra.
Qed.
Lemma var_nth (l : list R) : l <> [] -> sqrt (var_l l) ^ 2 * INR (length l) = fold_right Rplus 0 (map (fun c => (c - mean_l l) ^ 2) l).
Proof.
intros N'. assert (0 <= var_l l). { unfold var_l. rewrite <- (mean_const l N' 0). apply mean_le; [exact N'|]. intros; apply pow2_ge_0. }
rewrite <- Rsqr_pow2, Rsqr_sqrt by assumption. unfold var_l. rewrite <- (map_length (fun v => (v - mean_l l) ^ 2) l). apply mean_nth.
intros E. apply map_eq_nil in E. contradiction.
Qed.
Lemma trip_nth {B} (f : R -> B) d i : (i < length (vals y))%nat ->
  nth i (combine (combine (vals y) (vals mx)) (map f (vals vx))) (0, 0, f d) = (nth i (vals y) 0, nth i (vals mx) 0, f (nth i (vals vx) d)).
Proof.
intros Li. rewrite combine_nth by apply trip_len. rewrite combine_nth by lia. rewrite map_nth. reflexivity.
Qed.
Lemma crps_scores_l Phi m s : normal_cdf Phi -> crps Phi mx vx y = Some (m, s) ->
  exists cs, length cs = length (vals y) /\
    (forall i, (i < length (vals y))%nat -> crps_of (fun t => Phi ((t - nth i (vals mx) 0) / sqrt (nth i (vals vx) 0))) (nth i (vals y) 0) (nth i cs 0)) /\
    m * INR (length (vals y)) = fold_right Rplus 0 cs /\
    0 <= s /\ s ^ 2 * INR (length (vals y)) = fold_right Rplus 0 (map (fun c => (c - m) ^ 2) cs).
Proof.
intros H E. destruct (shapes_of (Some _) _ E) as [S1 S2]. rewrite (crps_val Phi S1 S2) in E. cbv zeta in E. revert E.
set (tr := combine (combine (vals y) (vals mx)) (map sqrt (vals vx))). set (cs := map _ tr). intros [= <- <-]. exists cs.
assert (Nt : tr <> []) by apply trip_nil. assert (Lc : length cs = length (vals y)). { unfold cs, tr. rewrite map_length, combine_length, combine_length, map_length. lia. }
assert (Nc : cs <> []) by (intros Z; apply map_eq_nil in Z; contradiction).
split; [exact Lc|]. split; [|rewrite <- Lc; split; [apply mean_nth, Nc|split; [apply sqrt_pos|apply var_nth, Nc]]].
intros i Li. unfold cs. rewrite (nth_map0 _ tr (0, 0, sqrt 0)) by (rewrite <- (map_length (fun p => crps_term Phi (fst (fst p)) (snd (fst p)) (snd p)) tr); fold cs; lia).
unfold tr. rewrite (trip_nth sqrt 0 i Li). cbn [fst snd]. apply crps_integral; [exact H|]. apply sqrt_lt_R0, P, nth_In. lia.
Qed.
(** the density of the normal distribution with mean m and variance v at y *)
Lemma nlpd_termE yy m v : 0 < v -> nlpd_term yy m v = - ln (normal_pdf ((yy - m) / sqrt v) / sqrt v).
Proof.
intros V. unfold nlpd_term, normal_pdf. pose proof s2pi as S0. pose proof (sqrt_lt_R0 v V) as Sv. pose proof PI_RGT_0 as PI0.
assert (Vs : sqrt v ^ 2 = v) by (rewrite <- Rsqr_pow2; apply Rsqr_sqrt; lra).
assert (Hd : forall a b, 0 < a -> 0 < b -> ln (a / b) = ln a - ln b). { intros a b A B. unfold Rdiv. rewrite ln_mult, ln_Rinv; [ring|assumption|assumption|apply Rinv_0_lt_compat; assumption]. }
rewrite !Hd; try apply Rdiv_lt_0_compat; try apply exp_pos; try assumption. rewrite ln_mult by lra. rewrite ln_mult by lra.
rewrite ln_exp. replace (((yy - m) / sqrt v) ^ 2) with ((yy - m) ^ 2 / v) by (rewrite <- Vs at 1; field; lra).
assert (Hh : forall u, 0 < u -> ln u = 2 * ln (sqrt u)). { intros u U. rewrite <- (sqrt_sqrt u) at 1 by lra. rewrite ln_mult by (apply sqrt_lt_R0; exact U). ring. }
assert (Hv := Hh v V). assert (Hp := Hh (2 * PI) ltac:(lra)). rewrite ln_mult in Hp by lra. 
assert (D : - ((yy - m) ^ 2 / v) / 2 = - (1 / 2 * (yy - m) ^ 2 / v)) by (field; lra). lra.
Qed.
Lemma nlpd_l r : nlpd mx vx y = Some r ->
  r * INR (length (vals y)) = fold_right Rplus 0 (map (fun i => - ln (normal_pdf ((nth i (vals y) 0 - nth i (vals mx) 0) / sqrt (nth i (vals vx) 0)) / sqrt (nth i (vals vx) 0))) (seq 0 (length (vals y)))).
Proof.
unfold nlpd. destruct (_ && _); [|discriminate]. intros [= <-]. unfold zipw. rewrite <- (map_id (vals vx)) at 1.
set (tr := combine (combine (vals y) (vals mx)) (map (fun v => v) (vals vx))).
assert (Lt : length tr = length (vals y)) by (unfold tr; rewrite combine_length, combine_length, map_length; lia).
replace (map (fun p => nlpd_term (fst (fst p)) (snd (fst p)) (snd p)) tr) with (map (fun i => - ln (normal_pdf ((nth i (vals y) 0 - nth i (vals mx) 0) / sqrt (nth i (vals vx) 0)) / sqrt (nth i (vals vx) 0))) (seq 0 (length (vals y)))).
- rewrite <- mean_nth; [rewrite map_length, seq_length; reflexivity|]. intros Z. apply map_eq_nil in Z. revert Z. apply seq_nil. destruct (vals y); [congruence|cbn; lia].
- apply nth_ext with 0 0; [rewrite !map_length, seq_length; congruence|]. rewrite map_length, seq_length. intros i Li.
  rewrite nth_seq_map by exact Li. rewrite (nth_map0 _ tr (0, 0, 0)) by lia. unfold tr. rewrite (trip_nth (fun v => v) 0 i Li). cbn [fst snd].
  symmetry. apply nlpd_termE, P, nth_In. lia.
Qed.
Lemma msll_l y_data r : 0 < var_l y_data -> msll y_data mx vx y = Some r ->
  exists g, nlpd mx vx y = Some g /\
  (g - r) * INR (length (vals y)) = fold_right Rplus 0 (map (fun yt => - ln (normal_pdf ((yt - mean_l y_data) / sqrt (var_l y_data)) / sqrt (var_l y_data))) (vals y)).
Proof.
intros V. unfold msll, nlpd. destruct (_ && _); [|discriminate]. intros [= <-]. eexists. split; [reflexivity|].
unfold nlpd_term. match goal with |- (?a - (?b - ?c)) * _ = _ => change b with a; replace (a - (a - c)) with c by ring end.
rewrite <- mean_nth; [|intros Z; apply map_eq_nil in Z; contradiction]. rewrite map_length. f_equal. f_equal. apply map_ext. intros yt. apply (nlpd_termE yt _ _ V).
Qed.
Lemma msll_zero_l y_data r : (forall i, (i < length (vals y))%nat -> nth i (vals mx) 0 = mean_l y_data /\ nth i (vals vx) 0 = var_l y_data) ->
  msll y_data mx vx y = Some r -> r = 0.
Proof.
intros B. unfold msll. destruct (_ && _); [|discriminate]. intros [= <-]. apply Rminus_diag_eq. f_equal. unfold zipw. rewrite <- (map_id (vals vx)) at 1.
set (tr := combine (combine (vals y) (vals mx)) (map (fun v => v) (vals vx))).
assert (Lt : length tr = length (vals y)) by (unfold tr; rewrite combine_length, combine_length, map_length; lia).
apply nth_ext with 0 0; [rewrite !map_length; exact Lt|]. rewrite map_length. intros i Li.
rewrite (nth_map0 _ tr (0, 0, 0)) by lia. rewrite (nth_map0 _ (vals y) 0) by lia. unfold tr. rewrite (trip_nth (fun v => v) 0 i) by lia. cbn [fst snd].
destruct (B i ltac:(lia)) as [-> ->]. reflexivity.
Qed.
End Triples.
Lemma r2_l mx y r : length (vals y) = length (vals mx) -> (exists a b, In a (vals y) /\ In b (vals y) /\ a <> b) -> r2 mx y = Some r ->
  r <= 1 /\ (r = 1 <-> vals y = vals mx) /\ ((forall p, In p (vals mx) -> p = mean_l (vals y)) -> r = 0).
Proof.
intros L [a [b [Ha [Hb D]]]]. unfold r2. destruct (shape_eqb _ _); [|discriminate]. set (z := sum_l (zipw _ _ _)).
set (tot := sum_l (map (fun a => (a - mean_l (vals y)) ^ 2) (vals y))).
assert (T : 0 < tot).
{ assert (T0 : sum_l (map (fun _ => 0) (vals y)) <= tot) by (apply sum_map_le; intros; apply pow2_ge_0).
  rewrite sum_const, Rmult_0_r in T0. destruct T0 as [|T0]; [assumption|exfalso].
  assert (Z : forall c, In c (vals y) -> 0 = (c - mean_l (vals y)) ^ 2). { apply (sum_map_eq (fun _ => 0) (fun a => (a - mean_l (vals y)) ^ 2)); [intros; apply pow2_ge_0|]. rewrite sum_const, Rmult_0_r. exact T0. }
  pose proof (Z a Ha) as Za. pose proof (Z b Hb) as Zb. symmetry in Za, Zb. rewrite <- Rsqr_pow2 in Za, Zb. apply Rsqr_0_uniq in Za, Zb. apply D. lra. }
set (pr := combine (vals y) (vals mx)). set (res := sum_l (map (fun p => (fst p - snd p) ^ 2) pr)).
change z with res. intros E0. assert (Er0 : 1 - res / tot = r) by congruence. rewrite <- Er0. clear E0 Er0 r.
assert (Z0 : sum_l (map (fun _ : R * R => 0) pr) = 0) by (rewrite sum_const; ring).
assert (R0 : 0 <= res). { rewrite <- Z0. apply sum_map_le. intros; apply pow2_ge_0. }
assert (Q : 0 <= res / tot) by (apply Rmult_le_pos; [assumption|left; apply Rinv_0_lt_compat; assumption]).
split; [lra|]. split.
- assert (Er : 1 - res / tot = 1 <-> res = 0). { split; intros E; [|rewrite E; unfold Rdiv; ring]. assert (res / tot = 0) by lra. unfold Rdiv in H. apply Rmult_integral in H as [|H]; [assumption|]. pose proof (Rinv_0_lt_compat _ T). lra. }
  rewrite Er, <- combine_all_eq by exact L. fold pr. split; intros E.
  + intros p Hp. assert (Z : 0 = (fst p - snd p) ^ 2). { apply (sum_map_eq (fun _ => 0) (fun p => (fst p - snd p) ^ 2) pr); [intros; apply pow2_ge_0|rewrite Z0; symmetry; exact E|exact Hp]. }
    symmetry in Z. rewrite <- Rsqr_pow2 in Z. apply Rsqr_0_uniq in Z. lra.
  + unfold res. rewrite <- Z0. f_equal. apply map_ext_in. intros p Hp. rewrite (E p Hp). ring.
- intros C. assert (Et : res = tot).
  { unfold res, tot, pr. clear - L C. set (m := mean_l (vals y)) in *. clearbody m. generalize dependent (vals mx). induction (vals y) as [|a l IH]; intros [|b l'] L C; cbn in *; try lia; [reflexivity|].
    rewrite (C b (or_introl eq_refl)). unfold sum_l in *. cbn. f_equal. apply IH; [lia|]. intros; apply C; right; assumption. }
  rewrite Et. field. lra.
Qed.

(** * coverage for arbitrary shapes *)
Lemma nth_map_le {A} (f g : A -> R) l i : (forall a, In a l -> f a <= g a) -> nth i (map f l) 0 <= nth i (map g l) 0.
Proof. revert i. induction l as [|a l IH]; intros [|i] K; cbn; try lra; [apply K; left; reflexivity|]. apply IH. intros; apply K; right; assumption. Qed.
Lemma mean_01 {A} (l : list A) f g : (forall a, In a l -> 0 <= f a <= g a /\ g a <= 1) -> 0 <= mean_l (map f l) /\ mean_l (map f l) <= mean_l (map g l) /\ mean_l (map g l) <= 1.
Proof.
intros K. destruct l as [|a0 l0]; [unfold mean_l; cbn; unfold Rdiv; rewrite Rmult_0_l; lra|]. set (l := a0 :: l0) in *. assert (N : l <> []) by discriminate.
split; [|split].
- rewrite <- (mean_const l N 0) at 1. apply mean_le; [exact N|]. intros; apply K; assumption.
- apply mean_le; [exact N|]. intros; apply K; assumption.
- rewrite <- (mean_const l N 1). apply mean_le; [exact N|]. intros; apply K; assumption.
Qed.
Lemma picp_mono_l ppf mx vx y a b p q : 0 <= z_of ppf a <= z_of ppf b -> picp ppf mx vx y a = Some p -> picp ppf mx vx y b = Some q -> 0 <= p /\ p <= q /\ q <= 1.
Proof.
intros [Z0 Z1]. unfold picp. set (sg := Arr (shape vx) (map sqrt (vals vx))).
assert (SG : forall idx, 0 <= getb sg idx). { intros idx. unfold getb, sg; cbn [shape vals]. set (k := flatC _ _). rewrite <- sqrt_0 at 2. rewrite map_nth. apply sqrt_pos. }
unfold broadcast. cbn [shape option_map]. replace (shape sg) with (shape vx) by reflexivity.
destruct (bshape (shape mx) (shape vx)) as [s|]; [|discriminate]. cbn [option_map shape].
destruct (bshape (shape y) s) as [t|]; [|discriminate]. cbn [option_map vals]. intros [= <-] [= <-].
assert (ZW : forall (f g : list nat -> R) l, zipw Rmult (map f l) (map g l) = map (fun i => f i * g i) l). { intros f g l. unfold zipw. induction l as [|i l IH]; cbn; [reflexivity|]. f_equal. apply IH. }
rewrite !ZW. apply mean_01. intros idx _.
assert (LO : forall z z' k, z <= z' -> nth k (map (fun i => getb mx i - z' * getb sg i) (indices s)) 0 <= nth k (map (fun i => getb mx i - z * getb sg i) (indices s)) 0).
{ intros z z' k Hz. apply nth_map_le. intros i _. pose proof (Rmult_le_compat_r _ _ _ (SG i) Hz). lra. }
assert (UP : forall z z' k, z <= z' -> nth k (map (fun i => getb mx i + z * getb sg i) (indices s)) 0 <= nth k (map (fun i => getb mx i + z' * getb sg i) (indices s)) 0).
{ intros z z' k Hz. apply nth_map_le. intros i _. pose proof (Rmult_le_compat_r _ _ _ (SG i) Hz). lra. }
set (A1 := getb (Arr s (map (fun i => getb mx i - z_of ppf a * getb sg i) (indices s))) idx). set (B1 := getb (Arr s (map (fun i => getb mx i - z_of ppf b * getb sg i) (indices s))) idx).
set (A2 := getb (Arr s (map (fun i => getb mx i + z_of ppf a * getb sg i) (indices s))) idx). set (B2 := getb (Arr s (map (fun i => getb mx i + z_of ppf b * getb sg i) (indices s))) idx).
assert (B1 <= A1) by (apply LO; exact Z1). assert (A2 <= B2) by (apply UP; exact Z1). clearbody A1 A2 B1 B2.
repeat destruct Rle_dec; lra.
Qed.

(** * relative errors *)
Lemma max_l_spec l : l <> [] -> In (max_l l) l /\ forall v, In v l -> v <= max_l l.
Proof.
unfold max_l. assert (K : forall d k, (forall v, In v k -> v <= fold_right Rmax d k) /\ (fold_right Rmax d k = d \/ In (fold_right Rmax d k) k)).
{ intros d k. induction k as [|a k [I1 I2]]; cbn; [tauto|]. split.
  - intros v [->|Hv]; [apply Rmax_l|]. eapply Rle_trans; [apply I1, Hv|apply Rmax_r].
  - unfold Rmax. destruct Rle_dec; tauto. }
destruct l as [|a l]; [congruence|]. intros _. destruct (K a (a :: l)) as [K1 K2]. cbn [hd]. split; [|exact K1].
destruct K2 as [->|K2]; [left; reflexivity|exact K2].
Qed.
Lemma min_l_spec l : l <> [] -> In (min_l l) l /\ forall v, In v l -> min_l l <= v.
Proof.
unfold min_l. assert (K : forall d k, (forall v, In v k -> fold_right Rmin d k <= v) /\ (fold_right Rmin d k = d \/ In (fold_right Rmin d k) k)).
{ intros d k. induction k as [|a k [I1 I2]]; cbn; [tauto|]. split.
  - intros v [->|Hv]; [apply Rmin_l|]. eapply Rle_trans; [apply Rmin_r|apply I1, Hv].
  - unfold Rmin. destruct Rle_dec; tauto. }
destruct l as [|a l]; [congruence|]. intros _. destruct (K a (a :: l)) as [K1 K2]. cbn [hd]. split; [|exact K1].
destruct K2 as [->|K2]; [left; reflexivity|exact K2].
Qed.
Lemma pair_nth (a b : list R) p : length a = length b -> In p (combine a b) -> exists i, (i < length a)%nat /\ p = (nth i a 0, nth i b 0).
Proof.
intros L Hp. destruct (In_nth _ _ (0, 0) Hp) as [i [Li E]]. rewrite combine_length in Li. exists i. split; [lia|]. rewrite <- E. apply combine_nth. exact L.
Qed.
Lemma nrmse_l mx y t hi lo r : shape y = shape mx -> length (vals y) = length (vals mx) -> vals y <> [] ->
  In hi (vals y) -> In lo (vals y) -> (forall v, In v (vals y) -> lo <= v <= hi) -> lo < hi ->
  (forall i, (i < length (vals y))%nat -> Rabs (nth i (vals y) 0 - nth i (vals mx) 0) = t * (hi - lo)) -> nrmse mx y = Some r -> r = t.
Proof.
intros S L N Hh Hl B D K. unfold nrmse. rewrite (rmse_val mx y S L). cbn [option_map]. intros E.
destruct (max_l_spec _ N) as [M1 M2]. destruct (min_l_spec _ N) as [m1 m2].
assert (EM : max_l (vals y) = hi) by (apply Rle_antisym; [apply B, M1|apply M2, Hh]). assert (Em : min_l (vals y) = lo) by (apply Rle_antisym; [apply m2, Hl|apply B, m1]).
rewrite EM, Em in E. assert (Nc : combine (vals y) (vals mx) <> []) by (apply combine_nil; assumption).
assert (E2 : map (fun p => (fst p - snd p) ^ 2) (combine (vals y) (vals mx)) = map (fun _ => (t * (hi - lo)) ^ 2) (combine (vals y) (vals mx))).
{ apply map_ext_in. intros p Hp. destruct (pair_nth _ _ _ L Hp) as [i [Li ->]]. cbn [fst snd]. rewrite <- (K i Li), pow2_abs. reflexivity. }
assert (T : 0 <= t * (hi - lo)). { destruct (vals y) as [|v l] eqn:Ev; [congruence|]. rewrite <- (K 0%nat ltac:(cbn; lia)). apply Rabs_pos. }
rewrite E2, (mean_const _ Nc), <- Rsqr_pow2, sqrt_Rsqr in E by exact T. injection E as <-. field. lra.
Qed.
Lemma mape_l mx y (rs : list R) r : shape y = shape mx -> length (vals y) = length (vals mx) -> length rs = length (vals y) -> vals y <> [] ->
  (forall v, In v (vals y) -> v <> 0) -> (forall i, (i < length (vals y))%nat -> nth i (vals mx) 0 = (1 + nth i rs 0) * nth i (vals y) 0) -> mape mx y = Some r ->
  r * INR (length (vals y)) = fold_right Rplus 0 (map Rabs rs).
Proof.
intros S L Lr N Z K. unfold mape. rewrite (proj2 (shape_eqbP _ _) S). unfold zipw. cbv beta.
replace (map (fun p => Rabs ((fst p - snd p) / fst p)) (combine (vals y) (vals mx))) with (map Rabs rs).
- intros E. assert (E' : mean_l (map Rabs rs) = r) by congruence. rewrite <- E', <- Lr, <- (map_length Rabs rs). apply mean_nth. intros E0. apply map_eq_nil in E0. subst. destruct (vals y); [congruence|discriminate].
- apply nth_ext with 0 0; [rewrite !map_length, combine_length; lia|]. rewrite map_length. intros i Li.
  rewrite (nth_map0 _ rs 0) by exact Li. rewrite (nth_map0 _ _ (0, 0)) by (rewrite combine_length; lia). rewrite combine_nth by exact L. cbn [fst snd]. rewrite K by lia.
  assert (nth i (vals y) 0 <> 0) by (apply Z, nth_In; lia). rewrite <- Rabs_Ropp. f_equal. field. assumption.
Qed.
