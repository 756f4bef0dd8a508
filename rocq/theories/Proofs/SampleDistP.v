(** Lemmas on the distances between samples. *)
From Coq Require Import Reals Lra Lia List Permutation Psatz FunctionalExtensionality.
From Coquelicot Require Import Coquelicot.
From Verif Require Import Model.Prelude Model.Ext Model.Kernels Model.Training Model.SampleDist
  Spec.Sums Spec.KernelSpec Spec.SampleDistSpec Proofs.PsdP Proofs.KernelPsdP.
Import ListNotations.
Local Open Scope R_scope.

(** ** sums over lists *)
Lemma add_up_lsum {X} (f : X -> R) l : add_up f l = lsum (map f l).
Proof. induction l; cbn; [reflexivity|]. rewrite IHl. reflexivity. Qed.
Lemma add_up_ext {X} (f g : X -> R) l : (forall x, In x l -> f x = g x) -> add_up f l = add_up g l.
Proof. induction l; cbn; intros H; [reflexivity|]. rewrite IHl, H; auto. Qed.
Lemma add_up_plus {X} (f g : X -> R) l : add_up (fun x => f x + g x) l = add_up f l + add_up g l.
Proof. induction l; cbn; lra. Qed.
Lemma add_up_scal {X} c (f : X -> R) l : add_up (fun x => c * f x) l = c * add_up f l.
Proof. induction l; cbn; [lra|]. rewrite IHl. lra. Qed.
Lemma add_up_const {X} c (l : list X) : add_up (fun _ => c) l = INR (length l) * c.
Proof. induction l; cbn [add_up length]; [cbn; lra|]. rewrite IHl, S_INR. lra. Qed.
Lemma add_up_app {X} (f : X -> R) a b : add_up f (a ++ b) = add_up f a + add_up f b.
Proof. induction a; cbn; [lra|]. rewrite IHa. lra. Qed.
Lemma add_up_perm {X} (f : X -> R) a b : Permutation a b -> add_up f a = add_up f b.
Proof. induction 1; cbn; lra. Qed.
Lemma add_up_map {X Y} (f : Y -> R) (g : X -> Y) l : add_up f (map g l) = add_up (fun x => f (g x)) l.
Proof. induction l; cbn; [reflexivity|]. now rewrite IHl. Qed.
Lemma add_up_swap {X Y} (f : X -> Y -> R) a b :
  add_up (fun x => add_up (f x) b) a = add_up (fun y => add_up (fun x => f x y) a) b.
Proof.
  induction a as [|x a IH]; cbn.
  - induction b; cbn; lra.
  - rewrite IH. rewrite add_up_plus. reflexivity.
Qed.
Lemma add_up_le {X} (f g : X -> R) l : (forall x, In x l -> f x <= g x) -> add_up f l <= add_up g l.
Proof. induction l; cbn; intros H; [lra|]. assert (f a <= g a) by auto. assert (add_up f l <= add_up g l) by auto. lra. Qed.
Lemma INR_len {X} (l : list X) : l <> [] -> 0 < INR (length l).
Proof. destruct l; [congruence|]. intros _. apply lt_0_INR. cbn. lia. Qed.

Lemma pair_average_eq {X} (f : X -> X -> R) a b : a <> [] -> b <> [] ->
  pair_average f a b = add_up (fun x => add_up (f x) b) a / (INR (length a) * INR (length b)).
Proof.
  intros A B. apply INR_len in A. apply INR_len in B. unfold pair_average, average.
  rewrite (add_up_ext _ (fun x => / INR (length b) * add_up (f x) b)) by (intros; unfold Rdiv; apply Rmult_comm).
  rewrite add_up_scal. field. lra.
Qed.
Lemma average_ext {X} (f g : X -> R) l : (forall x, In x l -> f x = g x) -> average f l = average g l.
Proof. intros H. unfold average. now rewrite (add_up_ext f g). Qed.
Lemma pair_average_swap {X} (f : X -> X -> R) a b : a <> [] -> b <> [] ->
  pair_average f a b = pair_average (fun x y => f y x) b a.
Proof. intros A B. rewrite !pair_average_eq by auto. rewrite add_up_swap, (Rmult_comm (INR (length a))). reflexivity. Qed.
Lemma pair_average_sym {X} (f : X -> X -> R) a b : (forall x y, f x y = f y x) -> a <> [] -> b <> [] ->
  pair_average f a b = pair_average f b a.
Proof.
  intros S A B. rewrite pair_average_swap by auto. unfold pair_average. apply average_ext. intros. apply average_ext. auto.
Qed.

(** ** samples of the same distribution *)
Lemma add_up_repeated {X} (f : X -> R) n l : add_up f (repeated n l) = INR n * add_up f l.
Proof. unfold repeated. induction n; [cbn; lra|]. cbn [repeat concat]. rewrite add_up_app, IHn, S_INR. lra. Qed.
Lemma length_repeated {X} n (l : list X) : length (repeated n l) = (n * length l)%nat.
Proof. unfold repeated. induction n; cbn; [reflexivity|]. rewrite app_length, IHn. reflexivity. Qed.
Lemma average_same {X} (f : X -> R) a b : a <> [] -> b <> [] -> same_distribution a b -> average f a = average f b.
Proof.
  intros A B (n & m & Hn & Hm & P).
  pose proof (add_up_perm f _ _ P) as S. rewrite !add_up_repeated in S.
  pose proof (Permutation_length P) as L. rewrite !length_repeated in L. apply (f_equal INR) in L. rewrite !mult_INR in L.
  apply INR_len in A. apply INR_len in B. assert (0 < INR n) by (apply lt_0_INR; lia). assert (0 < INR m) by (apply lt_0_INR; lia).
  unfold average. apply (Rmult_eq_reg_l (INR n * INR (length a))); [|nra].
  replace (INR n * INR (length a) * (add_up f a / INR (length a))) with (INR n * add_up f a) by (field; lra).
  rewrite L, S. field. lra.
Qed.
Lemma discrepancy_same {X} (f : X -> X -> R) a b : a <> [] -> b <> [] -> same_distribution a b -> discrepancy f a b = 0.
Proof.
  intros A B S. unfold discrepancy, pair_average.
  assert (E : average (fun x => average (fun y => f x y) b) a = average (fun x => average (fun y => f x y) b) b) by (apply average_same; auto).
  assert (E' : average (fun x => average (fun y => f x y) b) a = average (fun x => average (fun y => f x y) a) a).
  { apply average_ext. intros. symmetry. apply average_same; auto. }
  rewrite E', <- E, E'. lra.
Qed.

(** ** negative type and signed weights *)
Definition bil {X} (k : X -> X -> R) (l r : list (R * X)) : R :=
  sum_list (map (fun p => sum_list (map (fun q => fst p * fst q * k (snd p) (snd q)) r)) l).
Definition wl {X} (c : R) (l : list X) : list (R * X) := map (fun x => (c, x)) l.
Lemma bil_quad {X} (k : X -> X -> R) l : quad_form k l = bil k l l. Proof. reflexivity. Qed.
Lemma bil_app_l {X} (k : X -> X -> R) l l' r : bil k (l ++ l') r = bil k l r + bil k l' r.
Proof. unfold bil. rewrite map_app, sl_app. reflexivity. Qed.
Lemma bil_app_r {X} (k : X -> X -> R) l r r' : bil k l (r ++ r') = bil k l r + bil k l r'.
Proof.
  unfold bil. rewrite <- sl_plus. apply sl_ext. intros p. rewrite map_app, sl_app. reflexivity.
Qed.
Lemma bil_wl {X} (k : X -> X -> R) s a t b : bil k (wl s a) (wl t b) = s * t * add_up (fun x => add_up (k x) b) a.
Proof.
  assert (E : forall x, sum_list (map (fun q : R * X => s * fst q * k x (snd q)) (wl t b)) = s * t * add_up (k x) b).
  { intros x. unfold wl, sum_list. induction b; cbn; [lra|]. rewrite IHb. lra. }
  unfold bil. transitivity (sum_list (map (fun x => s * t * add_up (k x) b) a)).
  - unfold wl at 2. rewrite map_map. apply sl_ext. intros x. apply E.
  - rewrite sl_scal. f_equal. induction a; cbn; [reflexivity|]. unfold sum_list in *. rewrite IHa. reflexivity.
Qed.
Lemma sum_wl {X} c (l : list X) : sum_list (map fst (wl c l)) = c * INR (length l).
Proof. unfold wl. induction l; cbn [map length]; [cbn; lra|]. unfold sum_list in *. cbn [fold_right map]. rewrite IHl, S_INR. cbn. lra. Qed.
Lemma quad_one {X} (l : list (R * X)) : quad_form (fun _ _ => 1) l = sum_list (map fst l) ^ 2.
Proof.
  unfold quad_form. transitivity (sum_list (map fst l) * sum_list (map fst l)); [|ring].
  rewrite <- sl_scal. apply sl_ext. intros p. rewrite Rmult_comm, <- sl_scal. apply sl_ext. intros; ring.
Qed.
Lemma exp_slope p : Un_cv (fun n => (1 - exp (- (/ INR (S n) * p))) * INR (S n)) p.
Proof.
  assert (D : derivable_pt_lim (fun t => - exp (- (t * p))) 0 p).
  { apply is_derive_Reals. auto_derive; auto. rewrite Rmult_0_l, Ropp_0, exp_0. ring. }
  intros e He. destruct (D e He) as [d Hd].
  destruct (archimed_cor1 d (cond_pos d)) as [N [HN HN']]. exists N. intros n Hn.
  assert (0 < INR (S n)) by (apply lt_0_INR; lia).
  assert (L : / INR (S n) < d).
  { apply Rle_lt_trans with (/ INR N); auto. apply Rinv_le_contravar; [apply lt_0_INR; lia|apply le_INR; lia]. }
  assert (P : 0 < / INR (S n)) by (apply Rinv_0_lt_compat; auto).
  specialize (Hd (/ INR (S n)) ltac:(lra) ltac:(rewrite Rabs_pos_eq; lra)).
  unfold R_dist. rewrite Rplus_0_l, Rmult_0_l, Ropp_0, exp_0 in Hd.
  replace ((1 - exp (- (/ INR (S n) * p))) * INR (S n)) with ((- exp (- (/ INR (S n) * p)) - - (1)) / / INR (S n)); auto.
  field. lra.
Qed.
(** Weights that add up to zero make the form of a function of negative type non-positive. *)
Lemma nt_zero_sum {X} (p : X -> X -> R) l : neg_type p -> sum_list (map fst l) = 0 -> quad_form p l <= 0.
Proof.
  intros N Z.
  assert (C : Un_cv (fun n => quad_form (fun x y => (1 - exp (- (/ INR (S n) * p x y))) * INR (S n)) l) (quad_form p l)).
  { apply qf_lim. intros. apply exp_slope. }
  destruct (Rle_dec (quad_form p l) 0) as [|B]; auto.
  destruct (C (quad_form p l)) as [n Hn]; [lra|]. specialize (Hn n (Nat.le_refl n)).
  assert (Sn : 0 < INR (S n)) by (apply lt_0_INR; lia).
  assert (Q : quad_form (fun x y => (1 - exp (- (/ INR (S n) * p x y))) * INR (S n)) l <= 0).
  { rewrite (qf_ext _ (fun x y => INR (S n) * (1 + -1 * exp (- (/ INR (S n) * p x y))))) by (intros; ring).
    rewrite qf_scal, (qf_plus (fun _ _ => 1)), qf_scal, quad_one, Z.
    pose proof (mult_nn _ (N (/ INR (S n)) ltac:(left; apply Rinv_0_lt_compat; auto)) l). nra. }
  unfold R_dist in Hn. apply Rabs_def2 in Hn. lra.
Qed.
Lemma nt_euclid D : neg_type (euclid D).
Proof.
  apply (nt_sqrt (fun x y : nat -> R => rsum (fun i => (x i - y i) ^ 2) D)).
  - intros. apply rsum_nonneg. intros. apply pow2_ge_0.
  - exact (nt_sqdist (fun i (x : nat -> R) => x i) D).
Qed.
Lemma euclid_sym D x y : euclid D x y = euclid D y x.
Proof. unfold euclid. f_equal. apply rsum_ext. intros. ring. Qed.
Lemma euclid_refl D x : euclid D x x = 0.
Proof. unfold euclid. rewrite (rsum_ext _ (fun _ => 0)) by (intros; ring). rewrite rsum_const, Rmult_0_r. apply sqrt_0. Qed.
Lemma euclid_pos D x y : 0 <= euclid D x y. Proof. apply sqrt_pos. Qed.

(** ** discrepancies of functions of negative type *)
Section Nt.
Context {X : Type} (p : X -> X -> R) (Hp : neg_type p) (Sp : forall x y, p x y = p y x).
Implicit Types a b c : list X.
Lemma three a b c s t : a <> [] -> b <> [] -> c <> [] ->
  0 <= s ^ 2 * discrepancy p a b + t ^ 2 * discrepancy p b c
       + s * t * (discrepancy p a c - discrepancy p a b - discrepancy p b c).
Proof.
  intros A B C. pose proof (INR_len a A) as LA. pose proof (INR_len b B) as LB. pose proof (INR_len c C) as LC.
  set (l := wl (s / INR (length a)) a ++ wl ((t - s) / INR (length b)) b ++ wl (- t / INR (length c)) c).
  assert (Z : sum_list (map fst l) = 0).
  { unfold l. rewrite !map_app, !sl_app, !sum_wl. field. lra. }
  pose proof (nt_zero_sum p l Hp Z) as Q. rewrite bil_quad in Q. unfold l in Q.
  rewrite !bil_app_l, !bil_app_r, !bil_wl in Q.
  unfold discrepancy.
  rewrite (pair_average_sym p a b), (pair_average_sym p b c), (pair_average_sym p a c) by auto.
  assert (E : forall x y, x <> [] -> y <> [] -> add_up (fun u => add_up (p u) y) x = pair_average p x y * (INR (length x) * INR (length y))).
  { intros x y Hx Hy. rewrite pair_average_eq by auto. apply INR_len in Hx. apply INR_len in Hy. field. lra. }
  rewrite !E in Q by auto.
  rewrite (pair_average_sym p a b), (pair_average_sym p b c), (pair_average_sym p a c) in Q by auto.
  set (aa := pair_average p a a) in *. set (bb := pair_average p b b) in *. set (cc := pair_average p c c) in *.
  set (ab := pair_average p b a) in *. set (bc := pair_average p c b) in *. set (ac := pair_average p c a) in *.
  clearbody aa bb cc ab bc ac. clear E Z l.
  match type of Q with ?L <= 0 => replace L with (s ^ 2 * aa + (t - s) ^ 2 * bb + t ^ 2 * cc + 2 * (s * (t - s) * ab) - 2 * (s * t * ac) - 2 * (t * (t - s) * bc)) in Q by (field; lra) end.
  nra.
Qed.
Lemma discrepancy_nonneg a b : a <> [] -> b <> [] -> 0 <= discrepancy p a b.
Proof. intros A B. pose proof (three a b b 1 0 A B B). lra. Qed.
Lemma discrepancy_sym a b : a <> [] -> b <> [] -> discrepancy p a b = discrepancy p b a.
Proof. intros A B. unfold discrepancy. rewrite (pair_average_sym p a b) by auto. lra. Qed.
Lemma discrepancy_triangle a b c : a <> [] -> b <> [] -> c <> [] ->
  sqrt (discrepancy p a c) <= sqrt (discrepancy p a b) + sqrt (discrepancy p b c).
Proof.
  intros A B C. pose proof (discrepancy_nonneg a b A B) as P1. pose proof (discrepancy_nonneg b c B C) as P2.
  pose proof (discrepancy_nonneg a c A C) as P3.
  assert (K : forall s t, 0 <= s ^ 2 * discrepancy p a b + t ^ 2 * discrepancy p b c + s * t * (discrepancy p a c - discrepancy p a b - discrepancy p b c))
    by (intros; apply three; auto).
  set (u := discrepancy p a b) in *. set (v := discrepancy p b c) in *. set (w := discrepancy p a c) in *. clearbody u v w.
  rewrite <- (sqrt_pow2 (sqrt u + sqrt v)) by (pose proof (sqrt_pos u); pose proof (sqrt_pos v); lra).
  apply sqrt_le_1_alt.
  pose proof (sqrt_sqrt u P1) as U. pose proof (sqrt_sqrt v P2) as V. pose proof (sqrt_pos u). pose proof (sqrt_pos v).
  assert (H1 : w - u - v <= 2 * (sqrt u * sqrt v)); [|nra].
  destruct (Rle_dec (w - u - v) 0); [nra|].
  (* with s = sqrt v + e and t = -(sqrt u + e), let e shrink: argue by the discriminant *)
  destruct (Rle_dec (w - u - v) (2 * (sqrt u * sqrt v))) as [|Hn]; auto. exfalso.
  set (h := w - u - v) in *. clearbody h.
  destruct (Req_dec u 0) as [->|Hu].
  - rewrite sqrt_0 in *. pose proof (K (- (v + 1)) h). nra.
  - destruct (Req_dec v 0) as [->|Hv].
    + rewrite sqrt_0 in *. pose proof (K h (- (u + 1))). nra.
    + assert (0 < sqrt u) by (apply sqrt_lt_R0; lra). assert (0 < sqrt v) by (apply sqrt_lt_R0; lra).
      pose proof (K (sqrt v) (- sqrt u)) as K1.
      assert (0 < sqrt u * sqrt v) by nra.
      replace (sqrt v ^ 2) with v in K1 by (rewrite <- V at 1; ring). replace ((- sqrt u) ^ 2) with u in K1 by (rewrite <- U at 1; ring).
      assert (E : u * v = (sqrt u * sqrt v) * (sqrt u * sqrt v)) by (rewrite <- U at 1; rewrite <- V at 1; ring).
      set (q := sqrt u * sqrt v) in *. replace (sqrt v * - sqrt u) with (- q) in K1 by (unfold q; ring). nra.
Qed.
End Nt.

(** ** distance zero only for equal shares *)
Lemma euclid_agree D x z : euclid D x z = 0 <-> agree D x z.
Proof.
  unfold euclid, agree. split.
  - intros H. apply sqrt_eq_0 in H; [|apply rsum_nonneg; intros; apply pow2_ge_0].
    induction D as [|D IH]; [lia|]. cbn in H.
    assert (0 <= rsum (fun i => (x i - z i) ^ 2) D) by (apply rsum_nonneg; intros; apply pow2_ge_0).
    assert (0 <= (x D - z D) ^ 2) by (apply pow2_ge_0). cbn in *.
    intros i Hi. destruct (Nat.eq_dec i D) as [->|]; [nra|]. apply IH; [lra|lia].
  - intros H. rewrite (rsum_ext _ (fun _ => 0)) by (intros i Hi; rewrite (H i Hi); ring). rewrite rsum_const, Rmult_0_r. apply sqrt_0.
Qed.
Lemma euclid_ext D x x' y y' : agree D x x' -> agree D y y' -> euclid D x y = euclid D x' y'.
Proof. intros A B. unfold euclid. f_equal. apply rsum_ext. intros i Hi. rewrite (A i Hi), (B i Hi). reflexivity. Qed.

(** a point moved by t in its first coordinate *)
Definition moved (z : nat -> R) (t : R) : nat -> R := fun i => if Nat.eqb i 0 then z i + t else z i.
Lemma moved_sq D x z t : euclid (S D) x (moved z t) = sqrt (rsum (fun i => (x i - z i) ^ 2) (S D) + (t ^ 2 - 2 * t * (x 0%nat - z 0%nat))).
Proof.
  unfold euclid. f_equal. induction D as [|D IH]; [cbn; ring|].
  change (rsum (fun i => (x i - moved z t i) ^ 2) (S D) + (x (S D) - moved z t (S D)) ^ 2 = rsum (fun i => (x i - z i) ^ 2) (S D) + (x (S D) - z (S D)) ^ 2 + (t ^ 2 - 2 * t * (x 0%nat - z 0%nat))).
  rewrite IH. unfold moved. cbn [Nat.eqb]. ring.
Qed.
Definition second (D : nat) (x z : nat -> R) (t : R) : R := euclid (S D) x (moved z t) + euclid (S D) x (moved z (- t)) - 2 * euclid (S D) x z.
Lemma second_at D x z t : euclid (S D) x z = 0 -> 0 <= t -> second D x z t = 2 * t.
Proof.
  intros E Ht. unfold second. rewrite !moved_sq, E. apply euclid_agree in E.
  rewrite (rsum_ext _ (fun _ => 0)) by (intros i Hi; rewrite (E i Hi); ring). rewrite rsum_const, Rmult_0_r, (E 0%nat) by lia.
  replace (0 + (t ^ 2 - 2 * t * (z 0%nat - z 0%nat))) with (t ^ 2) by ring.
  replace (0 + ((- t) ^ 2 - 2 * - t * (z 0%nat - z 0%nat))) with (t ^ 2) by ring. rewrite sqrt_pow2; lra.
Qed.
Lemma sqrt_above s h : 0 < s -> 0 <= s + h -> sqrt (s + h) <= sqrt s + h / (2 * sqrt s).
Proof.
  intros Hs Hh. pose proof (sqrt_lt_R0 s Hs) as P. pose proof (sqrt_sqrt s (Rlt_le _ _ Hs)) as Q. pose proof (sqrt_sqrt (s + h) Hh) as Q'.
  assert (E : sqrt s + h / (2 * sqrt s) = (2 * s + h) / (2 * sqrt s)).
  { replace (2 * s) with (2 * (sqrt s * sqrt s)) by (rewrite Q; ring). field. lra. }
  rewrite E. apply (Rmult_le_reg_r (2 * sqrt s)); [lra|]. unfold Rdiv. rewrite Rmult_assoc, Rinv_l by lra.
  pose proof (pow2_ge_0 (sqrt (s + h) - sqrt s)). nra.
Qed.
Lemma second_off D x z t : euclid (S D) x z <> 0 -> 0 <= second D x z t <= t ^ 2 * / euclid (S D) x z.
Proof.
  intros E. pose proof (euclid_pos (S D) x z) as P. unfold second.
  set (s := rsum (fun i => (x i - z i) ^ 2) (S D)). assert (Es : euclid (S D) x z = sqrt s) by reflexivity.
  assert (Hs : 0 < s).
  { assert (0 <= s) by (apply rsum_nonneg; intros; apply pow2_ge_0). destruct (Req_dec s 0) as [Z|]; [|lra]. rewrite Es, Z, sqrt_0 in E. lra. }
  assert (F : forall u, 0 <= s + (u ^ 2 - 2 * u * (x 0%nat - z 0%nat))).
  { intros u. assert (K : (x 0%nat - z 0%nat) ^ 2 <= s).
    { unfold s. clear. induction D as [|D IH]; cbn [rsum]; [lra|]. cbn [rsum] in IH. pose proof (pow2_ge_0 (x (S D) - z (S D))). lra. }
    pose proof (pow2_ge_0 (u - (x 0%nat - z 0%nat))). nra. }
  rewrite !moved_sq. fold s. rewrite Es in *. pose proof (sqrt_lt_R0 s Hs) as Q.
  pose proof (F t) as F1. pose proof (F (- t)) as F2.
  pose proof (sqrt_above _ _ Hs F1) as A1. pose proof (sqrt_above _ _ Hs F2) as A2. split.
  - (* convexity *)
    set (u := sqrt (s + (t ^ 2 - 2 * t * (x 0%nat - z 0%nat)))) in *. set (v := sqrt (s + ((- t) ^ 2 - 2 * - t * (x 0%nat - z 0%nat)))) in *.
    assert (U : u * u = s + (t ^ 2 - 2 * t * (x 0%nat - z 0%nat))) by (apply sqrt_sqrt, F1).
    assert (V : v * v = s + ((- t) ^ 2 - 2 * - t * (x 0%nat - z 0%nat))) by (apply sqrt_sqrt, F2).
    assert (0 <= u) by apply sqrt_pos. assert (0 <= v) by apply sqrt_pos. pose proof (sqrt_sqrt s (Rlt_le _ _ Hs)) as SS.
    assert (K : (x 0%nat - z 0%nat) ^ 2 <= s).
    { unfold s. clear. induction D as [|D IH]; cbn [rsum]; [lra|]. cbn [rsum] in IH. pose proof (pow2_ge_0 (x (S D) - z (S D))). lra. }
    set (w := x 0%nat - z 0%nat) in *. clearbody w u v. set (r := sqrt s) in *. clearbody r s.
    assert (uv : (s - t ^ 2) <= u * v).
    { destruct (Rle_dec (s - t ^ 2) 0) as [|G]; [nra|]. apply Rsqr_incr_0_var; [|nra]. unfold Rsqr.
      replace (u * v * (u * v)) with ((u * u) * (v * v)) by ring. rewrite U, V. nra. }
    assert ((2 * r) ^ 2 <= (u + v) ^ 2) by nra. nra.
  - set (u := sqrt (s + (t ^ 2 - 2 * t * (x 0%nat - z 0%nat)))) in *. set (v := sqrt (s + ((- t) ^ 2 - 2 * - t * (x 0%nat - z 0%nat)))) in *.
    assert (G : (t ^ 2 - 2 * t * (x 0%nat - z 0%nat)) / (2 * sqrt s) + ((- t) ^ 2 - 2 * - t * (x 0%nat - z 0%nat)) / (2 * sqrt s) = t ^ 2 * / sqrt s) by (field; lra).
    lra.
Qed.

Section Separate.
Context (D : nat) (a b : list (nat -> R)) (A : a <> []) (B : b <> []) (Z : discrepancy (euclid (S D)) a b = 0).
Let F (z : nat -> R) : R := average (fun x => euclid (S D) x z) a - average (fun x => euclid (S D) x z) b.
Lemma F_diff z z0 t : 2 * t * (F z - F z0) <= 2 * t ^ 2 * euclid (S D) z z0.
Proof.
  pose proof (INR_len a A) as LA. pose proof (INR_len b B) as LB.
  set (l := wl (1 / INR (length a)) a ++ wl (- 1 / INR (length b)) b ++ wl t [z] ++ wl (- t) [z0]).
  assert (S0 : sum_list (map fst l) = 0) by (unfold l; rewrite !map_app, !sl_app, !sum_wl; cbn; field; lra).
  pose proof (nt_zero_sum _ l (nt_euclid (S D)) S0) as Q. rewrite bil_quad in Q. unfold l in Q.
  rewrite !bil_app_l, !bil_app_r, !bil_wl in Q.
  assert (E : forall x y : list (nat -> R), x <> [] -> y <> [] -> add_up (fun u => add_up (euclid (S D) u) y) x = pair_average (euclid (S D)) x y * (INR (length x) * INR (length y))).
  { intros x y Hx Hy. rewrite pair_average_eq by auto. apply INR_len in Hx. apply INR_len in Hy. field. lra. }
  rewrite !E in Q by (auto; discriminate).
  rewrite (pair_average_sym _ b a), (pair_average_sym _ [z] a), (pair_average_sym _ [z] b), (pair_average_sym _ [z0] a), (pair_average_sym _ [z0] b) in Q by (auto using euclid_sym; discriminate).
  unfold discrepancy in Z.
  assert (P1 : forall u c, pair_average (euclid (S D)) c [u] = average (fun x => euclid (S D) x u) c).
  { intros u c. unfold pair_average. apply average_ext. intros. unfold average. cbn. field. }
  rewrite !P1 in Q. unfold F.
  set (aa := pair_average (euclid (S D)) a a) in *. set (bb := pair_average (euclid (S D)) b b) in *. set (ab := pair_average (euclid (S D)) a b) in *.
  assert (S1 : forall u v, average (fun x => euclid (S D) x u) [v] = euclid (S D) v u) by (intros; unfold average; cbn; field).
  rewrite !S1, !euclid_refl, (euclid_sym (S D) z0 z) in Q.
  set (az := average (fun x => euclid (S D) x z) a) in *. set (bz := average (fun x => euclid (S D) x z) b) in *.
  set (az0 := average (fun x => euclid (S D) x z0) a) in *. set (bz0 := average (fun x => euclid (S D) x z0) b) in *.
  set (e := euclid (S D) z z0) in *. clearbody aa bb ab az bz az0 bz0 e. cbn [length INR] in Q.
  match type of Q with ?L <= 0 => replace L with (aa + bb - 2 * ab + 2 * t * (az - bz - (az0 - bz0)) - 2 * t ^ 2 * e) in Q by (field; lra) end.
  lra.
Qed.
Lemma F_const z z0 : F z = F z0.
Proof.
  pose proof (euclid_pos (S D) z z0) as P. set (d := F z - F z0). assert (H : forall t, t * d <= t ^ 2 * euclid (S D) z z0).
  { intros t. pose proof (F_diff z z0 t). unfold d. lra. }
  assert (K : d = 0); [|unfold d in K; lra].
  set (e := euclid (S D) z z0) in *. clearbody d e.
  pose proof (H (d / (2 * (e + 1)))) as H1. 
  replace (d / (2 * (e + 1)) * d) with (d ^ 2 / (2 * (e + 1))) in H1 by (field; lra).
  replace ((d / (2 * (e + 1))) ^ 2 * e) with (d ^ 2 / (2 * (e + 1)) * (e / (2 * (e + 1)))) in H1 by (field; lra).
  assert (e / (2 * (e + 1)) < 1).
  { apply (Rmult_lt_reg_r (2 * (e + 1))); [lra|]. unfold Rdiv. rewrite Rmult_assoc, Rinv_l by lra. lra. }
  assert (0 <= d ^ 2 / (2 * (e + 1))).
  { apply Rmult_le_pos; [apply pow2_ge_0|left; apply Rinv_0_lt_compat; lra]. }
  assert (d ^ 2 / (2 * (e + 1)) = 0) by nra.
  assert (d ^ 2 = 0). { apply (Rmult_eq_reg_r (/ (2 * (e + 1)))); [|apply Rinv_neq_0_compat; lra]. unfold Rdiv in *. lra. }
  nra.
Qed.
Lemma average_plus {X} (f g : X -> R) l : average (fun x => f x + g x) l = average f l + average g l.
Proof. unfold average. rewrite add_up_plus. unfold Rdiv. ring. Qed.
Lemma average_scal {X} c (f : X -> R) l : average (fun x => c * f x) l = c * average f l.
Proof. unfold average. rewrite add_up_scal. unfold Rdiv. ring. Qed.
Lemma average_le {X} (f g : X -> R) l : (forall x, f x <= g x) -> average f l <= average g l.
Proof.
  intros H. unfold average, Rdiv. destruct l as [|x l]; [cbn; lra|]. apply Rmult_le_compat_r.
  - left. apply Rinv_0_lt_compat, INR_len. discriminate.
  - apply add_up_le. auto.
Qed.
(** the second difference at z, for one sample *)
Lemma second_average z t l : 0 <= t ->
  2 * t * share (S D) z l <= average (fun x => second D x z t) l <= 2 * t * share (S D) z l
     + t ^ 2 * average (fun x => if Req_EM_T (euclid (S D) x z) 0 then 0 else / euclid (S D) x z) l.
Proof.
  intros Ht. unfold share. rewrite <- !average_scal, <- average_plus. split; apply average_le; intros x; cbv beta;
    destruct (Req_EM_T (euclid (S D) x z) 0) as [E|E]; try (rewrite (second_at D x z t E Ht)); try (pose proof (second_off D x z t E)); lra.
Qed.
Lemma second_split z t l : average (fun x => second D x z t) l =
  average (fun x => euclid (S D) x (moved z t)) l + average (fun x => euclid (S D) x (moved z (- t))) l - 2 * average (fun x => euclid (S D) x z) l.
Proof. unfold second. rewrite <- average_scal, <- average_plus. unfold Rminus. rewrite (average_ext (fun x => euclid (S D) x (moved z t) + euclid (S D) x (moved z (- t)) + - (2 * euclid (S D) x z)) (fun x => (euclid (S D) x (moved z t) + euclid (S D) x (moved z (- t))) + -1 * (2 * euclid (S D) x z))) by (intros; ring).
  rewrite (average_plus (fun x => euclid (S D) x (moved z t) + euclid (S D) x (moved z (- t)))), (average_scal (-1) (fun x => 2 * euclid (S D) x z)). ring. Qed.
Lemma shares_equal z : share (S D) z a = share (S D) z b.
Proof.
  set (ca := average (fun x => if Req_EM_T (euclid (S D) x z) 0 then 0 else / euclid (S D) x z) a).
  set (cb := average (fun x => if Req_EM_T (euclid (S D) x z) 0 then 0 else / euclid (S D) x z) b).
  assert (H : forall t, 0 <= t -> 2 * t * (share (S D) z a - share (S D) z b) <= t ^ 2 * cb /\ 2 * t * (share (S D) z b - share (S D) z a) <= t ^ 2 * ca).
  { intros t Ht. pose proof (second_average z t a Ht) as Ha. pose proof (second_average z t b Ht) as Hb. fold ca in Ha. fold cb in Hb.
    rewrite second_split in Ha, Hb. pose proof (F_const (moved z t) z) as F1. pose proof (F_const (moved z (- t)) z) as F2. unfold F in F1, F2. lra. }
  set (u := share (S D) z a) in *. set (v := share (S D) z b) in *. clearbody u v ca cb.
  assert (K : forall d c, (forall t, 0 <= t -> 2 * t * d <= t ^ 2 * c) -> d <= 0).
  { intros d c G. destruct (Rle_dec d 0) as [|N]; auto. exfalso. set (m := Rabs c + 1). assert (0 < m) by (unfold m; pose proof (Rabs_pos c); lra).
    pose proof (G (d / m) ltac:(apply Rmult_le_pos; [lra|left; apply Rinv_0_lt_compat; lra])) as G1.
    assert (0 < d / m) by (apply Rmult_lt_0_compat; [lra|apply Rinv_0_lt_compat; lra]).
    assert (d = d / m * m) by (field; lra). assert (c < m) by (unfold m; pose proof (Rle_abs c); lra).
    set (q := d / m) in *. clearbody q m. subst d. nra. }
  pose proof (K (u - v) cb (fun t Ht => proj1 (H t Ht))). pose proof (K (v - u) ca (fun t Ht => proj2 (H t Ht))). lra.
Qed.
End Separate.

(** ** equal shares give equal averages *)
Section Shares.
Context (D : nat) (g : (nat -> R) -> R) (Hg : forall x y, agree D x y -> g x = g y).
Let ind (z x : nat -> R) : R := if Req_EM_T (euclid D x z) 0 then 1 else 0.
Lemma ind_agree z x : agree D x z -> ind z x = 1.
Proof. intros H. apply euclid_agree in H. unfold ind. destruct (Req_EM_T _ 0); tauto. Qed.
Lemma ind_not z x : ~ agree D x z -> ind z x = 0.
Proof. intros H. unfold ind. destruct (Req_EM_T _ 0) as [E|]; auto. apply euclid_agree in E. tauto. Qed.
Lemma ind_cases z x : agree D x z /\ ind z x = 1 \/ ind z x = 0.
Proof. unfold ind. destruct (Req_EM_T (euclid D x z) 0) as [E|]; auto. apply euclid_agree in E. auto. Qed.
Lemma ind_count W z z' : agree D z z' -> add_up (ind z) W = add_up (ind z') W.
Proof.
  intros H. apply add_up_ext. intros x _. unfold ind. rewrite (euclid_ext D x x z z'); auto. intros i Hi. reflexivity.
Qed.
Lemma ind_pos W z : In z W -> 0 < add_up (ind z) W.
Proof.
  assert (P : forall l, 0 <= add_up (ind z) l).
  { induction l as [|x l IH]; cbn; [lra|]. destruct (ind_cases z x) as [[_ ->]| ->]; lra. }
  induction W as [|x W IH]; [intros []|]. intros [->|H]; cbn.
  - rewrite ind_agree by (intros i Hi; reflexivity). pose proof (P W). lra.
  - specialize (IH H). destruct (ind_cases z x) as [[_ ->]| ->]; lra.
Qed.
Lemma ind_sym z x : ind z x = ind x z.
Proof. unfold ind. rewrite euclid_sym. reflexivity. Qed.
Lemma add_up_shares W l : incl l W -> add_up g l = add_up (fun z => g z / add_up (ind z) W * add_up (ind z) l) W.
Proof.
  intros I. transitivity (add_up (fun x => add_up (fun z => g z / add_up (ind z) W * ind z x) W) l).
  - apply add_up_ext. intros x Hx.
    rewrite (add_up_ext _ (fun z => g x / add_up (ind x) W * ind x z)).
    + rewrite add_up_scal. field. pose proof (ind_pos W x (I x Hx)). lra.
    + intros z _. destruct (ind_cases z x) as [[H _]|H].
      * rewrite (Hg x z H), (ind_count W x z H), (ind_sym z x). reflexivity.
      * rewrite (ind_sym x z), H. ring.
  - rewrite add_up_swap. apply add_up_ext. intros z _. rewrite add_up_scal. reflexivity.
Qed.
Lemma average_shares a b : a <> [] -> b <> [] -> (forall z, share D z a = share D z b) -> average g a = average g b.
Proof.
  intros A B H. pose proof (INR_len a A). pose proof (INR_len b B). unfold average.
  rewrite (add_up_shares (a ++ b) a), (add_up_shares (a ++ b) b) by (intros x Hx; apply in_or_app; auto).
  assert (E : forall l, 0 < INR (length l) -> add_up (fun z => g z / add_up (ind z) (a ++ b) * add_up (ind z) l) (a ++ b) / INR (length l)
     = add_up (fun z => g z / add_up (ind z) (a ++ b) * share D z l) (a ++ b)).
  { intros l Hl. unfold Rdiv at 1. rewrite Rmult_comm, <- add_up_scal. apply add_up_ext. intros z Hz. unfold share, average. fold (ind z).
    pose proof (ind_pos _ z Hz). field. lra. }
  rewrite !E by auto. apply add_up_ext. intros z _. rewrite H. reflexivity.
Qed.
End Shares.
Lemma discrepancy_shares D a b : a <> [] -> b <> [] -> (forall z, share D z a = share D z b) -> discrepancy (euclid D) a b = 0.
Proof.
  intros A B H.
  assert (G : forall l, forall y y', agree D y y' -> average (fun u => euclid D y u) l = average (fun u => euclid D y' u) l).
  { intros l y y' Y. apply average_ext. intros u _. apply euclid_ext; auto. intros i Hi. reflexivity. }
  unfold discrepancy, pair_average.
  assert (E : average (fun x => average (fun y => euclid D x y) b) a = average (fun x => average (fun y => euclid D x y) b) b).
  { apply average_shares with D; auto. }
  assert (E' : average (fun x => average (fun y => euclid D x y) b) a = average (fun x => average (fun y => euclid D x y) a) a).
  { apply average_ext. intros x _. symmetry. apply average_shares with D; auto. intros y y' Y. apply euclid_ext; auto. intros i Hi. reflexivity. }
  rewrite E', <- E, E'. lra.
Qed.
Lemma discrepancy_zero D a b : a <> [] -> b <> [] -> (discrepancy (euclid D) a b = 0 <-> forall z, share D z a = share D z b).
Proof.
  intros A B. split; [|apply discrepancy_shares; auto]. destruct D as [|D]; [|intros; apply shares_equal; auto].
  intros _ z. unfold share.
  assert (K : forall l : list (nat -> R), l <> [] -> average (fun x => if Req_EM_T (euclid 0 x z) 0 then 1 else 0) l = 1).
  { intros l L. rewrite (average_ext _ (fun _ => 1)).
    - unfold average. rewrite add_up_const. field. pose proof (INR_len l L). lra.
    - intros x _. unfold euclid. cbn. rewrite sqrt_0. destruct (Req_EM_T 0 0); lra. }
  rewrite !K; auto.
Qed.

(** ** the model and the averages *)
Lemma row_agree D s x : s_dim s = D -> agree D (row s x) x.
Proof. intros <- i Hi. unfold row. destruct (Nat.eqb_spec (s_dim s) 1) as [E|]; auto. rewrite E in Hi. assert (i = 0)%nat by lia. now subst. Qed.
Definition local (D : nat) (f : point -> point -> R) : Prop := forall x x' y y', agree D x x' -> agree D y y' -> f x y = f x' y'.
Lemma total_eq D f a b : local D f -> s_dim a = D -> s_dim b = D ->
  total f a b = add_up (fun x => add_up (f x) (s_rows b)) (s_rows a).
Proof.
  intros L A B. unfold total, table. rewrite map_map, add_up_lsum. f_equal. apply map_ext. intros x. rewrite add_up_lsum. f_equal. apply map_ext.
  intros y. apply L; apply row_agree; auto.
Qed.
Lemma mean_eq D f a b : local D f -> s_dim a = D -> s_dim b = D -> s_rows a <> [] -> s_rows b <> [] ->
  mean f a b = pair_average f (s_rows a) (s_rows b).
Proof. intros L A B Ha Hb. unfold mean. rewrite (total_eq D), pair_average_eq; auto. Qed.
Lemma local_distance D : local D (distance D).
Proof. intros x x' y y' A B. exact (euclid_ext D x x' y y' A B). Qed.
Lemma energy_eq D a b : s_dim a = D -> s_dim b = D -> s_rows a <> [] -> s_rows b <> [] ->
  energy_distance a b = Ok (discrepancy (euclid D) (s_rows a) (s_rows b)).
Proof.
  intros A B Ha Hb. unfold energy_distance, as_2d. destruct (s_rows a) eqn:Ea; [congruence|]. destruct (s_rows b) eqn:Eb; [congruence|].
  unfold columns. rewrite A, B, Nat.eqb_refl. rewrite !(mean_eq D) by (auto using local_distance; congruence). rewrite Ea, Eb.
  change (distance D) with (euclid D). unfold discrepancy. f_equal. apply Rmax_left. 
  apply (discrepancy_nonneg (euclid D) (nt_euclid D) (euclid_sym D)); discriminate.
Qed.

(** ** averages over pairs of different rows *)
Lemma map_nth_seq {X Y} (h : X -> Y) l d : map (fun i => h (nth i l d)) (seq 0 (length l)) = map h l.
Proof.
  apply nth_ext with (h d) (h d); [now rewrite !map_length, seq_length|]. intros i Hi. rewrite map_length, seq_length in Hi.
  rewrite (map_nth h l d i). rewrite (nth_indep _ _ (h (nth 0 l d))) by (rewrite map_length, seq_length; auto).
  rewrite (map_nth (fun i => h (nth i l d)) (seq 0 (length l)) 0%nat). rewrite seq_nth; auto.
Qed.
Lemma nth_table f a i j o : (i < length (s_rows a))%nat -> (j < length (s_rows a))%nat ->
  nth j (nth i (table f a a) []) 0 = f (row a (nth i (s_rows a) o)) (row a (nth j (s_rows a) o)).
Proof.
  intros Hi Hj. unfold table. rewrite (nth_indep _ [] (map (fun y => f (row a o) (row a y)) (s_rows a))) by (rewrite map_length; auto).
  rewrite (map_nth (fun x => map (fun y => f (row a x) (row a y)) (s_rows a))).
  rewrite (nth_indep _ 0 (f (row a (nth i (s_rows a) o)) (row a o))) by (rewrite map_length; auto).
  rewrite (map_nth (fun y => f (row a (nth i (s_rows a) o)) (row a y))). reflexivity.
Qed.
Lemma add_up_seq_pick i n c : (i < n)%nat -> add_up (fun j => if (i =? j)%nat then c else 0) (seq 0 n) = c.
Proof.
  intros H. assert (K : forall s m, (s <= i < s + m)%nat -> add_up (fun j => if (i =? j)%nat then c else 0) (seq s m) = c).
  { intros s m. revert s. induction m as [|m IH]; intros s Hs; [lia|]. cbn. destruct (Nat.eqb_spec i s) as [E|E].
    - subst. rewrite (add_up_ext _ (fun _ => 0)). + rewrite add_up_const. lra.
      + intros j Hj. apply in_seq in Hj. destruct (Nat.eqb_spec s j); [lia|reflexivity].
    - rewrite IH by lia. lra. }
  apply K. lia.
Qed.
Lemma off_diagonal_eq D f a : local D f -> s_dim a = D ->
  off_diagonal f a = add_up (fun x => add_up (f x) (s_rows a)) (s_rows a) - add_up (fun x => f x x) (s_rows a).
Proof.
  intros L A. unfold off_diagonal. set (n := length (s_rows a)). set (o := (fun _ => 0) : point).
  rewrite <- add_up_lsum.
  rewrite (add_up_ext _ (fun i => add_up (f (nth i (s_rows a) o)) (s_rows a) + -1 * f (nth i (s_rows a) o) (nth i (s_rows a) o))).
  - rewrite add_up_plus, add_up_scal. unfold n.
    rewrite !add_up_lsum, (map_nth_seq (fun x => add_up (f x) (s_rows a))), (map_nth_seq (fun x => f x x)). lra.
  - intros i Hi. apply in_seq in Hi. rewrite <- add_up_lsum.
    rewrite (add_up_ext _ (fun j => f (nth i (s_rows a) o) (nth j (s_rows a) o) + -1 * (if (i =? j)%nat then f (nth i (s_rows a) o) (nth i (s_rows a) o) else 0))).
    + rewrite add_up_plus, add_up_scal, (add_up_seq_pick i n) by lia. f_equal. rewrite !add_up_lsum. f_equal. apply (map_nth_seq (f (nth i (s_rows a) o))).
    + intros j Hj. apply in_seq in Hj. rewrite (nth_table f a i j o) by (unfold n in *; lia).
      assert (F : forall u v, f (row a u) (row a v) = f u v) by (intros; apply L; apply row_agree; auto). rewrite F.
      destruct (Nat.eqb_spec i j) as [<-|]; ring.
Qed.

(** ** the kernel mean discrepancy *)
Lemma sqdist_ext D x x' y y' : agree D x x' -> agree D y y' -> sqdist D x y = sqdist D x' y'.
Proof. intros A B. apply rsum_ext. intros i Hi. rewrite (A i Hi), (B i Hi). reflexivity. Qed.
Lemma local_rbf g D : local D (rbf g D).
Proof. intros x x' y y' A B. unfold rbf. rewrite (sqdist_ext D x x' y y'); auto. Qed.
Lemma rbf_sym g D x y : rbf g D x y = rbf g D y x.
Proof. unfold rbf, sqdist. f_equal. f_equal. apply rsum_ext. intros; ring. Qed.
Lemma rbf_refl g D x : rbf g D x x = 1.
Proof. unfold rbf, sqdist. rewrite (rsum_ext _ (fun _ => 0)) by (intros; ring). rewrite rsum_const, !Rmult_0_r. apply exp_0. Qed.
Lemma rbf_range g D x y : 0 <= g -> 0 < rbf g D x y <= 1.
Proof.
  intros G. split; [apply exp_pos|]. unfold rbf. rewrite <- exp_0 at 1. assert (0 <= sqdist D x y) by (apply rsum_nonneg; intros; apply pow2_ge_0).
  destruct (Req_dec (- g * sqdist D x y) 0) as [->|]; [lra|]. left. apply exp_increasing. nra.
Qed.
Lemma rbf_mult g D : 0 <= g -> mult (rbf g D).
Proof.
  intros G. apply (mult_ext (fun x y => exp (- (g * sqdist D x y)))); [intros; unfold rbf; f_equal; ring|].
  exact (nt_sqdist (fun i (x : nat -> R) => x i) D g G).
Qed.
Definition mmd_value (k : point -> point -> R) (a b : list point) : R :=
  distinct_pairs_average k a + distinct_pairs_average k b - 2 * pair_average k a b.
Lemma mmd_eq D gamma a b : s_dim a = D -> s_dim b = D -> (2 <= length (s_rows a))%nat -> (2 <= length (s_rows b))%nat ->
  mmd_rbf gamma a b = Ok (Fin (mmd_value (rbf (match gamma with Some g => g | None => auto_gamma D a b end) D) (s_rows a) (s_rows b))).
Proof.
  intros A B Ha Hb.
  assert (Na : s_rows a <> []) by (intros E; rewrite E in Ha; cbn in Ha; lia). assert (Nb : s_rows b <> []) by (intros E; rewrite E in Hb; cbn in Hb; lia).
  unfold mmd_rbf, as_2d. destruct (s_rows a) eqn:Ea; [congruence|]. destruct (s_rows b) eqn:Eb; [congruence|]. rewrite <- Ea, <- Eb in *.
  destruct (Nat.ltb_spec (length (s_rows a)) 2); [lia|]. destruct (Nat.ltb_spec (length (s_rows b)) 2); [lia|]. cbn [orb].
  unfold columns. rewrite A, B, Nat.eqb_refl. set (g := match gamma with Some g => g | None => auto_gamma D a b end).
  rewrite !(off_diagonal_eq D) by (auto using local_rbf). rewrite (total_eq D) by (auto using local_rbf).
  do 2 f_equal. unfold mmd_value, distinct_pairs_average. rewrite pair_average_eq by auto. reflexivity.
Qed.
Lemma distinct_pairs_sym {X} (k : X -> X -> R) (a : list X) : (2 <= length a)%nat -> (forall x, k x x = 1) -> (forall x y, 0 <= k x y <= 1) ->
  pair_average k a a - / INR (length a) <= distinct_pairs_average k a <= pair_average k a a /\ 0 <= distinct_pairs_average k a <= 1.
Proof.
  intros H K1 KR. assert (N : a <> []) by (intros E; rewrite E in H; cbn in H; lia). rewrite pair_average_eq by auto.
  unfold distinct_pairs_average. rewrite (add_up_ext (fun x => k x x) (fun _ => 1)) by auto. rewrite add_up_const.
  set (T := add_up (fun x => add_up (k x) a) a). set (n := INR (length a)). assert (2 <= n) by (unfold n; apply (le_INR 2); exact H).
  assert (T <= n * n).
  { unfold T, n. rewrite <- add_up_const. apply add_up_le. intros x _. rewrite <- (Rmult_1_r (INR (length a))), <- add_up_const. apply add_up_le. intros y _. apply KR. }
  assert (n <= T).
  { unfold T, n. rewrite <- (Rmult_1_r (INR (length a))), <- add_up_const. apply add_up_le. intros x Hx.
    clear - Hx K1 KR. assert (P : forall l, 0 <= add_up (k x) l) by (induction l as [|y l IH]; cbn; [lra|]; pose proof (KR x y); lra).
    induction a as [|y a IH]; [destruct Hx|]. destruct Hx as [->|Hx]; cbn.
    - rewrite K1. pose proof (P a). lra.
    - specialize (IH Hx). pose proof (KR x y). lra. }
  clearbody T n. assert (P : 0 < n * (n - 1)) by nra. assert (Q : 0 < n * n) by nra.
  assert (E : (T - n * 1) / (n * (n - 1)) - (T / (n * n) - / n) = (T - n) / (n * n * (n - 1))) by (field; nra).
  assert (E' : T / (n * n) - (T - n * 1) / (n * (n - 1)) = (n * n - T) / (n * n * (n - 1))) by (field; nra).
  assert (E2 : 1 - (T - n * 1) / (n * (n - 1)) = (n * n - T) / (n * (n - 1))) by (field; nra).
  assert (S : forall u v, 0 <= u -> 0 < v -> 0 <= u / v) by (intros; apply Rmult_le_pos; [auto|left; apply Rinv_0_lt_compat; auto]).
  pose proof (S (T - n) (n * n * (n - 1)) ltac:(lra) ltac:(nra)). pose proof (S (n * n - T) (n * n * (n - 1)) ltac:(lra) ltac:(nra)).
  pose proof (S (n * n - T) (n * (n - 1)) ltac:(lra) P). pose proof (S (T - n * 1) (n * (n - 1)) ltac:(lra) P). lra.
Qed.
Lemma mean_discrepancy_nonneg {X} (k : X -> X -> R) a b : mult k -> (forall x y, k x y = k y x) -> a <> [] -> b <> [] -> 0 <= mean_discrepancy k a b.
Proof.
  intros M S A B. pose proof (INR_len a A) as LA. pose proof (INR_len b B) as LB.
  pose proof (mult_nn k M (wl (/ INR (length a)) a ++ wl (- / INR (length b)) b)) as Q.
  rewrite bil_quad, !bil_app_l, !bil_app_r, !bil_wl in Q. unfold mean_discrepancy.
  assert (E : forall x y, x <> [] -> y <> [] -> add_up (fun u => add_up (k u) y) x = pair_average k x y * (INR (length x) * INR (length y))).
  { intros x y Hx Hy. rewrite pair_average_eq by auto. apply INR_len in Hx. apply INR_len in Hy. field. lra. }
  rewrite !E in Q by auto. rewrite (pair_average_sym k b a) in Q by auto.
  set (aa := pair_average k a a) in *. set (bb := pair_average k b b) in *. set (ab := pair_average k a b) in *. clearbody aa bb ab.
  match type of Q with 0 <= ?L => replace L with (aa + bb - 2 * ab) in Q by (field; lra) end. exact Q.
Qed.
Lemma pair_average_nonneg {X} (k : X -> X -> R) a b : (forall x y, 0 <= k x y) -> 0 <= pair_average k a b.
Proof.
  intros K. assert (Z : forall (f : X -> R) l, (forall x, 0 <= f x) -> 0 <= average f l).
  { intros f l H. unfold average. destruct l as [|x l]; [cbn; lra|]. apply Rmult_le_pos.
    - induction (x :: l) as [|y r IH]; cbn; [lra|]. pose proof (H y). lra.
    - left. apply Rinv_0_lt_compat, INR_len. discriminate. }
  apply Z. intros. apply Z. auto.
Qed.
Lemma auto_gamma_pos D a b : 0 < auto_gamma D a b.
Proof.
  unfold auto_gamma. apply Rmult_lt_0_compat; [lra|]. apply Rinv_0_lt_compat. apply Rlt_le_trans with (/ 10 ^ 12); [|apply Rmax_r].
  apply Rinv_0_lt_compat. apply pow_lt. lra.
Qed.

(** ** expectation of the estimator over independent draws *)
Section Unbiased.
Context {X : Type}.
Implicit Types P Q : list X.
Lemma draws_nonempty P n : P <> [] -> draws_of P n <> [].
Proof.
  intros N. induction n; cbn; [discriminate|]. destruct P as [|x P]; [congruence|]. cbn. destruct (draws_of (x :: P) n) eqn:E; [congruence|]. discriminate.
Qed.
Lemma draws_length P n l : In l (draws_of P n) -> length l = n.
Proof.
  revert l. induction n; cbn; [intros l [<-|[]]; reflexivity|]. intros l H. apply in_flat_map in H. destruct H as (x & _ & H).
  apply in_map_iff in H. destruct H as (r & <- & H). cbn. f_equal. auto.
Qed.
Lemma draws_average P n (F : list X -> R) : P <> [] ->
  average F (draws_of P (S n)) = average (fun x => average (fun l => F (x :: l)) (draws_of P n)) P.
Proof.
  intros N. pose proof (INR_len P N) as LP. pose proof (INR_len _ (draws_nonempty P n N)) as LD. unfold average at 1. cbn [draws_of].
  assert (E : forall l, add_up F (flat_map (fun x => map (cons x) (draws_of P n)) l) = add_up (fun x => add_up (fun r => F (x :: r)) (draws_of P n)) l).
  { induction l as [|x l IH]; cbn; [reflexivity|]. rewrite add_up_app, IH, add_up_map. reflexivity. }
  assert (E' : forall l, length (flat_map (fun x => map (cons x) (draws_of P n)) l) = (length l * length (draws_of P n))%nat).
  { induction l as [|x l IH]; cbn; [reflexivity|]. rewrite app_length, map_length, IH. reflexivity. }
  rewrite E, E', mult_INR. unfold average.
  rewrite (add_up_ext (fun x => add_up (fun l => F (x :: l)) (draws_of P n) / INR (length (draws_of P n))) (fun x => / INR (length (draws_of P n)) * add_up (fun l => F (x :: l)) (draws_of P n))) by (intros; unfold Rdiv; apply Rmult_comm).
  rewrite add_up_scal. field. lra.
Qed.
Lemma average_const {Y} c (l : list Y) : l <> [] -> average (fun _ => c) l = c.
Proof. intros N. unfold average. rewrite add_up_const. field. pose proof (INR_len l N). lra. Qed.
Lemma average_swap {Y Z} (f : Y -> Z -> R) a b : average (fun x => average (fun y => f x y) b) a = average (fun y => average (fun x => f x y) a) b.
Proof.
  unfold average, Rdiv.
  rewrite (add_up_ext (fun x => add_up (fun y => f x y) b * / INR (length b)) (fun x => / INR (length b) * add_up (f x) b)) by (intros; apply Rmult_comm).
  rewrite (add_up_ext (fun y => add_up (fun x => f x y) a * / INR (length a)) (fun y => / INR (length a) * add_up (fun x => f x y) a)) by (intros; apply Rmult_comm).
  rewrite !add_up_scal, add_up_swap. ring.
Qed.
Lemma expect_sum P n (g : X -> R) : P <> [] -> average (fun l => add_up g l) (draws_of P n) = INR n * average g P.
Proof.
  intros N. induction n as [|n IH]; [cbn; unfold average; cbn; lra|]. rewrite draws_average by auto. cbn [add_up].
  rewrite (average_ext _ (fun x => g x + average (fun l => add_up g l) (draws_of P n))).
  - rewrite average_plus, IH, average_const, S_INR by auto. ring.
  - intros x _. rewrite average_plus, average_const by (apply draws_nonempty; auto). reflexivity.
Qed.
Definition pairs_sum (k : X -> X -> R) (l : list X) : R := add_up (fun x => add_up (k x) l) l - add_up (fun x => k x x) l.
Lemma pairs_cons k x l : pairs_sum k (x :: l) = add_up (fun y => k x y + k y x) l + pairs_sum k l.
Proof. unfold pairs_sum. cbn. rewrite !add_up_plus. lra. Qed.
Lemma expect_pairs P n k : P <> [] -> average (pairs_sum k) (draws_of P n) = INR n * (INR n - 1) * pair_average k P P.
Proof.
  intros N. induction n as [|n IH]; [unfold average, pairs_sum; cbn; lra|]. rewrite draws_average by auto.
  rewrite (average_ext _ (fun x => INR n * average (fun y => k x y + k y x) P + average (pairs_sum k) (draws_of P n))).
  - rewrite average_plus, average_const, IH, average_scal, S_INR by auto.
    rewrite (average_ext (fun x => average (fun y => k x y + k y x) P) (fun x => average (fun y => k x y) P + average (fun y => k y x) P)) by (intros; apply average_plus).
    rewrite average_plus. rewrite (average_swap (fun x y => k y x) P P). change (average (fun x => average (fun y => k x y) P) P) with (pair_average k P P). ring.
  - intros x _. rewrite <- (expect_sum P n (fun y => k x y + k y x)), <- average_plus by auto. apply average_ext. intros l _. apply pairs_cons.
Qed.
Lemma expect_distinct P n k : P <> [] -> (2 <= n)%nat -> average (distinct_pairs_average k) (draws_of P n) = pair_average k P P.
Proof.
  intros N H. assert (2 <= INR n) by (apply (le_INR 2); exact H).
  rewrite (average_ext _ (fun l => / (INR n * (INR n - 1)) * pairs_sum k l)).
  - rewrite average_scal, expect_pairs by auto. field. lra.
  - intros l Hl. apply draws_length in Hl. unfold distinct_pairs_average, pairs_sum. rewrite Hl. unfold Rdiv. ring.
Qed.
Lemma expect_cross P Q n m k : P <> [] -> Q <> [] -> (1 <= n)%nat -> (1 <= m)%nat ->
  average (fun a => average (fun b => pair_average k a b) (draws_of Q m)) (draws_of P n) = pair_average k P Q.
Proof.
  intros HP HQ Hn Hm. assert (1 <= INR n) by (apply (le_INR 1); exact Hn). assert (1 <= INR m) by (apply (le_INR 1); exact Hm).
  assert (G : forall T s (g : X -> R), T <> [] -> (1 <= s)%nat -> average (average g) (draws_of T s) = average g T).
  { intros T s g HT Hs. assert (1 <= INR s) by (apply (le_INR 1); exact Hs). rewrite (average_ext _ (fun l => / INR s * add_up g l)).
    - rewrite average_scal, expect_sum by auto. field. lra.
    - intros l Hl. apply draws_length in Hl. unfold average. rewrite Hl. unfold Rdiv. ring. }
  rewrite (average_ext _ (fun a => average (fun x => average (k x) Q) a)).
  - exact (G P n (fun x => average (k x) Q) HP Hn).
  - intros a _. unfold pair_average. rewrite average_swap. apply average_ext. intros x _. apply (G Q m (k x)); auto.
Qed.
End Unbiased.
