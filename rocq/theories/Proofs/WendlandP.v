(** The Wendland profile is positive definite on three-dimensional space. On the line, the derivative of r phi(r) is a
    mixture of autocorrelations of z (1 - z^2)^3; averaging over the directions of space gives phi. *)
From Coq Require Import Reals Lra Lia List Psatz.
From Coquelicot Require Import Coquelicot.
From Verif Require Import Spec.Sums Spec.KernelSpec Proofs.SphereP.
Import ListNotations.
Local Open Scope R_scope.

Ltac eqR := match goal with |- @eq _ ?a ?b => change (@eq R a b) end.
(** ** Integrals of kernels *)
Definition psd {X} (k : X -> X -> R) : Prop := forall l : list (R * X), 0 <= quad_form k l.
Lemma is_RInt_sum {X} (f : X -> R -> R) (F : X -> R) a b (l : list X) :
  (forall p, In p l -> is_RInt (f p) a b (F p)) -> is_RInt (fun t => sum_list (map (fun p => f p t) l)) a b (sum_list (map F l)).
Proof.
  induction l as [|p l IH]; intros H; cbn.
  - evar_last; [apply (is_RInt_const a b 0)|change ((b - a) * 0 = 0); ring].
  - apply (is_RInt_plus (f p) (fun t => sum_list (map (fun p => f p t) l))); [apply H; now left|]. apply IH. intros q Hq. apply H. now right.
Qed.
Lemma sum_scal {X} c (f : X -> R) l : sum_list (map (fun p => c * f p) l) = c * sum_list (map f l).
Proof. induction l; cbn; [ring|]. fold (sum_list (map (fun p => c * f p) l)). rewrite IHl. unfold sum_list. ring. Qed.
Lemma quad_form_int {X} (k : X -> X -> R) (kt : R -> X -> X -> R) (w : R -> R) a b l : a <= b ->
  (forall p q, In p l -> In q l -> is_RInt (fun t => w t * kt t (snd p) (snd q)) a b (k (snd p) (snd q))) ->
  (forall t, a < t < b -> 0 <= w t) -> (forall t, a < t < b -> 0 <= quad_form (kt t) l) -> 0 <= quad_form k l.
Proof.
  intros Hab H Hw Hk.
  assert (I : is_RInt (fun t => w t * quad_form (kt t) l) a b (quad_form k l)).
  { unfold quad_form.
    apply (is_RInt_ext (fun t => sum_list (map (fun p => sum_list (map (fun q => fst p * fst q * (w t * kt t (snd p) (snd q))) l)) l))).
    - intros t _. rewrite <- (sum_scal (w t)). f_equal. apply map_ext. intros p. rewrite <- (sum_scal (w t)). f_equal. apply map_ext. intros q. ring.
    - apply (is_RInt_sum (fun p t => sum_list (map (fun q => fst p * fst q * (w t * kt t (snd p) (snd q))) l))). intros p Hp.
      apply (is_RInt_sum (fun q t => fst p * fst q * (w t * kt t (snd p) (snd q)))). intros q Hq.
      apply (is_RInt_scal (fun t => w t * kt t (snd p) (snd q))). apply H; auto. }
  rewrite <- (is_RInt_unique _ _ _ _ I). apply RInt_ge_0; [exact Hab|exists (quad_form k l); exact I|].
  intros t Ht. apply Rmult_le_pos; auto.
Qed.
Lemma psd_ext {X} (k k' : X -> X -> R) : (forall x y, k x y = k' x y) -> psd k -> psd k'.
Proof.
  intros E H l. specialize (H l). unfold quad_form in *. rewrite (map_ext _ (fun p => sum_list (map (fun q => fst p * fst q * k (snd p) (snd q)) l))); auto.
  intros p. f_equal. apply map_ext. intros q. rewrite E. reflexivity.
Qed.
Lemma psd_map {X Y} (f : X -> Y) (k : Y -> Y -> R) : psd k -> psd (fun x y => k (f x) (f y)).
Proof.
  intros H l. specialize (H (map (fun p => (fst p, f (snd p))) l)). unfold quad_form in *. rewrite map_map in H.
  rewrite (map_ext _ (fun x => sum_list (map (fun q => fst (fst x, f (snd x)) * fst q * k (snd (fst x, f (snd x))) (snd q)) (map (fun p => (fst p, f (snd p))) l)))); auto.
  intros p. rewrite map_map. reflexivity.
Qed.
Lemma psd_rank1 {X} (f : X -> R) : psd (fun x y => f x * f y).
Proof.
  intros l. unfold quad_form.
  replace (sum_list _) with (sum_list (map (fun p => fst p * f (snd p)) l) * sum_list (map (fun p => fst p * f (snd p)) l)); [nra|].
  rewrite <- sum_scal. f_equal. apply map_ext. intros p. rewrite Rmult_comm, <- sum_scal. f_equal. apply map_ext. intros q. ring.
Qed.
Lemma psd_scal {X} c (k : X -> X -> R) : 0 <= c -> psd k -> psd (fun x y => c * k x y).
Proof.
  intros Hc H l. specialize (H l). replace (quad_form _ l) with (c * quad_form k l); [nra|]. unfold quad_form.
  rewrite <- sum_scal. f_equal. apply map_ext. intros p. rewrite <- sum_scal. f_equal. apply map_ext. intros q. ring.
Qed.
Lemma sum_plus {X} (f g : X -> R) l : sum_list (map (fun p => f p + g p) l) = sum_list (map f l) + sum_list (map g l).
Proof. induction l; cbn; [ring|]. fold (sum_list (map (fun p => f p + g p) l)). rewrite IHl. unfold sum_list. ring. Qed.
Lemma psd_plus {X} (k k' : X -> X -> R) : psd k -> psd k' -> psd (fun x y => k x y + k' x y).
Proof.
  intros H H' l. specialize (H l). specialize (H' l). replace (quad_form _ l) with (quad_form k l + quad_form k' l); [lra|]. unfold quad_form.
  rewrite <- sum_plus. f_equal. apply map_ext. intros p. rewrite <- sum_plus. f_equal. apply map_ext. intros q. ring.
Qed.

(** ** Piecewise polynomials *)
Definition even_ext (P : R -> R) (t : R) : R := if Rle_dec (Rabs t) 1 then P (Rabs t) else 0.
Definition odd_ext (P : R -> R) (t : R) : R := if Rle_dec (Rabs t) 1 then (if Rle_dec 0 t then P t else - P (- t)) else 0.
Lemma piece (f f1 f2 : R -> R) t d e : 0 < e -> (forall y, Rabs (y - t) < e -> (y <= t -> f y = f1 y) /\ (t <= y -> f y = f2 y)) ->
  is_derive f1 t d -> is_derive f2 t d -> is_derive f t d.
Proof.
  intros He H D1 D2. apply is_derive_Reals in D1. apply is_derive_Reals in D2. apply is_derive_Reals. intros eps Heps.
  destruct (D1 eps Heps) as [d1 H1]. destruct (D2 eps Heps) as [d2 H2].
  assert (P : 0 < Rmin e (Rmin d1 d2)) by (apply Rmin_pos; [exact He|apply Rmin_pos; apply cond_pos]).
  exists (mkposreal _ P). intros h Hh0 Hh. cbn in Hh.
  pose proof (Rmin_l e (Rmin d1 d2)). pose proof (Rmin_r e (Rmin d1 d2)). pose proof (Rmin_l d1 d2). pose proof (Rmin_r d1 d2).
  destruct (H t) as [Ha Hb]; [rewrite Rminus_eq_0, Rabs_R0; exact He|].
  destruct (H (t + h)) as [Hc Hd]; [replace (t + h - t) with h by ring; lra|].
  destruct (Rle_dec h 0).
  - rewrite Hc, Ha by lra. apply H1; auto. lra.
  - rewrite Hd, Hb by lra. apply H2; auto. lra.
Qed.
Ltac piece_case e f1 f2 := apply (piece _ f1 f2 _ _ e).
Ltac ext_cases := let y := fresh "y" in let Hy := fresh "Hy" in
  intros y Hy; apply Rabs_def2 in Hy; split; intros; unfold even_ext, odd_ext, Rabs; destruct (Rcase_abs y);
  repeat match goal with |- context [Rle_dec ?a ?b] => destruct (Rle_dec a b) end; try lra; try reflexivity.
Section Ext.
  Variables (P P1 : R -> R).
  Hypothesis DP : forall t, is_derive P t (P1 t).
  Hypothesis P_1 : P 1 = 0.
  Hypothesis P1_1 : P1 1 = 0.
  Lemma refl_derive t : is_derive (fun t => P (- t)) t (- P1 (- t)).
  Proof. evar_last; [apply (is_derive_comp P (fun t => - t) t (P1 (- t)) (-1)); [apply DP|auto_derive; [auto|ring]]|]. unfold scal; cbn. unfold mult; cbn. ring. Qed.
  Lemma anti_derive t : is_derive (fun t => - P (- t)) t (P1 (- t)).
  Proof. evar_last; [apply (is_derive_opp (fun t => P (- t))), refl_derive|]. unfold opp; cbn. ring. Qed.
  Lemma zero_derive t : is_derive (fun _ => 0) t 0.
  Proof. apply (is_derive_const 0). Qed.
  Lemma even_derive : P1 0 = 0 -> forall t, is_derive (even_ext P) t (odd_ext P1 t).
  Proof.
    intros P1_0 t.
    destruct (Rlt_le_dec t (-1)) as [H|[H|H]]; [| |].
    - replace (odd_ext P1 t) with 0 by (unfold odd_ext; rewrite Rabs_left by lra; destruct (Rle_dec (- t) 1); lra).
      piece_case (-1 - t) (fun _ : R => 0) (fun _ : R => 0); try apply zero_derive; [lra|]. ext_cases.
    - destruct (Rtotal_order t 0) as [N|[->|N]].
      + replace (odd_ext P1 t) with (- P1 (- t)) by (unfold odd_ext; rewrite Rabs_left by lra; destruct (Rle_dec (- t) 1); destruct (Rle_dec 0 t); lra).
        piece_case (Rmin (t + 1) (- t)) (fun t => P (- t)) (fun t => P (- t)); try apply refl_derive; [apply Rmin_pos; lra|].
        pose proof (Rmin_l (t + 1) (- t)). pose proof (Rmin_r (t + 1) (- t)). ext_cases.
      + replace (odd_ext P1 0) with 0 by (unfold odd_ext; rewrite Rabs_R0; destruct (Rle_dec 0 1); destruct (Rle_dec 0 0); lra).
        piece_case 1 (fun t => P (- t)) P; [lra| | |].
        * ext_cases. replace (- y) with y by lra. reflexivity.
        * replace 0 with (- P1 (- 0)) at 2 by (rewrite Ropp_0, P1_0; ring). apply refl_derive.
        * rewrite <- P1_0 at 2. apply DP.
      + destruct (Rtotal_order t 1) as [U|[->|U]].
        * replace (odd_ext P1 t) with (P1 t) by (unfold odd_ext; rewrite Rabs_pos_eq by lra; destruct (Rle_dec t 1); destruct (Rle_dec 0 t); lra).
          piece_case (Rmin (1 - t) t) P P; try apply DP; [apply Rmin_pos; lra|].
          pose proof (Rmin_l (1 - t) t). pose proof (Rmin_r (1 - t) t). ext_cases.
        * replace (odd_ext P1 1) with 0 by (unfold odd_ext; rewrite Rabs_R1; destruct (Rle_dec 1 1); destruct (Rle_dec 0 1); lra).
          piece_case 1 P (fun _ : R => 0); [lra| | |apply zero_derive].
          -- ext_cases. replace y with 1 by lra. exact P_1.
          -- rewrite <- P1_1. apply DP.
        * replace (odd_ext P1 t) with 0 by (unfold odd_ext; rewrite Rabs_pos_eq by lra; destruct (Rle_dec t 1); lra).
          piece_case (t - 1) (fun _ : R => 0) (fun _ : R => 0); try apply zero_derive; [lra|]. ext_cases.
    - subst t. replace (odd_ext P1 (-1)) with 0 by (unfold odd_ext; rewrite Rabs_left by lra; destruct (Rle_dec (- -1) 1); destruct (Rle_dec 0 (-1)); try lra; replace (- -1) with 1 by ring; lra).
      piece_case 1 (fun _ : R => 0) (fun t => P (- t)); [lra| |apply zero_derive|].
      * ext_cases. replace (- y) with 1 by lra. exact P_1.
      * evar_last; [apply refl_derive|]. replace (- -1) with 1 by ring. rewrite P1_1. ring.
  Qed.
  Lemma odd_derive : P 0 = 0 -> forall t, is_derive (odd_ext P) t (even_ext P1 t).
  Proof.
    intros P_0 t.
    destruct (Rlt_le_dec t (-1)) as [H|[H|H]]; [| |].
    - replace (even_ext P1 t) with 0 by (unfold even_ext; rewrite Rabs_left by lra; destruct (Rle_dec (- t) 1); lra).
      piece_case (-1 - t) (fun _ : R => 0) (fun _ : R => 0); try apply zero_derive; [lra|]. ext_cases.
    - destruct (Rtotal_order t 0) as [N|[->|N]].
      + replace (even_ext P1 t) with (P1 (- t)) by (unfold even_ext; rewrite Rabs_left by lra; destruct (Rle_dec (- t) 1); lra).
        piece_case (Rmin (t + 1) (- t)) (fun t => - P (- t)) (fun t => - P (- t)); try apply anti_derive; [apply Rmin_pos; lra|].
        pose proof (Rmin_l (t + 1) (- t)). pose proof (Rmin_r (t + 1) (- t)). ext_cases.
      + replace (even_ext P1 0) with (P1 0) by (unfold even_ext; rewrite Rabs_R0; destruct (Rle_dec 0 1); lra).
        piece_case 1 (fun t => - P (- t)) P; [lra| | |apply DP].
        * ext_cases. replace y with 0 by lra. rewrite Ropp_0, P_0. ring.
        * replace (P1 0) with (P1 (- 0)) by (rewrite Ropp_0; auto). apply anti_derive.
      + destruct (Rtotal_order t 1) as [U|[->|U]].
        * replace (even_ext P1 t) with (P1 t) by (unfold even_ext; rewrite Rabs_pos_eq by lra; destruct (Rle_dec t 1); lra).
          piece_case (Rmin (1 - t) t) P P; try apply DP; [apply Rmin_pos; lra|].
          pose proof (Rmin_l (1 - t) t). pose proof (Rmin_r (1 - t) t). ext_cases.
        * replace (even_ext P1 1) with 0 by (unfold even_ext; rewrite Rabs_R1; destruct (Rle_dec 1 1); lra).
          piece_case 1 P (fun _ : R => 0); [lra| | |apply zero_derive].
          -- ext_cases. replace y with 1 by lra. exact P_1.
          -- rewrite <- P1_1. apply DP.
        * replace (even_ext P1 t) with 0 by (unfold even_ext; rewrite Rabs_pos_eq by lra; destruct (Rle_dec t 1); lra).
          piece_case (t - 1) (fun _ : R => 0) (fun _ : R => 0); try apply zero_derive; [lra|]. ext_cases.
    - subst t. replace (even_ext P1 (-1)) with 0 by (unfold even_ext; rewrite Rabs_left by lra; destruct (Rle_dec (- -1) 1); try lra; replace (- -1) with 1 by ring; lra).
      piece_case 1 (fun _ : R => 0) (fun t => - P (- t)); [lra| |apply zero_derive|].
      * ext_cases. replace (- y) with 1 by lra. rewrite P_1. ring.
      * evar_last; [apply anti_derive|]. replace (- -1) with 1 by ring. exact P1_1.
  Qed.
End Ext.

(** ** The profile and its companions *)
Definition phi (r : R) : R := (1 - r) ^ 8 * (32 * r ^ 3 + 25 * r ^ 2 + 8 * r + 1).
Definition rphi (r : R) : R := r * phi r.
Definition psi (r : R) : R := (1 - r) ^ 7 * (1 + 7 * r - 5 * r ^ 2 - 147 * r ^ 3 - 384 * r ^ 4).
Definition psi1 (r : R) : R := (1 - r) ^ 6 * (- 66 * r - 396 * r ^ 2 - 66 * r ^ 3 + 4224 * r ^ 4).
Definition psi2 (r : R) : R := (1 - r) ^ 5 * (- 66 - 330 * r + 2970 * r ^ 2 + 17490 * r ^ 3 - 42240 * r ^ 4).
Lemma rphi_derive t : is_derive rphi t (psi t).
Proof. unfold rphi, phi, psi. auto_derive; [auto|]. ring. Qed.
Lemma psi_derive t : is_derive psi t (psi1 t).
Proof. unfold psi, psi1. auto_derive; [auto|]. ring. Qed.
Lemma psi1_derive t : is_derive psi1 t (psi2 t).
Proof. unfold psi1, psi2. auto_derive; [auto|]. ring. Qed.
Lemma psi2_bounded : exists M, forall t, Rabs (even_ext psi2 t) <= M.
Proof.
  assert (C : forall c, 0 <= c <= 1 -> continuity_pt psi2 c).
  { intros c _. apply continuity_pt_filterlim, (ex_derive_continuous psi2). unfold psi2. auto_derive. auto. }
  destruct (continuity_ab_maj psi2 0 1 ltac:(lra) C) as [a [Ha _]]. destruct (continuity_ab_min psi2 0 1 ltac:(lra) C) as [b [Hb _]].
  exists (Rabs (psi2 a) + Rabs (psi2 b)). intros t. unfold even_ext. pose proof (Rabs_pos (psi2 a)). pose proof (Rabs_pos (psi2 b)).
  destruct (Rle_dec (Rabs t) 1); [|rewrite Rabs_R0; lra]. pose proof (Rabs_pos t).
  specialize (Ha (Rabs t) ltac:(lra)). specialize (Hb (Rabs t) ltac:(lra)).
  pose proof (Rle_abs (psi2 a)). pose proof (Rle_abs (- psi2 b)). rewrite Rabs_Ropp in *. apply Rabs_le. lra.
Qed.
Lemma psi_lip1 : exists C, lip1 C (even_ext psi) (odd_ext psi1).
Proof.
  destruct psi2_bounded as [M HM]. exists M. split.
  - intros t. apply (even_derive psi psi1 psi_derive); unfold psi, psi1; ring.
  - intros s t. destruct (mvt (odd_ext psi1) (even_ext psi2)) with (s := s) (t := t) as [c [E _]].
    { intros x. apply (odd_derive psi1 psi2 psi1_derive); unfold psi1, psi2; ring. }
    rewrite E, Rabs_mult. apply Rmult_le_compat_r; [apply Rabs_pos|apply HM].
Qed.
(** the mean of psi over the coordinates is phi *)
Lemma even_ext_sym P t : even_ext P (- t) = even_ext P t.
Proof. unfold even_ext. rewrite Rabs_Ropp. reflexivity. Qed.
Lemma psi_mean r : 0 <= r -> RInt (fun s => even_ext psi (r * s)) (-1) 1 = 2 * even_ext phi r.
Proof.
  intros Hr. destruct (Req_dec r 0) as [->|Hn].
  - rewrite (RInt_ext _ (fun _ => 1)).
    + rewrite RInt_const. change ((1 - -1) * 1 = 2 * even_ext phi 0). unfold even_ext. rewrite Rabs_R0. destruct (Rle_dec 0 1); [|lra]. unfold phi. ring.
    + intros s _. eqR. rewrite Rmult_0_l. unfold even_ext. rewrite Rabs_R0. destruct (Rle_dec 0 1); [|lra]. unfold psi. ring.
  - assert (D : forall t, is_derive (odd_ext rphi) t (even_ext psi t)).
    { intros t. apply (odd_derive rphi psi rphi_derive); unfold rphi, phi, psi; ring. }
    apply (is_RInt_unique (fun s => even_ext psi (r * s))). evar_last.
    + apply (is_RInt_derive (fun s => / r * odd_ext rphi (r * s))).
      * intros s _. evar_last.
        -- apply (is_derive_scal (fun s => odd_ext rphi (r * s)) s (/ r) (r * even_ext psi (r * s))).
           evar_last; [apply (is_derive_comp (odd_ext rphi) (fun s => r * s) s (even_ext psi (r * s)) r); [apply D|auto_derive; [auto|ring]]|]. reflexivity.
        -- change (/ r * (r * even_ext psi (r * s)) = even_ext psi (r * s)). field. exact Hn.
      * intros s _. destruct psi_lip1 as [C LC]. apply (continuous_comp (fun s => r * s) (even_ext psi)); [apply (ex_derive_continuous (fun s => r * s)); auto_derive; auto|].
        apply (ex_derive_continuous (even_ext psi)). exists (odd_ext psi1 (r * s)). apply (proj1 LC).
    + change (/ r * odd_ext rphi (r * 1) - / r * odd_ext rphi (r * -1) = 2 * even_ext phi r).
      rewrite Rmult_1_r. replace (r * -1) with (- r) by ring. unfold odd_ext, even_ext. rewrite Rabs_Ropp, (Rabs_pos_eq r) by lra.
      destruct (Rle_dec r 1); [|ring]. destruct (Rle_dec 0 r); [|lra]. destruct (Rle_dec 0 (- r)); [lra|]. rewrite Ropp_involutive. unfold rphi. field. exact Hn.
Qed.

(** ** Autocorrelations *)
Definition p0 (z : R) : R := z * (1 - z ^ 2) ^ 3.
Definition pp (z : R) : R := if Rle_dec (Rabs z) 1 then p0 z else 0.
Definition beta (r : R) : R :=
  16 / 39 - 144 / 13 * r ^ 2 + 80 * r ^ 4 - 1232 / 3 * r ^ 6 + 528 * r ^ 7 - 880 / 3 * r ^ 9 + 144 * r ^ 11 - 560 / 13 * r ^ 13 + 224 / 39 * r ^ 15.
Definition QQ (s h : R) : R :=
  ((-1) * h ^ 2 + (6) * h ^ 4 + (-15) * h ^ 6 + (20) * h ^ 8 + (-15) * h ^ 10 + (6) * h ^ 12 + (-1) * h ^ 14) * s ^ 1 / 1 + ((1) * h ^ 0 + (-3) * h ^ 4 + (-8) * h ^ 6 + (27) * h ^ 8 + (-24) * h ^ 10 + (7) * h ^ 12) * s ^ 3 / 3 + ((-6) * h ^ 0 + (3) * h ^ 2 + (-6) * h ^ 6 + (30) * h ^ 8 + (-21) * h ^ 10) * s ^ 5 / 5 + ((15) * h ^ 0 + (8) * h ^ 2 + (6) * h ^ 4 + (35) * h ^ 8) * s ^ 7 / 7 + ((-20) * h ^ 0 + (-27) * h ^ 2 + (-30) * h ^ 4 + (-35) * h ^ 6) * s ^ 9 / 9 + ((15) * h ^ 0 + (24) * h ^ 2 + (21) * h ^ 4) * s ^ 11 / 11 + ((-6) * h ^ 0 + (-7) * h ^ 2) * s ^ 13 / 13 + ((1) * h ^ 0) * s ^ 15 / 15.
Lemma QQ_derive h s : is_derive (fun s => QQ s h) s (p0 (s + h) * p0 (s - h)).
Proof. unfold QQ, p0. auto_derive; [auto|]. field. Qed.
Lemma QQ_beta h : 1155 / 128 * (QQ (1 - h) h - QQ (- (1 - h)) h) = beta h.
Proof. unfold QQ, beta. field. Qed.
Lemma pp_out z : 1 <= Rabs z -> pp z = 0.
Proof.
  intros H. unfold pp. destruct (Rle_dec (Rabs z) 1); [|reflexivity]. assert (E : z ^ 2 = 1) by (rewrite <- (pow2_abs z); replace (Rabs z) with 1 by lra; ring).
  unfold p0. rewrite E. ring.
Qed.
Lemma pp_in z : Rabs z <= 1 -> pp z = p0 z.
Proof. intros H. unfold pp. destruct (Rle_dec (Rabs z) 1); [reflexivity|lra]. Qed.
Lemma is_RInt_zero (f : R -> R) a b : (forall x, Rmin a b < x < Rmax a b -> f x = 0) -> is_RInt f a b 0.
Proof.
  intros H. apply (is_RInt_ext (fun _ => 0)); [intros x Hx; symmetry; apply H, Hx|].
  evar_last; [apply (is_RInt_const a b 0)|change ((b - a) * 0 = 0); ring].
Qed.
Lemma auto_int_le M u v : u <= v -> Rabs u <= M - 1 -> Rabs v <= M - 1 -> is_RInt (fun z => 1155 / 128 * (pp (z - u) * pp (z - v))) (- M) M (even_ext beta ((u - v) / 2)).
Proof.
  intros Huv Hu Hv. apply Rabs_le_between in Hu. apply Rabs_le_between in Hv.
  assert (EA : Rabs ((u - v) / 2) = (v - u) / 2) by (rewrite Rabs_left1; lra).
  destruct (Rle_lt_dec 2 (v - u)) as [Far|Near].
  - replace (even_ext beta ((u - v) / 2)) with 0.
    + apply is_RInt_zero. intros z _. destruct (Rle_lt_dec z (u + 1)).
      * rewrite (pp_out (z - v)); [ring|]. rewrite Rabs_left1; lra.
      * rewrite (pp_out (z - u)); [ring|]. rewrite Rabs_pos_eq; lra.
    + unfold even_ext. rewrite EA. destruct (Rle_dec ((v - u) / 2) 1); [|reflexivity]. replace ((v - u) / 2) with 1 by lra. unfold beta. field.
  - replace (even_ext beta ((u - v) / 2)) with (0 + (beta ((v - u) / 2) + 0)).
    2:{ unfold even_ext. rewrite EA. destruct (Rle_dec ((v - u) / 2) 1); [ring|lra]. }
    apply (is_RInt_Chasles (fun z => 1155 / 128 * (pp (z - u) * pp (z - v))) (- M) (v - 1) M 0 (beta ((v - u) / 2) + 0)).
    { apply is_RInt_zero. rewrite Rmin_left, Rmax_right by lra. intros z Hz. rewrite (pp_out (z - v)); [ring|]. rewrite Rabs_left1; lra. }
    apply (is_RInt_Chasles (fun z => 1155 / 128 * (pp (z - u) * pp (z - v))) (v - 1) (u + 1) M (beta ((v - u) / 2)) 0).
    2:{ apply is_RInt_zero. rewrite Rmin_left, Rmax_right by lra. intros z Hz. rewrite (pp_out (z - u)); [ring|]. rewrite Rabs_pos_eq; lra. }
    set (h := (v - u) / 2). set (m := (u + v) / 2).
    apply (is_RInt_ext (fun z => 1155 / 128 * (p0 (z - m + h) * p0 (z - m - h)))).
    { rewrite Rmin_left, Rmax_right by lra. intros z Hz. rewrite !pp_in by (apply Rabs_le; lra). unfold h, m. do 3 f_equal; field. }
    evar_last.
    + apply (is_RInt_derive (fun z => 1155 / 128 * QQ (z - m) h)).
      * intros z _. apply (is_derive_scal (fun z => QQ (z - m) h) z (1155 / 128)).
        evar_last; [apply (is_derive_comp (fun s => QQ s h) (fun z => z - m) z (p0 (z - m + h) * p0 (z - m - h)) 1); [apply QQ_derive|auto_derive; [auto|ring]]|].
        change (1 * (p0 (z - m + h) * p0 (z - m - h)) = p0 (z - m + h) * p0 (z - m - h)). ring.
      * intros z _. apply (ex_derive_continuous (fun z => 1155 / 128 * (p0 (z - m + h) * p0 (z - m - h)))). unfold p0. auto_derive. auto.
    + change (1155 / 128 * QQ (u + 1 - m) h - 1155 / 128 * QQ (v - 1 - m) h = beta h). rewrite <- QQ_beta.
      replace (u + 1 - m) with (1 - h) by (unfold m, h; field). replace (v - 1 - m) with (- (1 - h)) by (unfold m, h; field). ring.
Qed.
Lemma auto_int M u v : Rabs u <= M - 1 -> Rabs v <= M - 1 -> is_RInt (fun z => 1155 / 128 * (pp (z - u) * pp (z - v))) (- M) M (even_ext beta ((u - v) / 2)).
Proof.
  intros Hu Hv. destruct (Rle_dec u v); [apply auto_int_le; auto|].
  apply (is_RInt_ext (fun z => 1155 / 128 * (pp (z - v) * pp (z - u)))); [intros; eqR; ring|].
  replace (even_ext beta ((u - v) / 2)) with (even_ext beta ((v - u) / 2)); [apply auto_int_le; auto; lra|].
  rewrite <- even_ext_sym. f_equal. field.
Qed.
Lemma list_bound (l : list (R * R)) : exists M, 0 <= M /\ forall p, In p l -> Rabs (2 * snd p) <= M.
Proof.
  induction l as [|p l [M [M0 H]]]; [exists 0; split; [lra|intros ? []]|].
  exists (M + Rabs (2 * snd p)). pose proof (Rabs_pos (2 * snd p)). split; [lra|]. intros q [<-|Hq]; [lra|]. specialize (H q Hq). lra.
Qed.
Lemma beta_psd : psd (fun x y : R => even_ext beta (x - y)).
Proof.
  intros l. destruct (list_bound l) as [M [M0 HM]].
  apply (quad_form_int _ (fun z x y => pp (z - 2 * x) * pp (z - 2 * y)) (fun _ => 1155 / 128) (- (M + 1)) (M + 1)).
  - lra.
  - intros p q Hp Hq. replace (snd p - snd q) with ((2 * snd p - 2 * snd q) / 2) by field. apply auto_int.
    + specialize (HM p Hp). lra.
    + specialize (HM q Hq). lra.
  - intros. lra.
  - intros t _. apply (psd_rank1 (fun x => pp (t - 2 * x))).
Qed.

(** ** The mixture over scales *)
Definition ww (tau : R) : R := 35 / 2 * tau ^ 7 - 15 / 2 * tau ^ 9.
Lemma ww_pos tau : 0 < tau < 1 -> 0 <= ww tau.
Proof. intros H. unfold ww. replace (35 / 2 * tau ^ 7 - 15 / 2 * tau ^ 9) with (tau ^ 7 * (35 / 2 - 15 / 2 * tau ^ 2)) by ring. apply Rmult_le_pos; [apply pow_le; lra|nra]. Qed.
Definition WW (r tau : R) : R :=
  16 / 39 * (35 / 2 * tau ^ 8 / 8 - 15 / 2 * tau ^ 10 / 10) - 144 / 13 * r ^ 2 * (35 / 2 * tau ^ 6 / 6 - 15 / 2 * tau ^ 8 / 8)
  + 80 * r ^ 4 * (35 / 2 * tau ^ 4 / 4 - 15 / 2 * tau ^ 6 / 6) - 1232 / 3 * r ^ 6 * (35 / 2 * tau ^ 2 / 2 - 15 / 2 * tau ^ 4 / 4)
  + 528 * r ^ 7 * (35 / 2 * tau - 15 / 2 * tau ^ 3 / 3) - 880 / 3 * r ^ 9 * (- 35 / 2 / tau - 15 / 2 * tau)
  + 144 * r ^ 11 * (- 35 / 2 / (3 * tau ^ 3) + 15 / 2 / tau) - 560 / 13 * r ^ 13 * (- 35 / 2 / (5 * tau ^ 5) + 15 / 2 / (3 * tau ^ 3))
  + 224 / 39 * r ^ 15 * (- 35 / 2 / (7 * tau ^ 7) + 15 / 2 / (5 * tau ^ 5)).
Lemma WW_derive r tau : tau <> 0 -> is_derive (WW r) tau (ww tau * beta (r / tau)).
Proof. intros H. unfold WW, ww, beta. auto_derive; [repeat split; auto; try (apply Rmult_integral_contrapositive_currified; [lra|]; simpl; repeat apply Rmult_integral_contrapositive_currified; auto; lra)|]. field. exact H. Qed.
Lemma WW_psi r : r <> 0 -> psi r = beta r + (WW r 1 - WW r r).
Proof. intros H. unfold WW, psi, beta. field. exact H. Qed.
Lemma mixture t : is_RInt (fun tau => ww tau * even_ext beta (t / tau)) 0 1 (even_ext psi t - even_ext beta t).
Proof.
  destruct (Req_dec t 0) as [->|H0].
  - apply (is_RInt_ext (fun tau => 16 / 39 * ww tau)).
    { intros tau _. eqR. replace (0 / tau) with 0 by (unfold Rdiv; ring). unfold even_ext. rewrite Rabs_R0. destruct (Rle_dec 0 1); [|lra]. unfold beta. field. }
    evar_last.
    + apply (is_RInt_derive (fun tau => 16 / 39 * (35 / 2 * tau ^ 8 / 8 - 15 / 2 * tau ^ 10 / 10))).
      * intros tau _. unfold ww. auto_derive; [auto|]. field.
      * intros tau _. apply (ex_derive_continuous (fun tau => 16 / 39 * ww tau)). unfold ww. auto_derive. auto.
    + change (16 / 39 * (35 / 2 * 1 ^ 8 / 8 - 15 / 2 * 1 ^ 10 / 10) - 16 / 39 * (35 / 2 * 0 ^ 8 / 8 - 15 / 2 * 0 ^ 10 / 10) = even_ext psi 0 - even_ext beta 0).
      unfold even_ext. rewrite Rabs_R0. destruct (Rle_dec 0 1); [|lra]. unfold psi, beta. field.
  - pose proof (Rabs_pos_lt t H0) as A0. destruct (Rle_lt_dec 1 (Rabs t)) as [Far|Near].
    + replace (even_ext psi t - even_ext beta t) with 0.
      * apply is_RInt_zero. rewrite Rmin_left, Rmax_right by lra. intros tau Ht. unfold even_ext. destruct (Rle_dec (Rabs (t / tau)) 1) as [E|]; [|ring].
        unfold Rdiv in E. rewrite Rabs_mult, Rabs_inv, (Rabs_pos_eq tau) in E by lra.
        assert (Rabs t * / tau * tau <= 1 * tau) by (apply Rmult_le_compat_r; lra). rewrite Rmult_assoc, Rinv_l in H by lra. lra.
      * unfold even_ext. destruct (Rle_dec (Rabs t) 1); [|ring]. replace (Rabs t) with 1 by lra. unfold psi, beta. field.
    + replace (even_ext psi t - even_ext beta t) with (0 + (WW (Rabs t) 1 - WW (Rabs t) (Rabs t))).
      2:{ unfold even_ext. destruct (Rle_dec (Rabs t) 1); [|lra]. rewrite (WW_psi (Rabs t)) by lra. ring. }
      assert (Ab : forall tau, 0 < tau -> Rabs (t / tau) = Rabs t / tau).
      { intros tau Ht. unfold Rdiv. rewrite Rabs_mult, Rabs_inv, (Rabs_pos_eq tau) by lra. reflexivity. }
      apply (is_RInt_Chasles (fun tau => ww tau * even_ext beta (t / tau)) 0 (Rabs t) 1 0 (WW (Rabs t) 1 - WW (Rabs t) (Rabs t))).
      * apply is_RInt_zero. rewrite Rmin_left, Rmax_right by lra. intros tau Ht. unfold even_ext. rewrite Ab by lra.
        destruct (Rle_dec (Rabs t / tau) 1) as [E|]; [|ring]. assert (Rabs t / tau * tau <= 1 * tau) by (apply Rmult_le_compat_r; lra).
        unfold Rdiv in H. rewrite Rmult_assoc, Rinv_l in H by lra. lra.
      * apply (is_RInt_ext (fun tau => ww tau * beta (Rabs t / tau))).
        { rewrite Rmin_left, Rmax_right by lra. intros tau Ht. unfold even_ext. rewrite Ab by lra. destruct (Rle_dec (Rabs t / tau) 1) as [E|E]; [reflexivity|].
          exfalso. apply E. apply (Rmult_le_reg_r tau); [lra|]. unfold Rdiv. rewrite Rmult_assoc, Rinv_l by lra. lra. }
        evar_last.
        -- apply (is_RInt_derive (WW (Rabs t))); rewrite Rmin_left, Rmax_right by lra.
           ++ intros tau Ht. apply WW_derive. lra.
           ++ intros tau Ht. apply (ex_derive_continuous (fun tau => ww tau * beta (Rabs t / tau))). unfold ww, beta. auto_derive. repeat split; lra.
        -- reflexivity.
Qed.
Lemma psi_psd : psd (fun x y : R => even_ext psi (x - y)).
Proof.
  apply (psd_ext (fun x y => even_ext beta (x - y) + (even_ext psi (x - y) - even_ext beta (x - y)))); [intros; ring|].
  apply psd_plus; [apply beta_psd|]. intros l.
  apply (quad_form_int _ (fun tau x y => even_ext beta (x / tau - y / tau)) ww 0 1); [lra| |apply ww_pos|].
  - intros p q _ _. apply (is_RInt_ext (fun tau => ww tau * even_ext beta ((snd p - snd q) / tau))).
    + intros tau _. do 2 f_equal. unfold Rdiv. ring.
    + apply mixture.
  - intros tau _. apply (psd_map (fun x => x / tau) (fun x y => even_ext beta (x - y))), beta_psd.
Qed.

(** ** Three-dimensional space *)
Lemma psi_continuous t : continuous (even_ext psi) t.
Proof. destruct psi_lip1 as [C LC]. apply (ex_derive_continuous (even_ext psi)). exists (odd_ext psi1 t). apply (proj1 LC). Qed.
Theorem phi_psd3 {X} (f1 f2 f3 : X -> R) :
  psd (fun x y => even_ext phi (sqrt ((f1 x - f1 y) ^ 2 + (f2 x - f2 y) ^ 2 + (f3 x - f3 y) ^ 2))).
Proof.
  pose proof PI_RGT_0 as PI0. destruct psi_lip1 as [C LC]. intros l.
  apply (quad_form_int _ (fun t x y => RInt (fun a => even_ext psi (direction (f1 x - f1 y) (f2 x - f2 y) (f3 x - f3 y) t a)) 0 (2 * PI)) (fun t => / (4 * PI) * sin t) 0 PI); [lra| | |].
  - intros p q _ _. set (r := sqrt _).
    replace (even_ext phi r) with (/ (4 * PI) * (2 * PI * RInt (fun s => even_ext psi (r * s)) (-1) 1)).
    2:{ rewrite psi_mean by apply sqrt_pos. field. lra. }
    apply (is_RInt_ext (fun t => / (4 * PI) * (sin t * RInt (fun a => even_ext psi (direction (f1 (snd p) - f1 (snd q)) (f2 (snd p) - f2 (snd q)) (f3 (snd p) - f3 (snd q)) t a)) 0 (2 * PI)))).
    { intros t _. eqR. ring. }
    apply (is_RInt_scal (fun t => sin t * RInt (fun a => even_ext psi (direction (f1 (snd p) - f1 (snd q)) (f2 (snd p) - f2 (snd q)) (f3 (snd p) - f3 (snd q)) t a)) 0 (2 * PI))).
    unfold r. apply (sphere_mean C (even_ext psi) (odd_ext psi1) _ _ _ LC).
  - intros t Ht. apply Rmult_le_pos; [left; apply Rinv_0_lt_compat; lra|]. apply sin_ge_0; lra.
  - intros t _. apply (quad_form_int _ (fun a x y => even_ext psi (direction (f1 x) (f2 x) (f3 x) t a - direction (f1 y) (f2 y) (f3 y) t a)) (fun _ => 1) 0 (2 * PI)); [lra| |intros; lra|].
    + intros p q _ _.
      apply (is_RInt_ext (fun a => even_ext psi (direction (f1 (snd p) - f1 (snd q)) (f2 (snd p) - f2 (snd q)) (f3 (snd p) - f3 (snd q)) t a))).
      { intros a _. eqR. rewrite Rmult_1_l. f_equal. unfold direction. ring. }
      apply (RInt_correct (fun a => even_ext psi (direction (f1 (snd p) - f1 (snd q)) (f2 (snd p) - f2 (snd q)) (f3 (snd p) - f3 (snd q)) t a))).
      apply cont_int. intros a. apply (continuous_comp (direction (f1 (snd p) - f1 (snd q)) (f2 (snd p) - f2 (snd q)) (f3 (snd p) - f3 (snd q)) t) (even_ext psi)); [|apply psi_continuous].
      apply (ex_derive_continuous (direction _ _ _ t)). unfold direction. auto_derive. auto.
    + intros a _. apply (psd_map (fun x => direction (f1 x) (f2 x) (f3 x) t a) (fun x y => even_ext psi (x - y))), psi_psd.
Qed.
Print Assumptions phi_psd3.
