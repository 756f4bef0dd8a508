(** The mean of a function of one coordinate over the unit sphere of three-dimensional space depends on the length
    of the vector alone: int int g(<x, (sin t cos a, sin t sin a, cos t)>) sin t da dt = 2 pi int_{-1}^{1} g(|x| s) ds. *)
From Coq Require Import Reals Lra Psatz.
From Coquelicot Require Import Coquelicot.
Local Open Scope R_scope.

(** ** Functions with a Lipschitz derivative *)
Lemma mvt (g g1 : R -> R) : (forall t, is_derive g t (g1 t)) -> forall s t, exists c, g s - g t = g1 c * (s - t) /\ Rabs (c - t) <= Rabs (s - t) /\ Rmin s t <= c <= Rmax s t.
Proof.
  intros H s t. destruct (MVT_gen g t s g1) as [c [Hc E]].
  - intros; apply H.
  - intros x _. apply continuity_pt_filterlim, (ex_derive_continuous g x). exists (g1 x). apply H.
  - exists c. rewrite (Rmin_comm s t), (Rmax_comm s t). split; [exact E|]. split; [|exact Hc].
    revert Hc. unfold Rmin, Rmax, Rabs. destruct (Rle_dec t s); destruct (Rcase_abs (c - t)); destruct (Rcase_abs (s - t)); lra.
Qed.
Definition lip1 (C : R) (g g1 : R -> R) : Prop := (forall t, is_derive g t (g1 t)) /\ forall s t, Rabs (g1 s - g1 t) <= C * Rabs (s - t).
Lemma lip1_pos C g g1 : lip1 C g g1 -> 0 <= C.
Proof. intros [_ H]. specialize (H 1 0). pose proof (Rabs_pos (g1 1 - g1 0)). rewrite Rminus_0_r, Rabs_R1 in H. lra. Qed.
Lemma quad_est C g g1 : lip1 C g g1 -> forall t h, Rabs (g (t + h) - g t - h * g1 t) <= C * h ^ 2.
Proof.
  intros [D L] t h. destruct (mvt g g1 D (t + h) t) as [c [E [B _]]]. rewrite E. replace (t + h - t) with h in * by ring.
  replace (g1 c * h - h * g1 t) with (h * (g1 c - g1 t)) by ring. rewrite Rabs_mult.
  replace (C * h ^ 2) with (Rabs h * (C * Rabs h)) by (rewrite <- (pow2_abs h); ring).
  apply Rmult_le_compat_l; [apply Rabs_pos|]. apply Rle_trans with (1 := L c t). apply Rmult_le_compat_l; [|exact B].
  apply (lip1_pos C g g1); split; auto.
Qed.
Lemma sin_lip1 : lip1 1 sin cos.
Proof.
  split; [intros; auto_derive; [auto|ring]|]. intros s t.
  destruct (mvt cos (fun x => - sin x) ltac:(intros; auto_derive; [auto|ring]) s t) as [c [E _]]. rewrite E, Rabs_mult, Rabs_Ropp.
  apply Rmult_le_compat_r; [apply Rabs_pos|]. pose proof (SIN_bound c). apply Rabs_le. lra.
Qed.
Lemma cos_lip1 : lip1 1 cos (fun x => - sin x).
Proof.
  split; [intros; auto_derive; [auto|ring]|]. intros s t.
  destruct (mvt (fun x => - sin x) (fun x => - cos x) ltac:(intros; auto_derive; [auto|ring]) s t) as [c [E _]]. rewrite E, Rabs_mult, Rabs_Ropp.
  apply Rmult_le_compat_r; [apply Rabs_pos|]. pose proof (COS_bound c). apply Rabs_le. lra.
Qed.

(** ** Integrals with a parameter *)
Lemma quad_derive (G : R -> R) x d K : (forall h, Rabs h <= 1 -> Rabs (G (x + h) - G x - h * d) <= K * h ^ 2) -> is_derive G x d.
Proof.
  intros H. apply is_derive_Reals. intros e He.
  assert (K0 : 0 < Rabs K + 1) by (pose proof (Rabs_pos K); lra).
  assert (P : 0 < Rmin 1 (e / (Rabs K + 1))) by (apply Rmin_pos; [lra|apply Rdiv_lt_0_compat; lra]).
  exists (mkposreal _ P). intros h Hh0 Hh. cbn in Hh.
  pose proof (Rmin_l 1 (e / (Rabs K + 1))). pose proof (Rmin_r 1 (e / (Rabs K + 1))).
  assert (A := H h ltac:(lra)). replace ((G (x + h) - G x) / h - d) with ((G (x + h) - G x - h * d) / h) by (field; auto).
  unfold Rdiv at 1. rewrite Rabs_mult, Rabs_inv. pose proof (Rabs_pos_lt h Hh0) as Ph.
  apply (Rmult_lt_reg_r (Rabs h)); [exact Ph|]. rewrite Rmult_assoc, Rinv_l, Rmult_1_r by lra.
  apply Rle_lt_trans with (1 := A). rewrite <- (pow2_abs h). replace (K * Rabs h ^ 2) with (K * Rabs h * Rabs h) by ring.
  apply Rmult_lt_compat_r; [exact Ph|]. apply Rle_lt_trans with (Rabs K * Rabs h).
  { apply Rmult_le_compat_r; [lra|apply Rle_abs]. }
  apply Rle_lt_trans with ((Rabs K + 1) * Rabs h); [nra|].
  replace e with ((Rabs K + 1) * (e / (Rabs K + 1))) by (field; lra). apply Rmult_lt_compat_l; lra.
Qed.
Lemma lip_continuous (G : R -> R) K x : (forall y, Rabs (G y - G x) <= K * Rabs (y - x)) -> continuous G x.
Proof.
  intros H. apply continuity_pt_filterlim. intros e He.
  assert (K0 : 0 < Rabs K + 1) by (pose proof (Rabs_pos K); lra).
  exists (e / (Rabs K + 1)). split; [apply Rdiv_lt_0_compat; lra|]. intros y [_ Hy]. cbn in *. unfold R_dist in *.
  apply Rle_lt_trans with (1 := H y). apply Rle_lt_trans with ((Rabs K + 1) * Rabs (y - x)).
  { pose proof (Rle_abs K). pose proof (Rabs_pos (y - x)). nra. }
  replace e with ((Rabs K + 1) * (e / (Rabs K + 1))) by (field; lra). apply Rmult_lt_compat_l; auto.
Qed.
Lemma cont_int (f : R -> R) a b : (forall x, continuous f x) -> ex_RInt f a b.
Proof. intros H. apply (ex_RInt_continuous f). auto. Qed.
Lemma int_bound (f : R -> R) a b K : a <= b -> (forall x, continuous f x) -> (forall x, Rabs (f x) <= K) -> Rabs (RInt f a b) <= (b - a) * K.
Proof. intros Hab C H. apply (abs_RInt_le_const f a b K Hab); [apply cont_int; auto|auto]. Qed.

Section Param.
  Variables (F F1 : R -> R -> R) (a b K L : R).
  Hypothesis ab : a <= b.
  Hypothesis CF : forall x t, continuous (F x) t.
  Hypothesis CF1 : forall x t, continuous (F1 x) t.
  Lemma param_lip : (forall x y t, Rabs (F y t - F x t) <= L * Rabs (y - x)) ->
    forall x y, Rabs (RInt (F y) a b - RInt (F x) a b) <= (b - a) * L * Rabs (y - x).
  Proof.
    intros H x y.
    replace (RInt (F y) a b - RInt (F x) a b) with (RInt (fun t => F y t - F x t) a b).
    - rewrite Rmult_assoc. apply int_bound; auto. intros t. apply (continuous_minus (F y) (F x)); auto.
    - apply (RInt_minus (F y) (F x)); apply cont_int; auto.
  Qed.
  Lemma param_cont : (forall x y t, Rabs (F y t - F x t) <= L * Rabs (y - x)) -> forall x, continuous (fun y => RInt (F y) a b) x.
  Proof. intros H x. apply (lip_continuous _ ((b - a) * L)). intros y. apply param_lip, H. Qed.
  Lemma param_quad : (forall x h t, Rabs (F (x + h) t - F x t - h * F1 x t) <= K * h ^ 2) ->
    forall x h, Rabs (RInt (F (x + h)) a b - RInt (F x) a b - h * RInt (F1 x) a b) <= (b - a) * K * h ^ 2.
  Proof.
    intros H x h.
    replace (RInt (F (x + h)) a b - RInt (F x) a b - h * RInt (F1 x) a b) with (RInt (fun t => F (x + h) t - F x t - h * F1 x t) a b).
    - rewrite Rmult_assoc. apply int_bound; auto. intros t. apply (continuous_minus (fun t => F (x + h) t - F x t) (fun t => h * F1 x t)).
      + apply (continuous_minus (F (x + h)) (F x)); auto.
      + apply (continuous_scal_r h (F1 x)). auto.
    - rewrite (RInt_minus (fun t => F (x + h) t - F x t) (fun t => h * F1 x t)).
      + rewrite (RInt_minus (F (x + h)) (F x)) by (apply cont_int; auto).
        rewrite (RInt_scal (F1 x)) by (apply cont_int; auto). reflexivity.
      + apply cont_int. intros t. apply (continuous_minus (F (x + h)) (F x)); auto.
      + apply cont_int. intros t. apply (continuous_scal_r h (F1 x)). auto.
  Qed.
  Lemma param_derive : (forall x h t, Rabs (F (x + h) t - F x t - h * F1 x t) <= K * h ^ 2) ->
    forall x, is_derive (fun y => RInt (F y) a b) x (RInt (F1 x) a b).
  Proof. intros H x. apply (quad_derive _ _ _ ((b - a) * K)). intros h _. apply param_quad, H. Qed.
End Param.

(** ** Rotating the direction leaves the mean unchanged *)
Definition TT (b t a : R) : R := sin b * sin t * cos a + cos b * cos t.
Definition Tb (b t a : R) : R := cos b * sin t * cos a - sin b * cos t.
Definition Tt (b t a : R) : R := sin b * cos t * cos a - cos b * sin t.
Ltac trig_bounds := repeat match goal with |- context [sin ?x] => lazymatch goal with _ : -1 <= sin x <= 1 |- _ => fail | _ => pose proof (SIN_bound x) end
                          | |- context [cos ?x] => lazymatch goal with _ : -1 <= cos x <= 1 |- _ => fail | _ => pose proof (COS_bound x) end end.
Lemma abs_prod_le a b x : Rabs a <= 1 -> Rabs b <= x -> Rabs (a * b) <= x.
Proof. intros A B. rewrite Rabs_mult. pose proof (Rabs_pos a). pose proof (Rabs_pos b). nra. Qed.
Lemma abs_sin x : Rabs (sin x) <= 1. Proof. apply Rabs_le. pose proof (SIN_bound x). lra. Qed.
Lemma abs_cos x : Rabs (cos x) <= 1. Proof. apply Rabs_le. pose proof (COS_bound x). lra. Qed.
Lemma abs_add_le a b x y : Rabs a <= x -> Rabs b <= y -> Rabs (a + b) <= x + y.
Proof. intros A B. pose proof (Rabs_triang a b). lra. Qed.
Lemma abs_sub_le a b x y : Rabs a <= x -> Rabs b <= y -> Rabs (a - b) <= x + y.
Proof. intros A B. unfold Rminus. apply abs_add_le; auto. rewrite Rabs_Ropp. auto. Qed.
Lemma sin_lip s t : Rabs (sin s - sin t) <= Rabs (s - t).
Proof. pose proof (proj2 cos_lip1 t s) as H. rewrite Rmult_1_l in H. replace (sin s - sin t) with (- sin t - - sin s) by ring. rewrite (Rabs_minus_sym s t). exact H. Qed.
Lemma cos_lip s t : Rabs (cos s - cos t) <= Rabs (s - t).
Proof. pose proof (proj2 sin_lip1 s t). lra. Qed.
Lemma TT_bound b t a : Rabs (TT b t a) <= 2.
Proof. unfold TT. replace 2 with (1 + 1) by ring. apply abs_add_le; [rewrite Rmult_assoc; repeat apply abs_prod_le|apply abs_prod_le]; auto using abs_sin, abs_cos. Qed.
Lemma Tb_bound b t a : Rabs (Tb b t a) <= 2.
Proof. unfold Tb. replace 2 with (1 + 1) by ring. apply abs_sub_le; [rewrite Rmult_assoc; repeat apply abs_prod_le|apply abs_prod_le]; auto using abs_sin, abs_cos. Qed.
Lemma Tt_bound b t a : Rabs (Tt b t a) <= 2.
Proof. unfold Tt. replace 2 with (1 + 1) by ring. apply abs_sub_le; [rewrite Rmult_assoc; repeat apply abs_prod_le|apply abs_prod_le]; auto using abs_sin, abs_cos. Qed.
Lemma TT_lip_b b b' t a : Rabs (TT b' t a - TT b t a) <= 2 * Rabs (b' - b).
Proof.
  unfold TT. replace (sin b' * sin t * cos a + cos b' * cos t - (sin b * sin t * cos a + cos b * cos t))
    with (sin t * (cos a * (sin b' - sin b)) + cos t * (cos b' - cos b)) by ring.
  replace (2 * Rabs (b' - b)) with (Rabs (b' - b) + Rabs (b' - b)) by ring.
  apply abs_add_le; repeat apply abs_prod_le; auto using abs_sin, abs_cos, sin_lip, cos_lip.
Qed.
Lemma TT_lip_t b t t' a : Rabs (TT b t' a - TT b t a) <= 2 * Rabs (t' - t).
Proof.
  unfold TT. replace (sin b * sin t' * cos a + cos b * cos t' - (sin b * sin t * cos a + cos b * cos t))
    with (sin b * (cos a * (sin t' - sin t)) + cos b * (cos t' - cos t)) by ring.
  replace (2 * Rabs (t' - t)) with (Rabs (t' - t) + Rabs (t' - t)) by ring.
  apply abs_add_le; repeat apply abs_prod_le; auto using abs_sin, abs_cos, sin_lip, cos_lip.
Qed.
Lemma Tb_lip_t b t t' a : Rabs (Tb b t' a - Tb b t a) <= 2 * Rabs (t' - t).
Proof.
  unfold Tb. replace (cos b * sin t' * cos a - sin b * cos t' - (cos b * sin t * cos a - sin b * cos t))
    with (cos b * (cos a * (sin t' - sin t)) - sin b * (cos t' - cos t)) by ring.
  replace (2 * Rabs (t' - t)) with (Rabs (t' - t) + Rabs (t' - t)) by ring.
  apply abs_sub_le; repeat apply abs_prod_le; auto using abs_sin, abs_cos, sin_lip, cos_lip.
Qed.
Lemma TT_quad_b b h t a : Rabs (TT (b + h) t a - TT b t a - h * Tb b t a) <= 2 * h ^ 2.
Proof.
  unfold TT, Tb. replace (sin (b + h) * sin t * cos a + cos (b + h) * cos t - (sin b * sin t * cos a + cos b * cos t) - h * (cos b * sin t * cos a - sin b * cos t))
    with (sin t * (cos a * (sin (b + h) - sin b - h * cos b)) + cos t * (cos (b + h) - cos b - h * - sin b)) by ring.
  replace (2 * h ^ 2) with (1 * h ^ 2 + 1 * h ^ 2) by ring.
  apply abs_add_le; repeat apply abs_prod_le; auto using abs_sin, abs_cos; [apply (quad_est 1 sin cos sin_lip1)|apply (quad_est 1 cos (fun x => - sin x) cos_lip1)].
Qed.
Lemma TT_quad_t b h t a : Rabs (TT b (t + h) a - TT b t a - h * Tt b t a) <= 2 * h ^ 2.
Proof.
  unfold TT, Tt. replace (sin b * sin (t + h) * cos a + cos b * cos (t + h) - (sin b * sin t * cos a + cos b * cos t) - h * (sin b * cos t * cos a - cos b * sin t))
    with (sin b * (cos a * (sin (t + h) - sin t - h * cos t)) + cos b * (cos (t + h) - cos t - h * - sin t)) by ring.
  replace (2 * h ^ 2) with (1 * h ^ 2 + 1 * h ^ 2) by ring.
  apply abs_add_le; repeat apply abs_prod_le; auto using abs_sin, abs_cos; [apply (quad_est 1 sin cos sin_lip1)|apply (quad_est 1 cos (fun x => - sin x) cos_lip1)].
Qed.

Section Sphere.
  Variables (g g1 : R -> R) (C : R).
  Hypothesis LG : lip1 C g g1.
  Let B := Rabs (g1 0) + 2 * C.
  Lemma C_pos : 0 <= C. Proof. apply (lip1_pos C g g1 LG). Qed.
  Lemma g1_bound t : Rabs t <= 2 -> Rabs (g1 t) <= B.
  Proof.
    intros H. replace (g1 t) with (g1 0 + (g1 t - g1 0)) by ring. unfold B. apply abs_add_le; [lra|].
    apply Rle_trans with (1 := proj2 LG t 0). rewrite Rminus_0_r. pose proof C_pos. nra.
  Qed.
  Lemma B_pos : 0 <= B.
  Proof. apply Rle_trans with (Rabs (g1 0)); [apply Rabs_pos|]. apply g1_bound. rewrite Rabs_R0. lra. Qed.
  Lemma g_lip s t : Rabs s <= 2 -> Rabs t <= 2 -> Rabs (g s - g t) <= B * Rabs (s - t).
  Proof.
    intros Hs Ht. destruct (mvt g g1 (proj1 LG) s t) as [c [E [_ H]]]. rewrite E, Rabs_mult. apply Rmult_le_compat_r; [apply Rabs_pos|].
    apply g1_bound. apply Rabs_le_between in Hs. apply Rabs_le_between in Ht. apply Rabs_le. revert H. unfold Rmin, Rmax. destruct (Rle_dec s t); lra.
  Qed.
  Lemma g_quad s s' h d : Rabs s <= 2 -> Rabs (s' - s) <= 2 * Rabs h -> Rabs (s' - s - h * d) <= 2 * h ^ 2 ->
    Rabs (g s' - g s - h * (d * g1 s)) <= (4 * C + 2 * B) * h ^ 2.
  Proof.
    intros Hs H1 H2. replace (g s' - g s - h * (d * g1 s)) with ((g (s + (s' - s)) - g s - (s' - s) * g1 s) + (s' - s - h * d) * g1 s).
    2:{ replace (s + (s' - s)) with s' by ring. ring. }
    replace ((4 * C + 2 * B) * h ^ 2) with (C * (4 * h ^ 2) + (2 * h ^ 2) * B) by ring. apply abs_add_le.
    - apply Rle_trans with (1 := quad_est C g g1 LG s (s' - s)). apply Rmult_le_compat_l; [apply C_pos|].
      rewrite <- (pow2_abs (s' - s)), <- (pow2_abs h). pose proof (Rabs_pos (s' - s)). pose proof (Rabs_pos h). nra.
    - rewrite Rabs_mult. apply Rmult_le_compat; auto using Rabs_pos, g1_bound.
  Qed.
  Lemma g_cont t : continuous g t.
  Proof. apply (ex_derive_continuous g). exists (g1 t). apply (proj1 LG). Qed.
  Lemma g1_cont t : continuous g1 t.
  Proof. apply (lip_continuous _ C). intros y. apply (proj2 LG). Qed.
  Lemma TT_cont b t a : continuous (TT b t) a.
  Proof. apply (ex_derive_continuous (TT b t)). unfold TT. auto_derive. auto. Qed.
  Lemma Tb_cont b t a : continuous (Tb b t) a.
  Proof. apply (ex_derive_continuous (Tb b t)). unfold Tb. auto_derive. auto. Qed.
  Lemma Tt_cont b t a : continuous (Tt b t) a.
  Proof. apply (ex_derive_continuous (Tt b t)). unfold Tt. auto_derive. auto. Qed.
  Lemma cos_cont a : continuous cos a. Proof. apply (ex_derive_continuous cos). auto_derive. auto. Qed.
  Lemma sin_cont a : continuous sin a. Proof. apply (ex_derive_continuous sin). auto_derive. auto. Qed.

  Definition Fj (b t a : R) : R := g (TT b t a).
  Definition Fn (b t a : R) : R := Tb b t a * g1 (TT b t a).
  Lemma Fj_cont b t a : continuous (Fj b t) a.
  Proof. apply (continuous_comp (TT b t) g); [apply TT_cont|apply g_cont]. Qed.
  Lemma Fn_cont b t a : continuous (Fn b t) a.
  Proof. apply (continuous_mult (Tb b t) (fun a => g1 (TT b t a))); [apply Tb_cont|]. apply (continuous_comp (TT b t) g1); [apply TT_cont|apply g1_cont]. Qed.
  Definition J (b t : R) : R := RInt (Fj b t) 0 (2 * PI).
  Definition N (b t : R) : R := RInt (Fn b t) 0 (2 * PI).
  Lemma two_pi : 0 <= 2 * PI. Proof. pose proof PI_RGT_0. lra. Qed.
  Lemma J_cont b t : continuous (J b) t.
  Proof.
    apply (param_cont (Fj b) 0 (2 * PI) (B * 2) two_pi (Fj_cont b)).
    intros x y a. unfold Fj. apply Rle_trans with (1 := g_lip _ _ (TT_bound b y a) (TT_bound b x a)). rewrite Rmult_assoc.
    apply Rmult_le_compat_l; [apply B_pos|apply TT_lip_t].
  Qed.
  Lemma N_cont b t : continuous (N b) t.
  Proof.
    apply (param_cont (Fn b) 0 (2 * PI) (4 * C + 2 * B) two_pi (Fn_cont b)).
    intros x y a. unfold Fn.
    replace (Tb b y a * g1 (TT b y a) - Tb b x a * g1 (TT b x a)) with (Tb b y a * (g1 (TT b y a) - g1 (TT b x a)) + (Tb b y a - Tb b x a) * g1 (TT b x a)) by ring.
    replace ((4 * C + 2 * B) * Rabs (y - x)) with (2 * (C * (2 * Rabs (y - x))) + (2 * Rabs (y - x)) * B) by ring.
    apply abs_add_le; rewrite Rabs_mult; apply Rmult_le_compat; auto using Rabs_pos, Tb_bound, Tb_lip_t, g1_bound, TT_bound.
    apply Rle_trans with (1 := proj2 LG _ _). apply Rmult_le_compat_l; [apply C_pos|apply TT_lip_t].
  Qed.
  Definition G (b : R) : R := RInt (fun t => sin t * J b t) 0 PI.
  Lemma G_derive b : is_derive G b (RInt (fun t => sin t * N b t) 0 PI).
  Proof.
    apply (param_derive (fun b t => sin t * J b t) (fun b t => sin t * N b t) 0 PI ((2 * PI - 0) * (4 * C + 2 * B))).
    - pose proof PI_RGT_0. lra.
    - intros x t. apply (continuous_mult sin (J x)); [apply sin_cont|apply J_cont].
    - intros x t. apply (continuous_mult sin (N x)); [apply sin_cont|apply N_cont].
    - intros x h t. replace (sin t * J (x + h) t - sin t * J x t - h * (sin t * N x t)) with (sin t * (J (x + h) t - J x t - h * N x t)) by ring.
      apply abs_prod_le; [apply abs_sin|].
      apply (param_quad (fun b a => Fj b t a) (fun b a => Fn b t a) 0 (2 * PI) (4 * C + 2 * B) two_pi); [intros; apply Fj_cont|intros; apply Fn_cont|].
      intros y k a. apply g_quad; [apply TT_bound| |apply TT_quad_b].
      replace k with (y + k - y) at 2 by ring. apply TT_lip_b.
  Qed.
  (** the divergence identity *)
  Definition Fm (b t a : R) : R := cos a * g (TT b t a).
  Definition Fm1 (b t a : R) : R := cos a * (Tt b t a * g1 (TT b t a)).
  Lemma Fm_cont b t a : continuous (Fm b t) a.
  Proof. apply (continuous_mult cos (Fj b t)); [apply cos_cont|apply Fj_cont]. Qed.
  Lemma Fm1_cont b t a : continuous (Fm1 b t) a.
  Proof.
    apply (continuous_mult cos (fun a => Tt b t a * g1 (TT b t a))); [apply cos_cont|].
    apply (continuous_mult (Tt b t) (fun a => g1 (TT b t a))); [apply Tt_cont|]. apply (continuous_comp (TT b t) g1); [apply TT_cont|apply g1_cont].
  Qed.
  Lemma M_derive b t : is_derive (fun t => RInt (Fm b t) 0 (2 * PI)) t (RInt (Fm1 b t) 0 (2 * PI)).
  Proof.
    apply (param_derive (Fm b) (Fm1 b) 0 (2 * PI) (4 * C + 2 * B) two_pi (Fm_cont b) (Fm1_cont b)).
    intros x h a. unfold Fm, Fm1. replace (cos a * g (TT b (x + h) a) - cos a * g (TT b x a) - h * (cos a * (Tt b x a * g1 (TT b x a))))
      with (cos a * (g (TT b (x + h) a) - g (TT b x a) - h * (Tt b x a * g1 (TT b x a)))) by ring.
    apply abs_prod_le; [apply abs_cos|]. apply g_quad; [apply TT_bound| |apply TT_quad_t].
    replace h with (x + h - x) at 2 by ring. apply TT_lip_t.
  Qed.
  Lemma divergence b t : sin t * N b t + (cos t * RInt (Fm b t) 0 (2 * PI) + sin t * RInt (Fm1 b t) 0 (2 * PI)) = 0.
  Proof.
    assert (E : is_RInt (fun a => sin t * Fn b t a + (cos t * Fm b t a + sin t * Fm1 b t a)) 0 (2 * PI) 0).
    { replace 0 with (minus (cos t * sin (2 * PI) * g (TT b t (2 * PI))) (cos t * sin 0 * g (TT b t 0))) at 2.
      2:{ rewrite sin_2PI, sin_0. unfold minus, plus, opp; cbn. ring. }
      apply (is_RInt_derive (fun a => cos t * sin a * g (TT b t a))).
      - intros a _. unfold Fn, Fm, Fm1.
        evar_last.
        + apply (is_derive_mult (fun a => cos t * sin a) (fun a => g (TT b t a)) a (cos t * cos a) (- (sin b * sin t * sin a) * g1 (TT b t a))).
          * auto_derive; [auto|ring].
          * apply (is_derive_comp g (TT b t) a (g1 (TT b t a)) (- (sin b * sin t * sin a))); [apply (proj1 LG)|].
            unfold TT. auto_derive; [auto|ring].
          * intros. apply Rmult_comm.
        + unfold plus, mult; cbn. unfold Tb, Tt. generalize (g1 (TT b t a)) (g (TT b t a)). intros u v.
          pose proof (sin2_cos2 a) as SC. unfold Rsqr in SC.
          replace (cos t * sin a * (- (sin b * sin t * sin a) * u)) with (- (sin b * sin t * cos t * (sin a * sin a) * u)) by ring.
          replace (sin a * sin a) with (1 - cos a * cos a) by lra. ring.
      - intros a _. apply (continuous_plus (fun a => sin t * Fn b t a) (fun a => cos t * Fm b t a + sin t * Fm1 b t a)).
        + apply (continuous_scal_r (sin t) (Fn b t)), Fn_cont.
        + apply (continuous_plus (fun a => cos t * Fm b t a) (fun a => sin t * Fm1 b t a)).
          * apply (continuous_scal_r (cos t) (Fm b t)), Fm_cont.
          * apply (continuous_scal_r (sin t) (Fm1 b t)), Fm1_cont. }
    assert (E2 : is_RInt (fun a => sin t * Fn b t a + (cos t * Fm b t a + sin t * Fm1 b t a)) 0 (2 * PI)
                   (sin t * N b t + (cos t * RInt (Fm b t) 0 (2 * PI) + sin t * RInt (Fm1 b t) 0 (2 * PI)))).
    { apply (is_RInt_plus (fun a => sin t * Fn b t a) (fun a => cos t * Fm b t a + sin t * Fm1 b t a)).
      - apply (is_RInt_scal (Fn b t)). apply (RInt_correct (Fn b t)), cont_int, Fn_cont.
      - apply (is_RInt_plus (fun a => cos t * Fm b t a) (fun a => sin t * Fm1 b t a)); [apply (is_RInt_scal (Fm b t)); apply (RInt_correct (Fm b t)), cont_int, Fm_cont|].
        apply (is_RInt_scal (Fm1 b t)). apply (RInt_correct (Fm1 b t)), cont_int, Fm1_cont. }
    rewrite <- (is_RInt_unique _ _ _ _ E2). apply (is_RInt_unique _ _ _ _ E).
  Qed.
  Lemma G_stationary b : RInt (fun t => sin t * N b t) 0 PI = 0.
  Proof.
    apply (is_RInt_unique (fun t => sin t * N b t)).
    replace 0 with (minus (- (sin PI * RInt (Fm b PI) 0 (2 * PI))) (- (sin 0 * RInt (Fm b 0) 0 (2 * PI)))) at 2.
    2:{ rewrite sin_PI, sin_0. unfold minus, plus, opp; cbn. ring. }
    apply (is_RInt_derive (fun t => - (sin t * RInt (Fm b t) 0 (2 * PI)))).
    - intros t _. evar_last.
      + apply (is_derive_opp (fun t => sin t * RInt (Fm b t) 0 (2 * PI))).
        apply (is_derive_mult sin (fun t => RInt (Fm b t) 0 (2 * PI)) t (cos t) (RInt (Fm1 b t) 0 (2 * PI))).
        * auto_derive; [auto|ring].
        * apply M_derive.
        * intros. apply Rmult_comm.
      + change (- (cos t * RInt (Fm b t) 0 (2 * PI) + sin t * RInt (Fm1 b t) 0 (2 * PI)) = sin t * N b t). pose proof (divergence b t). lra.
    - intros t _. apply (continuous_mult sin (N b)); [apply sin_cont|apply N_cont].
  Qed.
  Lemma G_const b : G b = 2 * PI * RInt g (-1) 1.
  Proof.
    destruct (mvt G (fun _ => 0)) with (s := b) (t := 0) as [c [E _]].
    { intros t. rewrite <- (G_stationary t). apply G_derive. }
    replace (G b) with (G 0) by lra. unfold G, J.
    assert (H : forall t, RInt (Fj 0 t) 0 (2 * PI) = 2 * PI * g (cos t)).
    { intros t. rewrite (RInt_ext (Fj 0 t) (fun _ => g (cos t))).
      - rewrite RInt_const. unfold scal; cbn. unfold mult; cbn. ring.
      - intros a _. unfold Fj, TT. f_equal. rewrite sin_0, cos_0. ring. }
    rewrite (RInt_ext (fun t => sin t * RInt (Fj 0 t) 0 (2 * PI)) (fun t => (- (2 * PI)) * (- sin t * g (cos t)))) by (intros t _; rewrite H; change (sin t * (2 * PI * g (cos t)) = - (2 * PI) * (- sin t * g (cos t))); ring).
    assert (K : is_RInt (fun y => scal (- sin y) (g (cos y))) 0 PI (RInt g (cos 0) (cos PI))).
    { apply (is_RInt_comp g cos (fun y => - sin y)).
      - intros; apply g_cont.
      - intros; split; [auto_derive; [exact I|ring]|]. apply (continuous_opp sin), sin_cont. }
    pose proof (is_RInt_scal _ _ _ (- (2 * PI)) _ K) as K2. etransitivity; [exact (is_RInt_unique _ _ _ _ K2)|].
    rewrite cos_0, cos_PI. rewrite <- (opp_RInt_swap g (-1) 1) by (apply cont_int, g_cont).
    change (- (2 * PI) * - RInt g (-1) 1 = 2 * PI * RInt g (-1) 1). ring.
  Qed.
End Sphere.

(** ** Any vector *)
Lemma polar p q : exists al, p = sqrt (p ^ 2 + q ^ 2) * cos al /\ q = sqrt (p ^ 2 + q ^ 2) * sin al.
Proof.
  assert (P : 0 <= p ^ 2 + q ^ 2) by nra. pose proof (sqrt_sqrt _ P) as SS. pose proof (sqrt_pos (p ^ 2 + q ^ 2)) as S0.
  remember (sqrt (p ^ 2 + q ^ 2)) as r eqn:Er. clear Er. destruct (Req_dec r 0) as [->|Hr].
  { exists 0. assert (p = 0) by nra. assert (q = 0) by nra. subst. split; ring. }
  assert (R0 : 0 < r) by lra.
  assert (Hp : -1 <= p / r <= 1).
  { split; [apply (Rmult_le_reg_r r)|apply (Rmult_le_reg_r r)]; try lra; unfold Rdiv; rewrite Rmult_assoc, Rinv_l by lra; nra. }
  assert (HS : sqrt (1 - (p / r)²) = Rabs q / r).
  { replace (1 - (p / r)²) with ((Rabs q / r)²).
    - rewrite sqrt_Rsqr; [reflexivity|]. apply Rmult_le_pos; [apply Rabs_pos|]. left. apply Rinv_0_lt_compat, R0.
    - unfold Rsqr. replace (Rabs q / r * (Rabs q / r)) with ((Rabs q) ^ 2 / (r * r)) by (field; lra). replace (p / r * (p / r)) with (p ^ 2 / (r * r)) by (field; lra). rewrite pow2_abs, SS. field. nra. }
  destruct (Rle_dec 0 q) as [Hq|Hq].
  - exists (acos (p / r)). rewrite cos_acos, sin_acos, HS, (Rabs_pos_eq q) by auto. split; field; lra.
  - exists (- acos (p / r)). rewrite cos_neg, sin_neg, cos_acos, sin_acos, HS, (Rabs_left q) by (auto; lra). split; field; lra.
Qed.
Lemma is_RInt_shift (f : R -> R) v a b l : is_RInt f (a + v) (b + v) l -> is_RInt (fun y => f (y + v)) a b l.
Proof.
  intros H. apply (is_RInt_ext (fun y => scal 1 (f (1 * y + v)))).
  - intros y _. change (1 * f (1 * y + v) = f (y + v)). rewrite !Rmult_1_l. reflexivity.
  - apply (is_RInt_comp_lin f 1 v a b l). rewrite !Rmult_1_l. exact H.
Qed.
Lemma periodic_shift (f : R -> R) al : (forall x, continuous f x) -> (forall x, f (x + 2 * PI) = f x) ->
  RInt (fun a => f (a + al)) 0 (2 * PI) = RInt f 0 (2 * PI).
Proof.
  intros Cf Pf.
  assert (E1 : is_RInt (fun a => f (a + al)) 0 (2 * PI) (RInt f (0 + al) (2 * PI + al))).
  { apply (is_RInt_shift f). apply (RInt_correct f), cont_int, Cf. }
  rewrite (is_RInt_unique _ _ _ _ E1).
  assert (E2 : is_RInt f 0 al (RInt f (0 + 2 * PI) (al + 2 * PI))).
  { apply (is_RInt_ext (fun a => f (a + 2 * PI))); [intros; apply Pf|]. apply (is_RInt_shift f). apply (RInt_correct f), cont_int, Cf. }
  apply (is_RInt_unique f) in E2. rewrite !Rplus_0_l in *. rewrite (Rplus_comm al) in E2.
  assert (C1 : RInt f 0 al + RInt f al (2 * PI + al) = RInt f 0 (2 * PI + al)) by (apply (RInt_Chasles f); apply cont_int, Cf).
  assert (C2 : RInt f 0 (2 * PI) + RInt f (2 * PI) (2 * PI + al) = RInt f 0 (2 * PI + al)) by (apply (RInt_Chasles f); apply cont_int, Cf).
  change (@eq R (RInt f al (2 * PI + al)) (RInt f 0 (2 * PI))). change (@eq R (RInt f 0 al) (RInt f (2 * PI) (2 * PI + al))) in E2. lra.
Qed.
Lemma lip1_scale C g g1 r : lip1 C g g1 -> lip1 (C * r ^ 2) (fun t => g (r * t)) (fun t => r * g1 (r * t)).
Proof.
  intros L. split.
  - intros t. evar_last; [apply (is_derive_comp g (fun t => r * t) t (g1 (r * t)) r); [apply (proj1 L)|auto_derive; [auto|ring]]|]. reflexivity.
  - intros s t. replace (r * g1 (r * s) - r * g1 (r * t)) with (r * (g1 (r * s) - g1 (r * t))) by ring. rewrite Rabs_mult.
    replace (C * r ^ 2 * Rabs (s - t)) with (Rabs r * (C * Rabs (r * s - r * t))).
    + apply Rmult_le_compat_l; [apply Rabs_pos|apply (proj2 L)].
    + replace (r * s - r * t) with (r * (s - t)) by ring. rewrite Rabs_mult, <- (pow2_abs r). ring.
Qed.
Definition direction (x y z t a : R) : R := x * (sin t * cos a) + y * (sin t * sin a) + z * cos t.
Theorem sphere_mean C g g1 x y z : lip1 C g g1 ->
  is_RInt (fun t => sin t * RInt (fun a => g (direction x y z t a)) 0 (2 * PI)) 0 PI
    (2 * PI * RInt (fun s => g (sqrt (x ^ 2 + y ^ 2 + z ^ 2) * s)) (-1) 1).
Proof.
  intros L. destruct (polar x y) as [al [Hx Hy]]. set (p := sqrt (x ^ 2 + y ^ 2)) in *.
  destruct (polar z p) as [be [Hz Hp]].
  assert (E : sqrt (z ^ 2 + p ^ 2) = sqrt (x ^ 2 + y ^ 2 + z ^ 2)).
  { f_equal. unfold p. rewrite pow2_sqrt by nra. ring. }
  rewrite E in *. set (r := sqrt (x ^ 2 + y ^ 2 + z ^ 2)) in *.
  rewrite <- (G_const _ _ _ (lip1_scale C g g1 r L) be).
  apply (is_RInt_ext (fun t => sin t * J (fun t => g (r * t)) be t)).
  2:{ apply (RInt_correct (fun t => sin t * J (fun t => g (r * t)) be t)), cont_int. intros t.
      apply (continuous_mult sin (J (fun t => g (r * t)) be)); [apply sin_cont|apply (J_cont _ _ _ (lip1_scale C g g1 r L))]. }
  intros t _. f_equal. symmetry. unfold J.
  assert (A : forall a, direction x y z t a = r * TT be t (a - al)).
  { intros a. unfold direction, TT. rewrite Hx, Hy, Hp, Hz, cos_minus. ring. }
  transitivity (RInt (fun a => Fj (fun t => g (r * t)) be t (a + - al)) 0 (2 * PI)).
  - apply (RInt_ext (fun a => g (direction x y z t a))). intros a _. unfold Fj. rewrite A. reflexivity.
  - apply (periodic_shift (Fj (fun t => g (r * t)) be t)).
    + intros a. apply (Fj_cont _ _ _ (lip1_scale C g g1 r L)).
    + intros a. unfold Fj, TT. rewrite cos_plus, sin_2PI, cos_2PI. do 3 f_equal. ring.
Qed.
Print Assumptions sphere_mean.
