(** The variance at measured points and the reach of observations: C189, C190. *)
From Coq Require Import Reals Lra.
From mathcomp Require Import all_ssreflect all_algebra.
From Verif Require Import Proofs.RealMx Model.Kernels Model.Likelihood Model.Posterior Model.Observations Spec.ObservationsSpec Spec.RepeatSpec Spec.LocalSpec.
From Verif Require Import Spec.CholSpec Spec.KernelSpec Spec.PosteriorSpec Proofs.PosDef Proofs.PosteriorP Proofs.ObservationsP Proofs.RepeatP Proofs.LocalP.
From Verif Require Import Props.KernelsProps Props.PosteriorProps Props.ObservationsProps Props.RepeatProps.
Set Implicit Arguments.
Unset Strict Implicit.
Unset Printing Implicit Defensive.
Import Order.TTheory GRing.Theory Num.Theory.
Local Open Scope ring_scope.

(** C189: whatever else was observed, and wherever the noise comes from, the variance v reported at a point satisfies
    1/v >= 1/k + the precision of any measurements made there (k the prior variance); in particular it is at most the
    noise variance of each of them *)
Theorem variance_at_measured_point : forall X (kern : X -> X -> R) (nk : noise_arg X) n c (d : obs X n c), valid_covariance kern ->
  (forall i, 0 < noise_mx (V nk d) i i) -> forall q (xp : 'I_q -> X) (a : 'I_q),
  let v := (predict_cov kern nk d xp false).1 a 0 in let k := kern (xp a) (xp a) in
  (forall P : pred 'I_n, (forall i, P i -> o_x d i = xp a) ->
     let p := measured_precision nk d P in v * (1 + k * p) <= k /\ v * p <= 1) /\
  forall i, o_x d i = xp a -> v <= noise_mx (V nk d) i i.
Proof.
move=> X kern nk n c d Vk Pd q xp a v k.
have M (P : pred 'I_n) : (forall i, P i -> o_x d i = xp a) -> let p := measured_precision nk d P in v * (1 + k * p) <= k /\ v * p <= 1.
  move=> At p; have B : v * (1 + k * p) <= k by exact: measured_bound.
  split=> //; have v0 : 0 <= v.
    rewrite /v predict_cov_any // mxE; apply: psd_diag; apply: schur_ge0=> //; have [w E] := any_noise_diag nk d.
      by rewrite E /= tr_diag_mx.
    by move: Pd; rewrite E /= => P0; apply: posdef_diagmx=> i; have := P0 i; rewrite !mxE eqxx mulr1n.
  have k0 : 0 <= k by have := psd_diag a (gram_psd xp Vk); rewrite mxE.
  have p0 : 0 <= p by apply: sumr_ge0=> i _; rewrite invr_ge0 ltW.
  move: B v0 k0 p0; move: v k p => v1 k1 p1 /RleP B /RleP v0 /RleP k0 /RleP p0; apply/RleP.
  move: B v0 k0 p0; toR; move=> B v0 k0 p0; case: (Rle_dec (v1 * p1)%coqR 1) => // N; exfalso.
  by have := Rmult_le_pos k1 (v1 * p1 - 1)%coqR k0; nra.
split=> // i At; have Ai j : pred1 i j -> o_x d j = xp a by move/eqP=> ->.
have [_] := M (pred1 i) Ai.
rewrite /measured_precision big_pred1_eq ler_pdivr_mulr // mul1r; exact.
Qed.
Print Assumptions variance_at_measured_point.
(** example: two measurements of variance 1 at a point of prior variance 1: the variance is 1/3, and the bound is attained *)
Example variance_at_measured_point_ex : let v := (predict_cov lin MeasuredNoise twice at1 false).1 0 0 in
  v = 3%:R^-1 /\ v * (1 + lin 1 1 * measured_precision MeasuredNoise twice predT) = lin 1 1.
Proof.
split; first exact: twice_var.
rewrite twice_var; have -> : lin 1 1 = 1 by rewrite /lin Rmult_1_r.
have -> : measured_precision MeasuredNoise twice predT = 2%:R.
  by rewrite /measured_precision V_diag // big_ord_recl big_ord1 /= !mxE !eqxx !mulr1n invr1 -mulr2n.
by rewrite mul1r -[1 + _]/(1%:R + 2%:R) -natrD mulVf // pnatr_eq0.
Qed.

(** C190: observations which the kernel relates neither to the others nor to the point of prediction change nothing
    there; the likelihood is the product of both *)
Theorem unrelated_observations_partial : forall X (kern : X -> X -> R) (m : X -> R) (nk : noise_arg X) n p c (d : obs X n c) (e : obs X p c),
  let mk := GivenMean m in nk <> DefaultNoise -> valid_covariance kern ->
  (forall i, 0 < noise_mx (V nk d) i i) -> (forall i, 0 < noise_mx (V nk e) i i) -> apart kern (o_x d) (o_x e) ->
  (forall q (xp : 'I_q -> X), apart kern (o_x e) xp ->
     predict_mean kern mk nk (joined d e) xp = predict_mean kern mk nk d xp /\
     predict_cov kern nk (joined d e) xp false = predict_cov kern nk d xp false) /\
  loglik kern mk nk (joined d e) = loglik kern mk nk d + loglik kern mk nk e.
Proof.
move=> X kern m nk n p c d e mk ND Vk Pd Pe DE; split; last exact: loglik_apart.
by move=> q xp EX; split; [exact: predict_mean_apart|exact: predict_cov_apart].
Qed.
Print Assumptions unrelated_observations_partial.

(** for the Wendland kernel of gp2Scale in up to three dimensions that is every observation farther away than the
    length scales *)
Theorem far_observations_partial : forall D (hps : nat -> R) (m : point -> R) (nk : noise_arg point) n p c (d : obs point n c) (e : obs point p c),
  let kern x y := wendland_dense D x y hps in let mk := GivenMean m in
  let beyond x y := Rle 1 (aniso_distance D x y (fun i => hps i.+1)) in
  (D <= 3)%coq_nat -> Rle 0 (hps O) -> (forall i, (i < D)%coq_nat -> hps i.+1 <> 0%coqR) -> nk <> DefaultNoise ->
  (forall i, 0 < noise_mx (V nk d) i i) -> (forall i, 0 < noise_mx (V nk e) i i) ->
  (forall i j, beyond (o_x d i) (o_x e j)) -> forall q (xp : 'I_q -> point), (forall i j, beyond (o_x e i) (xp j)) ->
  predict_mean kern mk nk (joined d e) xp = predict_mean kern mk nk d xp /\
  predict_cov kern nk (joined d e) xp false = predict_cov kern nk d xp false.
Proof.
move=> D hps m nk n p c d e kern mk beyond D3 h0 hl ND Pd Pe DE q xp EX.
have Vk : valid_covariance kern by exact: (proj1 (wendland_valid_partial D hps D3 h0 hl)).
have Z x y : beyond x y -> kern x y = 0 by move=> H; exact: (proj1 (proj1 (compact_support D x y hps) H)).
have [H _] := @unrelated_observations_partial _ kern m nk _ _ _ d e ND Vk Pd Pe (fun i j => Z _ _ (DE i j)).
by apply: H=> i j; exact: Z.
Qed.
Print Assumptions far_observations_partial.

(** C190 refuted: the default mean and the default noise take all values into account, wherever they are *)
Theorem unrelated_observations_refuted : exists d e : obs R 1 1, valid_covariance lin /\ apart lin (o_x d) (o_x e) /\
  apart lin (o_x e) at1 /\
  (let v n (f : obs R n 1) := (predict_cov lin DefaultNoise f at1 false).1 0 0 in v _ d = 0 /\ v _ (joined d e) = 2%:R^-1) /\
  (let u n (f : obs R n 1) := predict_mean lin DefaultMean MeasuredNoise f at0 0 0 in u _ d = 0 /\ u _ (joined d e) = 100%:R).
Proof.
exists (one (fun=> 0%N)), far; split; first exact: lin_valid.
split; first by move=> i j; exact: Rmult_0_r. split; first by move=> i j; exact: Rmult_0_l.
have J : rms (joined (one (fun _ : 'I_1 => 0%N)) far) = 1.
  refine (@rms1 1 0 (@joined R 1 1 1 (one (fun=> 0%N)) far) (fun i _ => if i == 0 then 0%N else 200%N) _ _) => [i j|]; last by rewrite big_ord_recl !big_ord1.
  rewrite /= mxE; case: (@split_ordP 1 1 i)=> k ->; by rewrite !ord1 mxE.
split; first (split; first by rewrite one_observation // rms_one mul0r expr0n mul0r).
  by rewrite two_observations // J ?half1 // ltr01.
split; rewrite mean_origin mxE /mean_at /np_mean; first by rewrite !big_ord1 mxE mul0r.
rewrite big_split_ord /= !big_ord1 col_mxEu col_mxEd !mxE add0r.
by rewrite -[200%N]/(100 * 2)%N natrM mulfK // pnatr_eq0.
Qed.
Print Assumptions unrelated_observations_refuted.
(** example: two observations at distance 2 and length scale 1 in one dimension; near the first only the first counts *)
Definition pt (t : R) : point := fun _ => t.
Example far_observations_ex : forall y1 y2 nv : R, 0 < nv ->
  let kern x y := wendland_dense 1 x y (fun=> 1%coqR) in
  let at_ t y : obs point 1 1 := Obs (fun=> pt t) (const_mx y) (const_mx nv) in
  let xp : 'I_1 -> point := fun=> pt 0%coqR in
  predict_mean kern (GivenMean (fun=> 0)) MeasuredNoise (joined (at_ 0%coqR y1) (at_ 2%coqR y2)) xp =
  predict_mean kern (GivenMean (fun=> 0)) MeasuredNoise (at_ 0%coqR y1) xp.
Proof.
move=> y1 y2 nv nv0 kern at_ xp.
have P t y i : 0 < noise_mx (V MeasuredNoise (at_ t y)) i i by rewrite V_diag //= !mxE eqxx mulr1n.
have F a b : (a - b = 2 \/ a - b = - (2))%coqR -> Rle 1 (aniso_distance 1 (pt a) (pt b) (fun=> 1%coqR)).
  move=> H; rewrite /aniso_distance /= /pt -[X in Rle X _]sqrt_1; apply: sqrt_le_1_alt.
  have -> : ((a - b) / 1 = a - b)%coqR by field.
  have S : (Rabs (a - b) ^ 2 = 4)%coqR by rewrite pow2_abs; case: H => ->; ring.
  by lra.
refine (proj1 (@far_observations_partial 1 (fun=> 1%coqR) (fun=> 0) MeasuredNoise 1 1 1 (at_ 0%coqR y1) (at_ 2%coqR y2) _ _ _ _ _ _ _ 1 xp _)) => //.
- by apply: le_S; apply: le_S; apply: le_n.
- by lra.
- by move=> i j; apply: F; right; lra.
- by move=> i j; apply: F; left; lra.
Qed.
