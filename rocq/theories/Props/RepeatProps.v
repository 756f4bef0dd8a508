(** Repeated measurements and their averages: C188. *)
From Coq Require Import Reals Lra.
From mathcomp Require Import all_ssreflect all_algebra.
From Verif Require Import Proofs.RealMx Model.Likelihood Model.Posterior Model.Observations Spec.ObservationsSpec Spec.RepeatSpec.
From Verif Require Import Spec.CholSpec Spec.KernelSpec Spec.PosteriorSpec Proofs.PosDef Proofs.PosteriorP Proofs.ObservationsP Proofs.RepeatP.
From Verif Require Import Props.PosteriorProps Props.ObservationsProps.
Set Implicit Arguments.
Unset Strict Implicit.
Unset Printing Implicit Defensive.
Import Order.TTheory GRing.Theory Num.Theory.
Local Open Scope ring_scope.

(** C188: with a mean function and measured variances, every mean and every covariance is that of the averages, and the
    log-likelihood differs from theirs by a number that does not involve the kernel or the mean *)
Theorem repeated_measurements_partial : forall X (m : X -> R) N n c (g : 'I_N -> 'I_n) (x : 'I_n -> X) (d : obs X N c),
  repeats g x d -> (forall i, 0 < o_nv d i 0) -> let b := averaged g x d in
  forall kern : X -> X -> R, valid_covariance kern ->
  (forall q (xp : 'I_q -> X), predict_mean kern (GivenMean m) MeasuredNoise d xp = predict_mean kern (GivenMean m) MeasuredNoise b xp) /\
  (forall q (xp : 'I_q -> X), predict_cov kern MeasuredNoise d xp false = predict_cov kern MeasuredNoise b xp false) /\
  loglik kern (GivenMean m) MeasuredNoise d = loglik kern (GivenMean m) MeasuredNoise b
    - (1 / 2%:R) * (spread g x d / c%:R + (\sum_i ln (o_nv d i 0) - \sum_a ln (o_nv b a 0)) + (N%:R - n%:R) * ln (2%:R * PI)%R).
Proof.
move=> X m N n c g x d Rd Pd b kern Vk; split; first by move=> q xp; exact: predict_mean_rep.
by split; [move=> q xp; exact: predict_cov_rep|exact: loglik_rep].
Qed.
Print Assumptions repeated_measurements_partial.

(** hence both sets of data prefer the same of any two kernels and means, by the same margin *)
Theorem repeated_measurements_training_partial : forall X N n c (g : 'I_N -> 'I_n) (x : 'I_n -> X) (d : obs X N c),
  repeats g x d -> (forall i, 0 < o_nv d i 0) -> forall (k1 k2 : X -> X -> R) (m1 m2 : X -> R), valid_covariance k1 -> valid_covariance k2 ->
  let l (kern : X -> X -> R) m p (e : obs X p c) := loglik kern (GivenMean m) MeasuredNoise e in
  l k1 m1 _ d - l k2 m2 _ d = l k1 m1 _ (averaged g x d) - l k2 m2 _ (averaged g x d).
Proof.
move=> X N n c g x d Rd Pd k1 k2 m1 m2 V1 V2 l.
have [_ [_ E1]] := repeated_measurements_partial m1 Rd Pd V1; have [_ [_ E2]] := repeated_measurements_partial m2 Rd Pd V2.
by rewrite /l E1 E2 opprB addrA subrK.
Qed.
Print Assumptions repeated_measurements_training_partial.

(** ** one observation at 1 of a function a x *)
Lemma one_with_noise c (d : obs R 1 c) s : o_x d 0 = 1 -> 0 <= s -> V MeasuredNoise d = NDiag (const_mx s) ->
  (predict_cov lin MeasuredNoise d at1 false).1 0 0 = s / (1 + s).
Proof.
move=> x1 s0 EV; have p : 0 < 1 + s by apply: ltr_paddr => //; exact: ltr01.
have [E G] := frac_ge0 s0.
have KVE : KVmx lin (o_x d) (V MeasuredNoise d) = (1 + s)%:M.
  by rewrite EV; apply/matrixP=> i j; rewrite !ord1 !mxE x1 eqxx !mulr1n /lin Rmult_1_r.
have kE : kmat lin (o_x d) at1 = 1%:M by apply/matrixP=> i j; rewrite !ord1 !mxE x1 eqxx !mulr1n /lin Rmult_1_r.
have kkE : kmat lin at1 at1 = 1%:M by apply/matrixP=> i j; rewrite !ord1 !mxE eqxx !mulr1n /lin Rmult_1_r.
rewrite /predict_cov /posterior_covariance KVE kE kkE trmx1 mul1mx mulmx1 invmx_scalar ?gt_eqF //.
have -> : \col_i (1%:M - (1 + s)^-1%:M : 'M[R]_1) i i = (s / (1 + s))%:M :> 'cV_1.
  by apply/colP=> i; rewrite !ord1 !mxE eqxx !mulr1n -E mul1r.
case: existsP=> [[i]|_]; last by rewrite mxE.
by rewrite ord1 mxE eqxx mulr1n ltNge G.
Qed.
(** twice the value 100 at the point 1, with variance 1 *)
Definition twice : obs R 2 1 := Obs (fun=> 1) (const_mx 100%:R) (const_mx 1).
Definition same2 : 'I_2 -> 'I_1 := fun=> 0.
Lemma twice_repeats : repeats same2 at1 twice.
Proof. by split=> // a; exists 0; rewrite [a]ord1. Qed.
Lemma twice_pos i : 0 < o_nv twice i 0. Proof. by rewrite mxE ltr01. Qed.
Lemma twice_precision a : precision same2 twice a = 2%:R.
Proof. by rewrite /precision big_mkcond big_ord_recl big_ord1 /= [a]ord1 !eqxx !mxE invr1 -mulr2n. Qed.
Lemma twice_y : o_y (averaged same2 at1 twice) = const_mx 100%:R.
Proof.
apply/matrixP=> a j; rewrite mxE twice_precision [RHS]mxE.
have -> : \sum_(i | same2 i == a) o_y twice i j / o_nv twice i 0 = 100%:R * 2%:R.
  by rewrite big_mkcond big_ord_recl big_ord1 /= !ord1 eqxx !mxE !divr1 [RHS]mulr_natr mulr2n.
by rewrite mulfK // pnatr_eq0.
Qed.
Lemma twice_nv : o_nv (averaged same2 at1 twice) = const_mx 2%:R^-1.
Proof. by apply/colP=> a; rewrite [LHS]mxE twice_precision mxE. Qed.
Lemma twice_var : (predict_cov lin MeasuredNoise twice at1 false).1 0 0 = 3%:R^-1.
Proof.
have [_ [E _]] := repeated_measurements_partial (fun=> 0) twice_repeats twice_pos lin_valid.
have h : 0 < 2%:R^-1 :> R by rewrite invr_gt0 ltr0n.
rewrite E (@one_with_noise _ _ 2%:R^-1) //; [|exact: ltW|by rewrite V_diag //; congr NDiag; exact: twice_nv].
have -> : 3%:R = 2%:R * (1 + 2%:R^-1) :> R by rewrite mulrDr mulr1 mulfV ?pnatr_eq0 // -[X in _ + X]/(1%:R) -natrD.
by rewrite invfM.
Qed.

(** C188 refuted: with nothing given, twice the same value counts as two measurements, its average as one; and the
    default mean weighs each point by the number of its measurements *)
Definition three : obs R 3 1 := Obs (fun i => if i == 2%:R then 2%:R else 1) (\matrix_(i, j) if i == 2%:R then 3%:R else 0) (const_mx 1).
Definition same3 : 'I_3 -> 'I_2 := fun i => if i == 2%:R then 1 else 0.
Definition pts3 : 'I_2 -> R := fun a => if a == 1 then 2%:R else 1.
Definition at0 : 'I_1 -> R := fun=> 0.
Lemma mean_origin mk nk n c (d : obs R n c) : predict_mean lin mk nk d at0 = const_mx (mean_at mk d 0).
Proof.
rewrite /predict_mean /posterior_mean.
have -> : kmat lin (o_x d) at0 = 0 by apply/matrixP=> i j; rewrite !mxE /lin Rmult_0_r.
by apply/matrixP=> i j; rewrite trmx0 mul0mx !mxE addr0.
Qed.
Lemma cov_of_V nk nk' n c (d : obs R n c) q (xp : 'I_q -> R) : V nk d = V nk' d -> predict_cov lin nk d xp false = predict_cov lin nk' d xp false.
Proof. by rewrite /predict_cov /posterior_covariance => ->. Qed.
Lemma three_repeats : repeats same3 pts3 three.
Proof.
split=> [i|a]; first by rewrite /= /same3 /pts3; case: (i == 2%:R).
case: (boolP (a == 1))=> [/eqP ->|h]; [by exists 2%:R|exists 0; rewrite /same3 /=].
by apply: val_inj; move: h; case: a=> [[|[|k]] H].
Qed.
Theorem repeated_measurements_refuted :
  (repeats same2 at1 twice /\
   let v n (e : obs R n 1) := (predict_cov lin DefaultNoise e at1 false).1 0 0 in v _ twice = 3%:R^-1 /\ v _ (averaged same2 at1 twice) = 2%:R^-1) /\
  (repeats same3 pts3 three /\
   let p n (e : obs R n 1) := predict_mean lin DefaultMean MeasuredNoise e at0 0 0 in p _ three = 1 /\ p _ (averaged same3 pts3 three) = 3%:R / 2%:R).
Proof.
split; split=> [|v].
- exact: twice_repeats.
- split; rewrite /v.
    rewrite -twice_var default_noise (@cov_of_V _ MeasuredNoise) // V_diag // (@V_diag _ MeasuredNoise) //; congr NDiag.
    apply/colP=> i; rewrite !mxE; apply: (@rms1 _ _ _ (fun _ _ => 100%N))=> [k l|]; first by rewrite mxE.
    by rewrite big_ord_recl !big_ord1.
  rewrite one_observation // (@rms1 _ _ _ (fun _ _ => 100%N)) ?half1 // => [k l|]; first by rewrite twice_y mxE.
  by rewrite !big_ord1.
- exact: three_repeats.
- rewrite /v !mean_origin !mxE /mean_at /np_mean; split.
    rewrite !big_ord_recl !big_ord0 !mxE /=.
    by rewrite !addr0 !add0r divff // pnatr_eq0.
  congr (_ / _); rewrite !big_ord_recl !big_ord0 !mxE /precision !big_mkcond /= !big_ord_recl !big_ord0 !mxE /=.
  rewrite ?mul0r ?addr0 ?add0r ?mul0r ?add0r ?invr1 ?divr1.
  rewrite 2!(big_mkcond (fun i => same3 i == lift ord0 ord0)) /= !big_ord_recl !big_ord0 !mxE /= ?addr0 ?add0r ?invr1 ?divr1.
  by rewrite !mulr1.
Qed.
Print Assumptions repeated_measurements_refuted.
(** example: the two equal measurements of variance 1 are one of variance 1/2; the likelihood of the two is that of the
    one less ln(2)/2 and ln(2 pi)/2 *)
Example repeated_measurements_ex : let b := averaged same2 at1 twice in
  o_y b 0 0 = 100%:R /\ o_nv b 0 0 = 2%:R^-1 /\ (predict_cov lin MeasuredNoise b at1 false).1 0 0 = 3%:R^-1 /\
  forall m, loglik lin (GivenMean m) MeasuredNoise twice = loglik lin (GivenMean m) MeasuredNoise b - (1 / 2%:R) * (ln 2%:R + ln (2%:R * PI)%R).
Proof.
move=> b; split; first by rewrite twice_y mxE. split; first by rewrite twice_nv mxE.
split.
  by have [_ [E _]] := repeated_measurements_partial (fun=> 0) twice_repeats twice_pos lin_valid; rewrite -E twice_var.
move=> m; have [_ [_ ->]] := repeated_measurements_partial m twice_repeats twice_pos lin_valid.
congr (_ - _ * _); have -> : spread same2 at1 twice = 0.
  apply: big1=> i _; apply: big1=> j _; rewrite twice_y; have -> : o_y twice i j = 100%:R by rewrite mxE.
  by rewrite mxE subrr expr0n mul0r.
rewrite mul0r add0r big_ord1 twice_nv big_ord_recl big_ord1.
have l1 i : ln (o_nv twice i 0) = 0 by rewrite mxE; exact: ln_1.
have h : (2%:R : R) != 0 by rewrite pnatr_eq0.
rewrite !l1 mxE rinvE // ln_Rinv; last by apply/RltP; rewrite ltr0n.
by rewrite -[X in X - 1]/(1 + 1) addrK mul1r addr0 add0r [X in X + _]opprK.
Qed.
