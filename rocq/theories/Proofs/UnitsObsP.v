(** Predictions and likelihood under a renaming of the inputs. *)
From Coq Require Import Reals Lra.
From mathcomp Require Import all_ssreflect all_algebra.
From Verif Require Import Proofs.RealMx Spec.Sums Model.Ext Model.Kernels Model.MCMC Model.AdaptRun Model.Training Model.DefaultTraining Model.Likelihood Model.Posterior Model.Observations Model.DefaultGP.
From Verif Require Import Spec.UnitsSpec Spec.UnitsObsSpec Proofs.UnitsP.
Set Implicit Arguments.
Unset Strict Implicit.
Unset Printing Implicit Defensive.
Import GRing.Theory.
Local Open Scope ring_scope.

Section Renamed.
Variables (X Y : Type) (phi : X -> Y) (kern : X -> X -> R) (kern' : Y -> Y -> R).
Variables (mk : mean_arg X) (mk' : mean_arg Y) (nk : noise_arg X) (nk' : noise_arg Y) (n c : nat) (d : obs X n c).
Hypothesis HK : forall x y, kern' (phi x) (phi y) = kern x y.
Hypothesis HM : same_mean phi mk mk'.
Hypothesis HN : same_noise phi nk nk'.
Let d' := renamed phi d.
Lemma mean_renamed x : mean_at mk' d' (phi x) = mean_at mk d x.
Proof. by move: HM; rewrite /mean_at; case: mk mk'=> [|m] [|m'] //= H. Qed.
Lemma noise_renamed q (x : 'I_q -> X) : noise_for nk' d' (fun i => phi (x i)) = noise_for nk d x.
Proof. by move: HN; rewrite /noise_for; case: nk nk'=> [||v] [||v'] //= H; congr NDiag; apply/colP=> i; rewrite !mxE H. Qed.
Lemma kmat_renamed m q (x : 'I_m -> X) (y : 'I_q -> X) : kmat kern' (fun i => phi (x i)) (fun i => phi (y i)) = kmat kern x y.
Proof. by apply/matrixP=> i j; rewrite !mxE HK. Qed.
Lemma resid_renamed : (\matrix_(i, j) (o_y d' i j - mean_at mk' d' (o_x d' i))) = (\matrix_(i, j) (o_y d i j - mean_at mk d (o_x d i))).
Proof. by apply/matrixP=> i j; rewrite !mxE mean_renamed. Qed.
Lemma KV_renamed : KVmx kern' (o_x d') (V nk' d') = KVmx kern (o_x d) (V nk d).
Proof. by rewrite /KVmx /V /Kmx kmat_renamed noise_renamed. Qed.
Lemma KVinvY_renamed : KVinvYp kern' (mean_at mk' d') (o_x d') (o_y d') (V nk' d') = KVinvYp kern (mean_at mk d) (o_x d) (o_y d) (V nk d).
Proof. by rewrite /KVinvYp KV_renamed resid_renamed. Qed.
Lemma predict_mean_renamed q (xp : 'I_q -> X) : predict_mean kern' mk' nk' d' (fun i => phi (xp i)) = predict_mean kern mk nk d xp.
Proof. by rewrite /predict_mean /posterior_mean KVinvY_renamed kmat_renamed; apply/matrixP=> i j; rewrite [LHS]mxE [RHS]mxE mean_renamed. Qed.
Lemma predict_cov_renamed q (xp : 'I_q -> X) noisy : predict_cov kern' nk' d' (fun i => phi (xp i)) noisy = predict_cov kern nk d xp noisy.
Proof. by rewrite /predict_cov /posterior_covariance !kmat_renamed KV_renamed /add_noise noise_renamed. Qed.
Lemma loglik_renamed : loglik kern' mk' nk' d' = loglik kern mk nk d.
Proof.
have E : y_mean (whole_model kern' mk' nk' d') (o_y d') 0 = y_mean (whole_model kern mk nk d) (o_y d) 0.
  by apply/matrixP=> i j; rewrite !mxE mean_renamed.
have F : KV (whole_model kern' mk' nk' d') 0 = KV (whole_model kern mk nk d) 0 by exact: KV_renamed.
by rewrite /loglik /log_likelihood /KVinvY E F.
Qed.
End Renamed.

Section Unit.
Variables (c t : nat -> R).
Hypothesis P : pos c.
Lemma to_r_scaled h k : to_r (List.nth k (hps_in_unit c h) NaN) = (factor c k * to_r (List.nth k h NaN))%coqR.
Proof. rewrite /hps_in_unit nth_scaled; case: (List.nth k h NaN)=> [|||r] /=; lra. Qed.
Lemma kern_in_unit D h x y : kern_of D (hps_in_unit c h) (in_unit c t x) (in_unit c t y) = kern_of D h x y.
Proof.
rewrite /kern_of /default_kernel to_r_scaled /=; congr (_ * matern1 (sqrt _) _)%coqR; first lra.
apply: rsum_ext=> i _; rewrite to_r_scaled /in_unit /=; congr (Rabs _ ^ 2)%coqR.
have ci : (c i <> 0)%coqR by have := P i; lra.
rewrite /Rdiv Rinv_mult.
have -> : (c i * x i + t i - (c i * y i + t i) = c i * (x i - y i))%coqR by lra.
set z := Rinv _; set w := Rinv _; set u := (x i - y i)%coqR.
have -> : (c i * u * (z * w) = (c i * z) * (u * w))%coqR by ring.
by rewrite /z Rinv_r // Rmult_1_l.
Qed.
Lemma lik_in_unit D n k mk mk' nk nk' (d : obs point n k) h : same_mean (in_unit c t) mk mk' -> same_noise (in_unit c t) nk nk' ->
  lik_of D mk' nk' (renamed (in_unit c t) d) (hps_in_unit c h) = lik_of D mk nk d h.
Proof.
move=> HM HN; rewrite /lik_of /hps_in_unit finite_scaled; case: (finite h)=> //= _; congr Fin.
apply: loglik_renamed=> //; exact: kern_in_unit.
Qed.
Lemma x_list_in_unit n k (d : obs point n k) : x_list (renamed (in_unit c t) d) = List.map (in_unit c t) (x_list d).
Proof. by rewrite /x_list; elim: (enum 'I_n)=> //= i l ->. Qed.
End Unit.
