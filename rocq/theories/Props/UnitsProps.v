(** C187: the unit and the origin in which the inputs are measured. *)
From Coq Require Import Reals Lra.
From mathcomp Require Import all_ssreflect all_algebra.
From Verif Require Import Proofs.RealMx Model.Prelude Model.Ext Model.Kernels Model.MCMC Model.AdaptRun Model.Training Model.TrainPlan Model.DefaultTraining.
From Verif Require Import Model.Likelihood Model.Posterior Model.Observations Model.DefaultGP Model.FiniteDiff Model.PointGrad.
From Verif Require Import Spec.UnitsSpec Spec.UnitsObsSpec Proofs.UnitsP Proofs.UnitsObsP Proofs.UnitsRefP.
Set Implicit Arguments.
Unset Strict Implicit.
Unset Printing Implicit Defensive.
Import GRing.Theory.
Local Open Scope ring_scope.

(** Default kernel; mean and noise left to the default or the same functions of the point.  Every coordinate measured in another unit
    from another origin: (1) likelihood and predictions are those of the length scales in the new units; (2) the default bounds are
    converted; (3) MCMC training with default bounds and proposals, started at the converted hyperparameters with the same random
    numbers, visits the converted positions, sees the same likelihoods and ends with the converted hyperparameters -- hence the same
    predictions -- if the sampler of the normal distribution commutes with the conversion.
    Missing: the starts chosen by the package, NumPy's sampler, derivatives at prediction points -- see the refutation. *)
Theorem input_units_partial : forall D n k mk mk' nk nk' (d : obs point n k) (c t : nat -> R),
  (forall i, 0 < c i)%coqR -> same_mean (in_unit c t) mk mk' -> same_noise (in_unit c t) nk nk' ->
  let d' := renamed (in_unit c t) d in let cv := hps_in_unit c in
  (forall h, lik_of D mk' nk' d' (cv h) = lik_of D mk nk d h /\
     forall q (xp : 'I_q -> point), let xp' i := in_unit c t (xp i) in
     predict_mean (kern_of D (cv h)) mk' nk' d' xp' = predict_mean (kern_of D h) mk nk d xp /\
     forall noisy, predict_cov (kern_of D (cv h)) nk' d' xp' noisy = predict_cov (kern_of D h) nk d xp noisy) /\
  (forall m b, default_bounds true m (y_list d) (columns D (x_list d)) = Ok b ->
     exists b', default_bounds true m (y_list d') (columns D (x_list d')) = Ok b' /\ length b' = length b /\
       forall i, List.nth i b' (0, 0)%coqR = (factor c i * fst (List.nth i b (0, 0)%coqR), factor c i * snd (List.nth i b (0, 0)%coqR))%coqR) /\
  (forall Omega (draw : _ -> Omega -> _ -> _), unit_free draw -> forall init current us n_updates rnd,
     let run mk nk d := gp_train_mcmc D mk nk d draw in
     match run mk nk d init current us n_updates rnd with
     | Err e => run mk' nk' d' (option_map cv init) (cv current) us n_updates rnd = Err e
     | Ok (inf, h) => exists inf', run mk' nk' d' (option_map cv init) (cv current) us n_updates rnd = Ok (inf', cv h) /\
         i_f inf' = i_f inf /\ i_x inf' = List.map cv (i_x inf) /\ i_maxf inf' = i_maxf inf /\ i_maxx inf' = cv (i_maxx inf)
     end).
Proof.
move=> D n k mk mk' nk nk' d c t P HM HN d' cv.
have HK h x y : kern_of D (cv h) (in_unit c t x) (in_unit c t y) = kern_of D h x y by exact: kern_in_unit.
have HL h : lik_of D mk' nk' d' (cv h) = lik_of D mk nk d h by exact: lik_in_unit.
split; last split.
- move=> h; split; first exact: HL.
  by move=> q xp xp'; split=> [|noisy]; [exact: predict_mean_renamed|exact: predict_cov_renamed].
- move=> m b E; exists (bscaled (factor c) b); rewrite /d' x_list_in_unit (bounds_in_unit c t P).
  by rewrite E bscaled_length; split=> //; split=> // i; exact: nth_bscaled.
move=> Omega draw U init current us N rnd run.
have := train_rel Omega draw D (y_list d) (x_list d) _ _ init current us N rnd c t P U HL.
rewrite /run /gp_train_mcmc /d' x_list_in_unit => ->.
by case: (train_mcmc _ _ _ _ _ _ _ _ _ _ _)=> [[inf h]|e] //; exists (si (factor c) inf).
Qed.
Print Assumptions input_units_partial.

(** the default bounds of the amplitude come from the spread of all outputs, every column of every observation *)
Theorem amplitude_bounds_all_outputs : forall n c (d : obs point n c) m cols b, default_bounds true m (y_list d) cols = Ok b ->
  let ybar : R := (\sum_i \sum_j o_y d i j) / (n * c)%:R in
  let v : R := (\sum_i \sum_j (o_y d i j - ybar) ^+ 2) / (n * c)%:R in
  List.nth 0 b (0, 0)%coqR = (v / 100, v * 10)%coqR.
Proof.
move=> n c d m cols b E ybar v; move: E; rewrite /default_bounds; cbn [negb]; case: (negb _)=> // E.
have {E} -> : b = ((np_var (y_list d) / 100, np_var (y_list d) * 10)%coqR :: List.map (fun c => (col_range c / 100, col_range c * 10)%coqR) cols) by congruence.
cbn [List.nth].
have SL (f : R -> R) (l : list R) : rsuml (List.map f l) = \sum_(a <- l) f a.
  by elim: l=> [|a l IH]; [rewrite big_nil|rewrite big_cons -IH].
have LE : INR (length (y_list d)) = (n * c)%:R.
  have -> : length (y_list d) = (n * c)%nat.
    rewrite -[length _]/(size (y_list d)) /y_list size_flatten /shape -map_comp sumnE big_map big_enum /=.
    by under eq_bigr do rewrite size_map size_enum_ord; rewrite sum_nat_const card_ord.
  by elim: (n * c)%nat=> [|k IH] //; rewrite S_INR IH -addn1 natrD.
have YS (f : R -> R) : \sum_(a <- y_list d) f a = \sum_i \sum_j f (o_y d i j).
  rewrite /y_list big_flatten big_map big_enum /=; apply: eq_bigr=> i _; by rewrite big_map big_enum.
have DV (f : R -> R) : (rsuml (List.map f (y_list d)) / INR (length (y_list d)))%coqR = (\sum_i \sum_j f (o_y d i j)) / (n * c)%:R.
  rewrite SL LE; case: (eqVneq (n * c)%nat 0%nat) => [Z|NZ]; last first.
    have N : ((n * c)%:R : R) != 0 by rewrite Num.Theory.pnatr_eq0.
    rewrite YS (rinvE N); reflexivity.
  have S0 : \sum_(a <- y_list d) f a = 0.
    have -> : y_list d = [::] by apply: size0nil; rewrite /y_list size_flatten /shape -map_comp sumnE big_map big_enum /=;
      under eq_bigr do rewrite size_map size_enum_ord; rewrite sum_nat_const card_ord.
    by rewrite big_nil.
  by rewrite -YS S0 mul0r; exact: Rmult_0_l.
have M1 : TrainPlan.np_mean (y_list d) = ybar.
  by rewrite /TrainPlan.np_mean /ybar -(DV (fun a => a)) List.map_id.
have V : np_var (y_list d) = v.
  rewrite /np_var {1}/TrainPlan.np_mean List.map_length DV M1 /v; congr (_ / _); apply: eq_bigr=> i _; apply: eq_bigr=> j _.
  by rewrite /= expr2 -[RHS]/(Rmult _ _) Rmult_1_r.
by rewrite V.
Qed.
Print Assumptions amplitude_bounds_all_outputs.

(** the condition on the sampler can be met: independent coordinates, one random number each *)
Definition axis_draw (M : option (nat -> nat -> R)) (w : nat -> R) (x : list ext) : list ext :=
  match M with
  | None => List.map (fun _ => NaN) x
  | Some C => List.map (fun p => eadd (snd p) (Fin (sqrt (C (fst p) (fst p)) * w (fst p))))%coqR (List.combine (List.seq 0 (length x)) x)
  end.
Lemma axis_free : unit_free axis_draw.
Proof.
split=> [f M M' w x P E|f w x P] /=; last by elim: x f P=> //= e x IH f P; rewrite (IH (fun i => f i.+1)).
rewrite scaled_length.
have H s : List.map (fun p => eadd (snd p) (Fin (sqrt (M' (fst p) (fst p)) * w (fst p))))%coqR (List.combine (List.seq s (length x)) (scaled (fun i => f (s + i)%nat) x)) =
  scaled (fun i => f (s + i)%nat) (List.map (fun p => eadd (snd p) (Fin (sqrt (M (fst p) (fst p)) * w (fst p))))%coqR (List.combine (List.seq s (length x)) x)).
  elim: x s=> //= e x IH s; rewrite addn0; congr cons; last first.
    have -> : (fun i => f (s + i.+1)%nat) = (fun i => f (s.+1 + i)%nat) by apply: FunctionalExtensionality.functional_extensionality=> i; rewrite addSnnS.
    exact: IH.
  rewrite E sqrt_mult_alt; last by apply: Rmult_le_pos; apply: Rlt_le.
  rewrite sqrt_square; last exact: Rlt_le.
  by case: e=> //= r; congr Fin; lra.
by have := H 0%nat.
Qed.

(** C187 refuted: (1) a GP that is not trained has length scales one in whatever unit: one observation, the prediction one unit away
    is another one in every other unit; (2) train starts at ones if they lie in the bounds, at random numbers if not: two observations
    one apart, or a thousand apart; (3) with the same random numbers NumPy's sampler moves the amplitude instead of the length scale,
    since it hands them out by the size of the variances; (4) derivatives at prediction points are differences over 1e-8 in
    any unit: for every length scale there is a unit in which they are not the converted ones. *)
Definition one_at_0 : obs point 1 1 := Obs (fun _ _ => 0%coqR) (const_mx 1) 0.
Definition at_1 : 'I_1 -> point := fun _ _ => 1%coqR.
Definition fixed_noise : noise_arg point := NoiseFunction (fun _ => 1).
Definition zero_mean : mean_arg point := GivenMean (fun _ => 0).
Definition scaled_by (c : R) := in_unit (fun _ => c) (fun _ => 0%coqR).
Lemma kern_ones x y : kern_of 1 (ones 1) x y = matern1 (Rabs (x O - y O)) 1.
Proof. by rewrite /kern_of kernel_1d /= Rmult_1_l /Rdiv Rinv_1 Rmult_1_r. Qed.
Lemma untrained c : (0 < c)%coqR ->
  predict_mean (kern_of 1 (ones 1)) zero_mean fixed_noise (renamed (scaled_by c) one_at_0) (fun i => scaled_by c (at_1 i)) 0 0 = (matern1 c 1 / 2)%coqR.
Proof.
move=> C; rewrite /predict_mean /posterior_mean /KVinvYp.
have KVE : KVmx (kern_of 1 (ones 1)) (o_x (renamed (scaled_by c) one_at_0)) (V fixed_noise (renamed (scaled_by c) one_at_0)) = 2%:R%:M.
  apply/matrixP=> i j; rewrite !ord1 !mxE eqxx !mulr1n kern_ones.
  by rewrite Rminus_diag_eq // Rabs_R0 matern_0 -[2%:R]/(1 + 1).
rewrite KVE invmx_scalar mul_scalar_mx mxE /= add0r mxE big_ord1 !mxE kern_ones /scaled_by /in_unit /=.
have -> : Rabs (c * 0 + 0 - (c * 1 + 0)) = c by rewrite Rabs_minus_sym Rabs_pos_eq; lra.
by rewrite subr0 mulr1 rinvE ?Num.Theory.pnatr_eq0 // r2E.
Qed.
Theorem input_units_refuted :
  (forall c, (0 < c)%coqR -> c <> 1%coqR ->
     predict_mean (kern_of 1 (ones 1)) zero_mean fixed_noise (renamed (scaled_by c) one_at_0) (fun i => scaled_by c (at_1 i)) <>
     predict_mean (kern_of 1 (ones 1)) zero_mean fixed_noise one_at_0 at_1) /\
  (forall lik lik' us, finite_likelihood lik -> finite_likelihood lik' -> (forall i, 0 <= us i <= 1)%coqR ->
     let still := fun _ _ : nat => (fun _ : nat => 0, 0)%coqR in
     (exists inf, train_mcmc _ svd_draw 1 two_y (in_u 1) lik None (ones 1) us 2 still = Ok (inf, [:: Fin 1%coqR; Fin 1%coqR])) /\
     (exists inf, train_mcmc _ svd_draw 1 two_y (in_u 1000) lik' None (ones 1) us 2 still =
        Ok (inf, [:: Fin (/ 400 + us 0%nat * (5 / 2 - / 400)); Fin (10 + us 1%nat * 9990)]%coqR))) /\
  (forall lik lik' us, finite_likelihood lik -> finite_likelihood lik' ->
     let c := fun _ : nat => (/ 10)%coqR in let one_number := fun _ _ : nat => (first_only, 0%coqR) in
     exists inf inf' h h', train_mcmc _ svd_draw 1 two_y (in_u 1) lik (Some (ones 1)) (ones 1) us 2 one_number = Ok (inf, h) /\
       train_mcmc _ svd_draw 1 two_y (in_u (/ 10)) lik' (Some (hps_in_unit c (ones 1))) (ones 1) us 2 one_number = Ok (inf', h') /\
       h' <> hps_in_unit c h /\ List.nth 0 h NaN = Fin 1%coqR /\ List.nth 1 h' NaN = Fin (/ 10)%coqR) /\
  (forall l, (0 < l)%coqR -> exists c, (0 < c < 1)%coqR /\
     let g l := mean_grad (fun x y => default_kernel 1 x y (fun k => match k with O => 1 | _ => l end)) (fun _ => 0) 1 (fun _ _ => 0) DFloat (fun _ => 1) (fun _ => 0) 0 in
     exists v v', g l = Some v /\ g (c * l)%coqR = Some v' /\ v' <> (v / c)%coqR).
Proof.
split.
  move=> c C N /matrixP/(_ 0 0); rewrite untrained //.
  have := untrained (Rlt_0_1).
  have -> : renamed (scaled_by 1) one_at_0 = one_at_0.
    rewrite /renamed /one_at_0 /scaled_by /in_unit /=; congr Obs; apply: FunctionalExtensionality.functional_extensionality=> i.
    apply: FunctionalExtensionality.functional_extensionality=> j; lra.
  have -> : (fun i => scaled_by 1 (at_1 i)) = at_1.
    apply: FunctionalExtensionality.functional_extensionality=> i; apply: FunctionalExtensionality.functional_extensionality=> j; rewrite /scaled_by /in_unit /at_1; lra.
  move=> -> E; case: (Rlt_le_dec c 1)=> H.
    have := matern_decr c 1; lra.
  have := matern_decr 1 c; lra.
split; first exact: start_differs.
split; last exact: step_differs.
move=> lik lik' us F F' c one_number.
have [[inf E] [inf' E']] := draw_differs lik lik' us F F'.
exists inf, inf', [:: Fin 1%coqR; Fin (1 + std (1 / 100) 10)%coqR], [:: Fin (1 + std (/ 400) (5 / 2))%coqR; Fin (/ 10)%coqR].
split=> //; split=> //; split=> //= H.
have S : (0 < std (/ 400) (5 / 2))%coqR by apply: std_pos; lra.
by injection H=> _; lra.
Qed.
Print Assumptions input_units_refuted.

(** every likelihood of a GP with the default kernel is one of those *)
Lemma gp_likelihood_finite D n k mk nk (d : obs point n k) : finite_likelihood (lik_of D mk nk d).
Proof. by move=> h; rewrite /lik_of; case: (finite h)=> // l _; exists (loglik (kern_of D h) mk nk d). Qed.

(** example: both observations of (2), the second one 1000 units away: started at the converted hyperparameters, and with a sampler
    that moves each coordinate by its own number, the run in the new unit ends with the length scale a thousand times as long *)
Example input_units_ex : forall lik lik' us w inf h, (forall h, lik' (hps_in_unit (fun=> 1000%coqR) h) = lik h) ->
  train_mcmc _ axis_draw 1 two_y two_x lik None (ones 1) us 2 (fun _ _ => (w, 0%coqR)) = Ok (inf, h) ->
  exists inf', train_mcmc _ axis_draw 1 two_y (in_u 1000) lik' None [:: Fin 1%coqR; Fin 1000%coqR] us 2 (fun _ _ => (w, 0%coqR)) =
    Ok (inf', hps_in_unit (fun=> 1000%coqR) h) /\ i_f inf' = i_f inf.
Proof.
move=> lik lik' us w inf h L E; exists (si (factor (fun=> 1000%coqR)) inf); split=> //.
have P : forall i : nat, (0 < 1000)%coqR by move=> _; lra.
have := train_rel _ axis_draw 1 two_y two_x _ _ None (ones 1) us 2 (fun _ _ => (w, 0%coqR)) (fun=> 1000%coqR) (fun=> 0%coqR) P axis_free L.
have -> : hps_in_unit (fun=> 1000%coqR) (ones 1) = [:: Fin 1%coqR; Fin 1000%coqR] by rewrite /hps_in_unit /ones; cbn; rewrite !Rmult_1_r.
by rewrite E.
Qed.
