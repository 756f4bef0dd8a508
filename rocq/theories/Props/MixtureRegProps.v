(** A GGMP left to its defaults against regression of the means of its stations: C201. *)
From Coq Require Import Reals Lra List ZArith Lia.
From mathcomp Require Import all_ssreflect all_algebra.
From Verif Require Import Model.Prelude Model.GPState Model.Likelihood Model.Solvers Model.Posterior Model.LifeCycle Model.GGMPDensity Model.MixtureInit Model.MixtureGP.
From Verif Require Import Proofs.RealMx Spec.Sums Spec.CholSpec Spec.SolversSpec Spec.GPStateSpec Spec.LifeCycleSpec Spec.KernelSpec Spec.LikelihoodSpec Spec.PosteriorSpec Spec.MultiGPSpec.
From Verif Require Import Spec.GGMPDensitySpec Spec.MixtureInitSpec Spec.MixtureGPSpec Spec.MixtureRegSpec Props.LifeCycleProps Props.GGMPDensityProps Props.MixtureInitProps Props.MixtureGPProps.
From Verif Require Import Proofs.CholP Proofs.SolversP Proofs.PosteriorEx Props.SolversProps.
Set Implicit Arguments.
Unset Strict Implicit.
Unset Printing Implicit Defensive.
Import Order.TTheory GRing.Theory Num.Theory.
Local Open Scope ring_scope.

(** ** shifted values *)
Lemma given_mean_shift X (kh : X -> X -> R) m m' n (x : 'I_n -> X) A (y y' : 'cV[R]_n) (o : R) z :
  (forall w, m' w = m w + o) -> (forall i, y' i 0 = y i 0 + o) -> given_mean kh m' x A y' z = given_mean kh m x A y z + o.
Proof.
move=> Hm Hy; rewrite /given_mean Hm addrAC; congr (_ + _ + _); apply: eq_bigr => i _; apply: eq_bigr => j _.
by rewrite Hm Hy opprD addrACA subrr addr0.
Qed.
Lemma average_shift (l : list R) (o : R) : l <> [::] -> average (List.map (fun m => m + o)%coqR l) = (average l + o)%coqR.
Proof.
move=> N; have L : (0 < INR (length l))%coqR by apply: lt_0_INR; case: l N => //= a l _; lia.
have E : lsum (List.map (fun m => m + o)%coqR l) = (lsum l + INR (length l) * o)%coqR.
  by elim: (l) => [|a r IH]; [rewrite /=; ring|rewrite [length _]/= S_INR /= IH; ring].
by rewrite /average List.map_length E; field; lra.
Qed.
Lemma nth_shift (l : list R) (o : R) i : (i < length l)%coq_nat -> List.nth i (List.map (fun m => m + o)%coqR l) R0 = (List.nth i l R0 + o)%coqR.
Proof. by move=> L; rewrite (List.nth_indep _ _ ((fun m => m + o)%coqR R0)) ?List.map_length // (List.map_nth (fun m => m + o)%coqR). Qed.

Section Mixture.
Variable P : Type.
Notation H := (list R).
Variables (p0 : P) (kf : nat -> P -> P -> H -> R) (mf : nat -> option (P -> H -> R)) (defnoise : list R -> R).
Variable cho_factor np_inv : forall n, 'M[R]_n -> option 'M[R]_n.
Variable LUt : nat -> Type.
Variable splu : forall n, 'M[R]_n -> option (LUt n).
Variable lu_solve : forall n k, LUt n -> 'M[R]_(n, k) -> 'M[R]_(n, k).
Variable lu_diag : forall n, LUt n -> 'rV[R]_n.
Variable iterate : smode -> forall n k, 'M[R]_n -> 'M[R]_(n, k) -> 'M[R]_(n, k).
Variable estimate : nat -> forall n, 'M[R]_n -> R * option R.
Variable Obj : nat -> Type.
Variable c_factor : forall n, 'M[R]_n -> Obj n.
Variable c_solve : forall n k, Obj n -> 'M[R]_(n, k) -> 'M[R]_(n, k).
Variable c_logdet : forall n, Obj n -> R.
Variable mode : smode.
Hypothesis CC : @chol_contract R_rcfType cho_factor.
Hypothesis CI : @inv_contract R_rcfType np_inv.
Hypothesis CL : @lu_contract R_rcfType LUt splu lu_solve lu_diag.
Hypothesis CU : @custom_contract R_rcfType R_zmodType lnabs Obj c_factor c_solve c_logdet.
(** the covariance functions are valid for all hyperparameters *)
Hypothesis VK : forall k h, valid_covariance (fun a b => kf k a b h).

Notation nz := (@Measured P H).
Notation lbuild k := (l_build (kf k) (mf k) nz GGMPDensity.mean defnoise cho_factor np_inv splu lu_solve lu_diag iterate estimate c_factor c_solve c_logdet mode).
Notation lstep k := (l_step (kf k) (mf k) nz GGMPDensity.mean defnoise cho_factor np_inv splu lu_solve lu_diag iterate estimate c_factor c_solve c_logdet mode).
Notation lsteps k := (l_steps (kf k) (mf k) nz GGMPDensity.mean defnoise cho_factor np_inv splu lu_solve lu_diag iterate estimate c_factor c_solve c_logdet mode).
Notation initgps := (init_gps kf mf defnoise cho_factor np_inv splu lu_solve lu_diag iterate estimate c_factor c_solve c_logdet mode).
Notation makegps := (make_gps kf mf defnoise cho_factor np_inv splu lu_solve lu_diag iterate estimate c_factor c_solve c_logdet mode).
Notation xrun := (x_run kf mf defnoise cho_factor np_inv splu lu_solve lu_diag iterate estimate c_factor c_solve c_logdet mode).
Notation xnext := (x_next kf mf defnoise cho_factor np_inv splu lu_solve lu_diag iterate estimate c_factor c_solve c_logdet mode).
Notation xmean := (x_mean kf mf p0).
Notation xvar := (x_var kf mf lu_solve iterate c_solve mode p0).
Notation lifet := (life P H LUt Obj).


(** the components of the mixture made by default *)
Lemma default_comp K ys liks : init_likelihoods K ys None None None = Ok liks -> exists base vars, moments_of ys base vars /\ length liks = K /\
  forall k, (k < K)%coq_nat -> lk_mean (comp liks k) = List.map (fun m => m + offset K k)%coqR base /\ lk_var (comp liks k) = vars /\ List.nth k (List.map lk_weight liks) R0 = (1 / INR K)%coqR.
Proof.
move=> E; have [base [vars [M [L [_ [_ C]]]]]] := init_ok _ _ _ _ _ _ E; exists base, vars; split=> //; split=> // k Lk.
have [c [Hc [Em [Ev Ew]]]] := C k Lk; rewrite /comp (List.nth_error_nth _ _ _ Hc); split=> //; split=> //.
by rewrite -Ew; apply: List.nth_error_nth; rewrite List.nth_error_map Hc.
Qed.
Lemma given_ext X (k1 k2 : X -> X -> R) (m1 m2 : X -> R) n (x : 'I_n -> X) A (y1 y2 : 'cV[R]_n) z : (forall a b, k1 a b = k2 a b) -> (forall a, m1 a = m2 a) -> y1 = y2 ->
  given_mean k1 m1 x A y1 z = given_mean k2 m2 x A y2 z /\ given_cov k1 x A z z = given_cov k2 x A z z.
Proof.
move=> Ek Em ->; split; rewrite /given_mean /given_cov ?Em ?Ek; congr (_ + _); last congr (- _).
all: by apply: eq_bigr => i _; apply: eq_bigr => j _; rewrite !Ek ?Em.
Qed.
(** a component whose values are [base] moved by [o], as regression of [base] *)
Lemma comp_reg x liks hs os k base vars o (kh : P -> P -> R) (m : P -> R) : length base = length x -> length vars = length x ->
  lk_mean (comp liks k) = List.map (fun b => b + o)%coqR base -> lk_var (comp liks k) = vars ->
  (forall a b, comp_kernel kf x liks hs os k a b = kh a b) -> (forall z, comp_prior mf x liks hs os k z = (m z + o)%coqR) -> forall z,
  comp_mean p0 kf mf x liks hs os k z = (reg_mean p0 kh x base vars m z + o)%coqR /\
  comp_var p0 kf x liks hs os k z = (reg_var p0 kh x vars z + average vars)%coqR.
Proof.
move=> Lb Lv Em Ev Ek Ep z; have EA : comp_cov p0 kf x liks hs os k = reg_cov p0 kh x vars.
  by apply/matrixP=> i j; rewrite !mxE Ek Ev.
rewrite /comp_mean /comp_var EA Ev /reg_mean /reg_var /average Lv; split.
- have [-> _] := @given_ext _ _ _ _ _ _ (fun i : 'I_(length x) => List.nth i x p0) (reg_cov p0 kh x vars) _ _ z Ek Ep (erefl (\col_i List.nth i (lk_mean (comp liks k)) R0)).
  apply: given_mean_shift => // i; rewrite !mxE Em nth_shift // Lb; exact/ssrnat.ltP.
- by have [_ ->] := @given_ext _ _ _ m m _ (fun i : 'I_(length x) => List.nth i x p0) (reg_cov p0 kh x vars) _ _ z Ek (fun=> erefl) (erefl (0 : 'cV[R]_(length x))).
Qed.
Lemma rsum_const c n : rsum (fun _ => c) n = (INR n * c)%coqR.
Proof. by elim: n => [|n IH]; [rewrite /=; ring|rewrite S_INR /= IH; ring]. Qed.
Lemma rsum_mul c f n : rsum (fun k => c * f k)%coqR n = (c * rsum f n)%coqR.
Proof. by elim: n => [|n IH] /=; [ring|rewrite IH; ring]. Qed.
Lemma rsum_add f g n : rsum (fun k => f k + g k)%coqR n = (rsum f n + rsum g n)%coqR.
Proof. by elim: n => [|n IH] /=; [ring|rewrite IH; ring]. Qed.
Lemma stations_of x liks hs t0 : initgps x liks hs = Some t0 -> forall k, (k < length liks)%coq_nat -> length (lk_mean (comp liks k)) = length x /\ length (lk_var (comp liks k)) = length x.
Proof.
move=> I0 k Lk; have [_ _ _ J] := @state_ok P kf mf defnoise _ _ _ _ _ _ iterate estimate _ c_factor c_solve c_logdet mode x liks hs t0 [::] t0 I0 erefl.
case Hc: (List.nth_error liks k) => [c|]; last by move/List.nth_error_None: Hc; lia.
have [h [g0 [g [c' [_ _ _ _ [A _ _]]]]]] := J k c Hc; have [L1 L2 _] := accepted_ok A.
by rewrite /comp (List.nth_error_nth _ _ _ Hc).
Qed.

(** C201: two or more components with the same kernel, constant means and starting hyperparameters [h] predict, before training, the
    mean of the regression of the stations' means; the variance has the average noise and (K+1)/(3(K-1)) on top.
    One component predicts, after any training, the regression with a mean function one unit higher, minus one. *)
Theorem default_regression_partial :
  (forall K ys x liks h t0, (2 <= K)%coq_nat -> init_likelihoods K ys None None None = Ok liks -> initgps x liks (List.repeat h K) = Some t0 ->
     exact_mode mode -> x <> [::] -> (forall k, mf k = Some (@constant_mean P)) -> (forall k l u v a b, kf k a b (l ++ [:: u])%list = kf 0%nat a b (l ++ [:: v])%list) ->
     exists base vars, moments_of ys base vars /\
     let kh a b := kf 0%nat a b (List.removelast h ++ [:: average base])%list in
     forall q (xp : 'I_q -> P) garbage i,
       xmean t0 xp i = reg_mean p0 kh x base vars (fun _ => average base) (xp i) /\
       xvar t0 xp garbage i = (reg_var p0 kh x vars (xp i) + average vars + (INR K + 1) / (3 * (INR K - 1)))%coqR) /\
  (forall ys x liks h t0 os t w, init_likelihoods 1 ys None None None = Ok liks -> initgps x liks [:: h] = Some t0 -> xrun t0 os = Some t ->
     exact_mode mode -> last_weights [:: R1] os = [:: w] -> (0 < w)%coqR ->
     exists base vars, moments_of ys base vars /\
     let ht := last_hps 0 (List.removelast h ++ [:: average (List.map (fun b => b - 1)%coqR base)])%list os in
     let kh a b := kf 0%nat a b ht in
     let m z := if mf 0 is Some f then f z ht else average (List.map (fun b => b - 1)%coqR base) in
     forall q (xp : 'I_q -> P) garbage i,
       xmean t xp i = (reg_mean p0 kh x base vars (fun z => m z + 1) (xp i) - 1)%coqR /\
       xvar t xp garbage i = (reg_var p0 kh x vars (xp i) + average vars)%coqR) /\
  (forall ys x liks h t0, init_likelihoods 1 ys None None None = Ok liks -> initgps x liks [:: h] = Some t0 -> exact_mode mode -> x <> [::] ->
     mf 0 = Some (@constant_mean P) -> (forall l u v a b, kf 0 a b (l ++ [:: u])%list = kf 0%nat a b (l ++ [:: v])%list) ->
     exists base vars, moments_of ys base vars /\
     let kh a b := kf 0%nat a b (List.removelast h ++ [:: average base])%list in
     forall q (xp : 'I_q -> P) garbage i,
       xmean t0 xp i = (reg_mean p0 kh x base vars (fun _ => average base) (xp i) - 1)%coqR /\
       xvar t0 xp garbage i = (reg_var p0 kh x vars (xp i) + average vars)%coqR).
Proof.
have one ys x liks h t0 os t w : init_likelihoods 1 ys None None None = Ok liks -> initgps x liks [:: h] = Some t0 -> xrun t0 os = Some t ->
     exact_mode mode -> last_weights [:: R1] os = [:: w] -> (0 < w)%coqR ->
     exists base vars, moments_of ys base vars /\ length base = length x /\
     let ht := last_hps 0 (List.removelast h ++ [:: average (List.map (fun b => b - 1)%coqR base)])%list os in
     let kh a b := kf 0%nat a b ht in
     let m z := if mf 0 is Some f then f z ht else average (List.map (fun b => b - 1)%coqR base) in
     forall q (xp : 'I_q -> P) garbage i,
       xmean t xp i = (reg_mean p0 kh x base vars (fun z => m z + 1) (xp i) - 1)%coqR /\
       xvar t xp garbage i = (reg_var p0 kh x vars (xp i) + average vars)%coqR.
  move=> E I0 R1' EM Lw Wp; have [base [vars [M [L C]]]] := default_comp E; exists base, vars; split=> //.
  have [|Cm [Cv Cw]] := C 0%nat; first by lia.
  have [|Lb Lv] := stations_of I0 (k := 0%nat); first by rewrite L; lia.
  rewrite Cm List.map_length in Lb; rewrite Cv in Lv; split=> // ht kh m q xp garbage i.
  have Cm' : lk_mean (comp liks 0) = List.map (fun b => b - 1)%coqR base by rewrite Cm; apply: List.map_ext => b; rewrite /offset /=; ring.
  have W1 : List.map lk_weight liks = [:: R1].
    by move: L Cw; case: (liks) => [|c [|c' r]] //= _ ->; congr (_ :: _); field.
  have [_] := mixture_end_to_end p0 CC CI CL CU VK I0 R1' EM; rewrite W1 Lw L => Q.
  have [||Q1 [Q2 _]] := Q _ _ q xp garbage i; [by move=> a [<-|[]]; lra|by rewrite /=; lra|].
  have Er : recentred h (lk_mean (comp liks 0)) = (List.removelast h ++ [:: average (List.map (fun b => b - 1)%coqR base)])%list by rewrite /recentred -removelast_firstn Cm'.
  have Cd : ds_h (comp_data x liks [:: h] os 0) = ht by rewrite /comp_data /= Er.
  have [|a b|z|G1 G2] := @comp_reg x liks [:: h] os 0%nat base vars (-1)%coqR kh (fun z => m z + 1)%coqR Lb Lv _ Cv _ _ (xp i).
  - by rewrite Cm'.
  - by rewrite /comp_kernel Cd.
  - by rewrite /comp_prior Cd Cm' /m /average; case: (mf 0) => [f|]; ring.
  rewrite Q1 Q2 /mixture_mean /mixture_second /= G1 G2; split; field; lra.
split; [|split].
- move=> K ys x liks h t0 K2 E I0 EM Nx Mf Kf; have [base [vars [M [L C]]]] := default_comp E; exists base, vars; split=> // kh q xp garbage i.
  have [|C1 [C2 _]] := C 0%nat; first by lia.
  have [|Lb Lv] := stations_of I0 (k := 0%nat); first by rewrite L; lia.
  rewrite C1 List.map_length in Lb; rewrite C2 in Lv.
  have Nb : base <> [::] by move=> e; move: Lb Nx; rewrite e; case: (x).
  have N : (2 <= INR K)%coqR by rewrite -[2%coqR]/(INR 2); exact: le_INR.
  have [_] := mixture_end_to_end p0 CC CI CL CU VK I0 (erefl : xrun t0 [::] = Some t0) EM; rewrite [last_weights _ _]/= L => Q.
  have Lw : length (List.map lk_weight liks) = K by rewrite List.map_length.
  have S1 : lsum (List.map lk_weight liks) = 1%coqR.
    rewrite lsum_nth Lw (@rsum_ext _ (fun _ => 1 / INR K)%coqR); first by rewrite rsum_const; field; lra.
    by move=> k Hk; have [_ [_ ->]] := C k Hk.
  have [||Q1 [Q2 _]] := Q _ _ q xp garbage i.
  + move=> a /(@List.In_nth _ _ _ R0) [k [Hk <-]]; rewrite Lw in Hk; have [_ [_ ->]] := C k Hk.
    by apply: Rlt_le; apply: Rdiv_lt_0_compat; lra.
  + by rewrite S1; lra.
  have at_k k : (k < K)%coq_nat -> comp_mean p0 kf mf x liks (List.repeat h K) [::] k (xp i) = (reg_mean p0 kh x base vars (fun _ => average base) (xp i) + offset K k)%coqR /\
      comp_var p0 kf x liks (List.repeat h K) [::] k (xp i) = (reg_var p0 kh x vars (xp i) + average vars)%coqR.
    move=> Hk; have [Cm [Cv _]] := C k Hk.
    have Eh : List.nth k (List.repeat h K) [::] = h by apply: (List.repeat_spec K); apply: List.nth_In; rewrite List.repeat_length.
    have Er : recentred h (lk_mean (comp liks k)) = (List.removelast h ++ [:: average base + offset K k])%coqR%list.
      by rewrite /recentred -removelast_firstn -average_shift // Cm.
    have Cd : ds_h (comp_data x liks (List.repeat h K) [::] k) = (List.removelast h ++ [:: average base + offset K k])%coqR%list by rewrite /comp_data /last_hps /= Eh Er.
    apply: comp_reg => // [a b|z]; first by rewrite /comp_kernel Cd /kh; exact: Kf.
    by rewrite /comp_prior Mf Cd /constant_mean List.last_last.
  have Wk k : (k < K)%coq_nat -> (List.nth k (List.map lk_weight liks) R0 / lsum (List.map lk_weight liks) = / INR K)%coqR by move=> Hk; have [_ [_ ->]] := C k Hk; rewrite S1; field; lra.
  set r := reg_mean _ _ _ _ _ _ _ in at_k *; set v := (reg_var _ _ _ _ _ + _)%coqR in at_k *.
  have EM1 : mixture_mean K (fun k => List.nth k (List.map lk_weight liks) R0 / lsum (List.map lk_weight liks))%coqR (fun k => comp_mean p0 kf mf x liks (List.repeat h K) [::] k (xp i)) = r.
    rewrite /mixture_mean (@rsum_ext _ (fun k => / INR K * (r + offset K k))%coqR); last by move=> k Hk; have [-> _] := at_k k Hk; rewrite Wk.
    by rewrite rsum_mul rsum_add rsum_const offsets_sum //; field; lra.
  rewrite Q1 Q2 EM1; split=> //.
  rewrite /mixture_second (@rsum_ext _ (fun k => / INR K * ((v + r * r) + (2 * r * offset K k + offset K k * offset K k)))%coqR); last first.
    by move=> k Hk; have [-> ->] := at_k k Hk; rewrite Wk //; ring.
  by rewrite rsum_mul rsum_add rsum_const rsum_add rsum_mul offsets_sum // offsets_sq //; field; lra.
- move=> ys x liks h t0 os t w E I0 R1' EM Lw Wp; have [base [vars [M [_ Q]]]] := one _ _ _ _ _ _ _ _ E I0 R1' EM Lw Wp.
  by exists base, vars; split.
- move=> ys x liks h t0 E I0 EM Nx Mf Kf; have [||base [vars [M [Lb Q]]]] := one _ _ _ _ _ [::] t0 R1 E I0 erefl EM; [by []|lra|].
  exists base, vars; split=> // kh q xp garbage i; have [Q1 Q2] := Q q xp garbage i; move: Q1 Q2; rewrite [last_hps _ _ _]/= Mf.
  have Nb : base <> [::] by move=> e; move: Lb Nx; rewrite e; case: (x).
  have Ea : average (List.map (fun b => b - 1)%coqR base) = (average base - 1)%coqR by exact: (average_shift (-1)%coqR Nb).
  have Ek a b : kf 0 a b (List.removelast h ++ [:: average (List.map (fun b => b - 1)%coqR base)])%list = kh a b by exact: Kf.
  have EA : reg_cov p0 (fun a b => kf 0 a b (List.removelast h ++ [:: average (List.map (fun b => b - 1)%coqR base)])%list) x vars = reg_cov p0 kh x vars.
    by apply/matrixP=> i1 j1; rewrite !mxE Ek.
  have Em (z : P) : (constant_mean z (List.removelast h ++ [:: average (List.map (fun b => b - 1)%coqR base)])%list + 1 = average base)%coqR.
    by rewrite /constant_mean List.last_last Ea; ring.
  rewrite /reg_mean /reg_var EA.
  have [-> ->] := @given_ext _ _ _ _ _ _ (fun i : 'I_(length x) => List.nth i x p0) (reg_cov p0 kh x vars) _ _ (xp i) Ek Em (erefl (\col_i List.nth i base R0)).
  by [].
Qed.
End Mixture.
Print Assumptions default_regression_partial.

(** a station with density 1 at 0 and 3 at 1, whose mean is 3/4 and variance 3/16, located at 1; kernel x*y, whatever the exact solver: regression
    predicts 3/4 there, one component -1/4; with two components the variance is one larger than 3/19 + 3/16 *)
Theorem default_regression_refuted : forall mode it est, exact_mode mode ->
  exists liks1 t1 liks2 t2 base vars, let ys := [:: ([:: R0; R1], [:: R1; 3%coqR])] in
    init_likelihoods 1 ys None None None = Ok liks1 /\ with_mx (@init_gps R) mode it est [:: R1] liks1 [:: [:: R0]] = Some t1 /\
    init_likelihoods 2 ys None None None = Ok liks2 /\ with_mx (@init_gps R) mode it est [:: R1] liks2 [:: [:: R0]; [:: R0]] = Some t2 /\
    moments_of ys base vars /\
    reg_mean R0 (fun a b => a * b)%coqR [:: R1] base vars (fun _ => average base) R1 = (3 / 4)%coqR /\
    x_mean linl (fun _ => Some (@constant_mean R)) R0 t1 (fun _ : 'I_1 => R1) ord0 = (- (1 / 4))%coqR /\
    x_mean linl (fun _ => Some (@constant_mean R)) R0 t2 (fun _ : 'I_1 => R1) ord0 = (3 / 4)%coqR /\
    (reg_var R0 (fun a b => a * b)%coqR [:: R1] vars R1 + average vars = 3 / 19 + 3 / 16)%coqR /\
    x_var linl (fun _ => Some (@constant_mean R)) idR_sol it idR_sol mode R0 t2 (fun _ : 'I_1 => R1) 0 ord0 = (3 / 19 + 3 / 16 + 1)%coqR.
Proof.
move=> mode it est EM; have [CC [CI [CL CU]]] := contracts_possible (lnabs : R_rcfType -> R_zmodType).
set ys := [:: _]; have [var [SM Ev]] := station_ex.
have D d f : List.In (d, f) ys -> (2 <= length d)%coq_nat by case=> [[<- _]|[]]; rewrite /=; lia.
have mk K : exists l, init_likelihoods K ys None None None = Ok l by apply: (proj2 (proj2 default_mixture_partial) K ys None None None D).
have [l1 E1] := mk 1%nat; have [l2 E2] := mk 2%nat.
have [_ [S2 _]] := @mixture_succeeds R R0 linl (fun _ => Some (@constant_mean R)) (fun _ => R0) _ _ _ _ _ _ it est (fun n => 'M[R]_n) (fun n A => A) idR_sol (@my_logdet R_rcfType R_zmodType lnabs) mode CC CI CL linl_valid.
have N0 n h : List.In h (List.repeat [:: R0] n) -> h <> [::] by move=> Hh; rewrite (List.repeat_spec _ _ _ Hh).
have [t1 T1] := S2 1%nat ys [:: R1] l1 [:: [:: R0]] E1 erefl (le_n _) (N0 1%nat).
have [t2 T2] := S2 2%nat ys [:: R1] l2 [:: [:: R0]; [:: R0]] E2 erefl (le_n _) (N0 2%nat).
have [P1 [_ P3]] := @default_regression_partial R R0 linl (fun _ => Some (@constant_mean R)) (fun _ => R0) _ _ _ _ _ _ it est (fun n => 'M[R]_n) (fun n A => A) idR_sol (@my_logdet R_rcfType R_zmodType lnabs) mode CC CI CL CU linl_valid.
have X1 : [:: R1] <> [::] by [].
have [b1 [v1 [M1 Q1]]] := P3 ys _ _ _ _ E1 T1 EM X1 erefl (fun _ _ _ _ _ => erefl).
have [b2 [v2 [M2 Q2]]] := P1 2%nat ys _ _ [:: R0] _ (le_n _) E2 T2 EM X1 (fun _ => erefl) (fun _ _ _ _ _ _ => erefl).
have val b v : moments_of ys b v -> b = [:: 3 / 4]%coqR /\ v = [:: 3 / 16]%coqR.
  case=> Lb [Lv C]; have := C 0%nat _ _ erefl; rewrite SM Ev => -[]; move: Lb Lv {C}; rewrite /=.
  by case: b => [|b0 [|? ?]] //; case: v => [|v0 [|? ?]] //= _ _ <- <-.
have [e1 e2] := val _ _ M1; have [e3 e4] := val _ _ M2; subst b1 v1 b2 v2.
exists l1, t1, l2, t2, [:: 3 / 4]%coqR, [:: 3 / 16]%coqR; split=> //; split=> //; split=> //; split=> //; split=> //.
have EA : invmx (reg_cov R0 (fun a b => a * b)%coqR [:: R1] [:: 3 / 16]%coqR) = ((16 / 19)%coqR)%:M :> 'M[R]_1.
  have -> : reg_cov R0 (fun a b => a * b)%coqR [:: R1] [:: 3 / 16]%coqR = ((19 / 16)%coqR)%:M :> 'M[R]_1.
    by apply/matrixP=> i j; rewrite !ord1 !mxE eqxx mulr1n /=; toR; field.
  have e : (19 / 16)%coqR * (16 / 19)%coqR = 1 :> R by rewrite -[LHS]/(19 / 16 * (16 / 19))%coqR -[RHS]/R1; field.
  have AB : ((19 / 16)%coqR)%:M *m ((16 / 19)%coqR)%:M = 1%:M :> 'M[R]_1 by rewrite -scalar_mxM e.
  by have [U _] := mulmx1_unit AB; rewrite -[RHS](mulKmx U) AB mulmx1.
have RM : reg_mean R0 (fun a b => a * b)%coqR [:: R1] [:: 3 / 4]%coqR [:: 3 / 16]%coqR (fun _ => average [:: 3 / 4]%coqR) R1 = (3 / 4)%coqR.
  by rewrite /reg_mean /given_mean EA !big_ord_recl !big_ord0 !mxE eqxx mulr1n /average /=; toR; field.
have RV : (reg_var R0 (fun a b => a * b)%coqR [:: R1] [:: 3 / 16]%coqR R1 + average [:: 3 / 16]%coqR = 3 / 19 + 3 / 16)%coqR.
  by rewrite /reg_var /given_cov EA !big_ord_recl !big_ord0 !mxE eqxx mulr1n /average /=; toR; field.
have [A1 _] := Q1 1%nat (fun _ => R1) 0 ord0; have [A2 V2] := Q2 1%nat (fun _ => R1) 0 ord0.
split=> //; split; [|split; [|split=> //]].
- by rewrite A1 [reg_mean _ _ _ _ _ _ _]RM; field.
- by rewrite A2 [reg_mean _ _ _ _ _ _ _]RM.
rewrite V2 [X in (X + _)%coqR]RV /=; field.
Qed.
Print Assumptions default_regression_refuted.
