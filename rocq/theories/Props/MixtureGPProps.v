(** A GGMP from its station densities to its predictions: C200. *)
From Coq Require Import Reals Lra List ZArith Lia.
From mathcomp Require Import all_ssreflect all_algebra.
From Verif Require Import Model.Prelude Model.GPState Model.Likelihood Model.Solvers Model.Posterior Model.LifeCycle Model.GGMPDensity Model.MixtureInit Model.MixtureGP.
From Verif Require Import Proofs.RealMx Spec.Sums Spec.CholSpec Spec.SolversSpec Spec.GPStateSpec Spec.LifeCycleSpec Spec.KernelSpec Spec.LikelihoodSpec Spec.PosteriorSpec Spec.MultiGPSpec.
From Verif Require Import Spec.GGMPDensitySpec Spec.MixtureInitSpec Spec.MixtureGPSpec Proofs.PosDef Proofs.PosteriorP Props.PosteriorProps Props.LifeCycleProps Props.GGMPDensityProps Props.MixtureInitProps.
Set Implicit Arguments.
Unset Strict Implicit.
Unset Printing Implicit Defensive.
Import Order.TTheory GRing.Theory Num.Theory.
Local Open Scope ring_scope.

Section Mixture.
Variable P : Type.
Notation H := (list R).
Variables (p0 : P) (kf : nat -> P -> P -> H -> R) (mf : nat -> option (P -> H -> R)) (defnoise : list R -> R).
Variable cho_factor np_inv : forall n, 'M[R]_n -> option 'M[R]_n.
Variable LUt : nat -> Type.
Variable splu : forall n, 'M[R]_n -> option (LUt n).
Variable lu_solve : forall n k, LUt n -> 'M[R]_(n, k) -> 'M[R]_(n, k).
Variable lu_diag : forall n, LUt n -> 'rV[R]_n.
Variable iterate : smode -> forall n k, 'M[R]_n -> 'M[R]_(n, k) -> 'M[R]_(n, k).
Variable estimate : nat -> forall n, 'M[R]_n -> R * option R.
Variable Obj : nat -> Type.
Variable c_factor : forall n, 'M[R]_n -> Obj n.
Variable c_solve : forall n k, Obj n -> 'M[R]_(n, k) -> 'M[R]_(n, k).
Variable c_logdet : forall n, Obj n -> R.
Variable mode : smode.
Hypothesis CC : @chol_contract R_rcfType cho_factor.
Hypothesis CI : @inv_contract R_rcfType np_inv.
Hypothesis CL : @lu_contract R_rcfType LUt splu lu_solve lu_diag.
Hypothesis CU : @custom_contract R_rcfType R_zmodType lnabs Obj c_factor c_solve c_logdet.
(** the covariance functions are valid for all hyperparameters *)
Hypothesis VK : forall k h, valid_covariance (fun a b => kf k a b h).

Notation nz := (@Measured P H).
Notation lbuild k := (l_build (kf k) (mf k) nz GGMPDensity.mean defnoise cho_factor np_inv splu lu_solve lu_diag iterate estimate c_factor c_solve c_logdet mode).
Notation lstep k := (l_step (kf k) (mf k) nz GGMPDensity.mean defnoise cho_factor np_inv splu lu_solve lu_diag iterate estimate c_factor c_solve c_logdet mode).
Notation lsteps k := (l_steps (kf k) (mf k) nz GGMPDensity.mean defnoise cho_factor np_inv splu lu_solve lu_diag iterate estimate c_factor c_solve c_logdet mode).
Notation initgps := (init_gps kf mf defnoise cho_factor np_inv splu lu_solve lu_diag iterate estimate c_factor c_solve c_logdet mode).
Notation makegps := (make_gps kf mf defnoise cho_factor np_inv splu lu_solve lu_diag iterate estimate c_factor c_solve c_logdet mode).
Notation xrun := (x_run kf mf defnoise cho_factor np_inv splu lu_solve lu_diag iterate estimate c_factor c_solve c_logdet mode).
Notation xnext := (x_next kf mf defnoise cho_factor np_inv splu lu_solve lu_diag iterate estimate c_factor c_solve c_logdet mode).
Notation xmean := (x_mean kf mf p0).
Notation xvar := (x_var kf mf lu_solve iterate c_solve mode p0).
Notation lifet := (life P H LUt Obj).

(** ** lists *)
Lemma nth_set_at {A} (l : list A) : forall k j (a : A), List.nth_error (set_at l k a) j =
  (if Nat.eqb k j then (if List.nth_error l j is Some _ then Some a else None) else List.nth_error l j).
Proof. by elim: l => [|b l IH] [|k] [|j] a //=; try exact: IH; case: (Nat.eqb k j). Qed.
Lemma length_set_at {A} (l : list A) : forall k (a : A), length (set_at l k a) = length l.
Proof. by elim: l => [|b l IH] [|k] a //=; rewrite IH. Qed.
Lemma removelast_firstn (h : list R) : List.removelast h = List.firstn (length h - 1) h.
Proof.
elim: h => [|a [|b h] IH] //; rewrite -[List.removelast (a :: b :: h)]/(a :: List.removelast (b :: h)) IH.
by rewrite !subn1.
Qed.

(** ** construction *)
Lemma accepted_ok (x : list P) c : accepted x c -> [/\ length (lk_mean c) = length x, length (lk_var c) = length x & forall v, List.In v (lk_var c) -> (0 < v)%coqR].
Proof.
case/and3P=> /Nat.eqb_eq A /Nat.eqb_eq B /List.forallb_forall C; split=> // v Hv.
by have := C v Hv; case: (Rlt_dec R0 v).
Qed.
Lemma accepted_intro (x : list P) c : length (lk_mean c) = length x -> length (lk_var c) = length x -> (forall v, List.In v (lk_var c) -> (0 < v)%coqR) -> accepted x c.
Proof.
move=> A B C; apply/and3P; split; [by apply/Nat.eqb_eq|by apply/Nat.eqb_eq|apply/List.forallb_forall => v Hv].
by case: (Rlt_dec R0 v) (C v Hv).
Qed.
Lemma make_gps_ok (x : list P) : forall cs k hs gs, makegps x k cs hs = Some gs ->
  length gs = length cs /\ forall j c, List.nth_error cs j = Some c -> exists h g, [/\ List.nth_error hs j = Some h, List.nth_error gs j = Some g,
    accepted x c, h <> [::] & lbuild (k + j)%coq_nat x (lk_mean c) (lk_var c) (recentred h (lk_mean c)) = Some g].
Proof.
elim=> [|c cs IH] k [|h hs] gs //=; try by [case=> <-; split=> // -[|j]].
case C: (component_gp _ _ _ _ _ _ _ _ _ _ _ _ _ _ _ _ _ _) => [g|] //; case M: (makegps _ _ _ _) => [gs'|] //= [<-].
have [L J] := IH _ _ _ M; split; first by rewrite /= L.
case=> [|j] c' /=; last by move=> Hj; have [h' [g' Q]] := J j c' Hj; exists h', g'; have -> : (k + j.+1 = k.+1 + j)%coq_nat by lia.
case=> <-; move: C; rewrite /component_gp; case A: (accepted x c) => //; rewrite /with_mean; case: h => [|a h] // E.
by exists (a :: h), g; split=> //; rewrite Nat.add_0_r /recentred -removelast_firstn.
Qed.
Lemma make_gps_total (x : list P) : forall cs k hs, (length cs <= length hs)%coq_nat ->
  (forall j c, List.nth_error cs j = Some c -> accepted x c) -> (forall h, List.In h hs -> h <> [::]) ->
  (forall j c h, List.nth_error cs j = Some c -> exists g, lbuild (k + j)%coq_nat x (lk_mean c) (lk_var c) h = Some g) -> exists gs, makegps x k cs hs = Some gs.
Proof.
elim=> [|c cs IH] k hs L A N B; first by exists [::].
case: hs L N => [|h hs] /= L N; first by lia.
have [gs E] : exists gs, makegps x k.+1 cs hs = Some gs.
  apply: IH; [by apply/le_S_n|by move=> j c' Hj; exact: (A j.+1 c' Hj)|by move=> h' Hh; exact: (N h' (or_intror Hh))|].
  by move=> j c' h' Hj; have := B j.+1 c' h' Hj; rewrite Nat.add_succ_r.
rewrite /component_gp (A 0%nat c erefl) /with_mean; case: h N => [|a h] N; first by case: (N [::] (or_introl erefl)).
by have [g Eg] := B 0%nat c (List.removelast (a :: h) ++ [:: GGMPDensity.mean (lk_mean c)])%list erefl; rewrite Nat.add_0_r in Eg; rewrite Eg E; eexists.
Qed.

(** ** training *)
Definition hops (k : nat) (os : list xop) : list (@gop P R H) :=
  List.flat_map (fun o => if o is XHps j h then (if Nat.eqb j k then [:: @GSetHps P R H h] else [::]) else [::]) os.
Lemma hops_history k os : forall x y nv h, history (DS x y nv h) (hops k os) = DS x y nv (last_hps k h os).
Proof.
elim: os => [|[j h'|w] os IH] x y nv h; first by [].
- rewrite /hops /last_hps /= -/(hops k os); case: (Nat.eqb j k); exact: IH.
- exact: IH.
Qed.
Lemma hops_set k os o : List.In o (hops k os) -> exists h, o = @GSetHps P R H h.
Proof. by case/List.in_flat_map => -[j h|w] [_] //=; case: (Nat.eqb j k) => //= -[<-|[]]; exists h. Qed.
Lemma set_weights_ok l w l' : set_weights l w = Some l' ->
  [/\ List.map lk_mean l' = List.map lk_mean l, List.map lk_var l' = List.map lk_var l & List.map lk_weight l' = w].
Proof.
rewrite /set_weights; case: Nat.eqb_spec => // L [<-]; elim: l w L => [|c l IH] [|a w] //= [L].
by have [A B C] := IH w L; rewrite A B C.
Qed.
Lemma run_ok os : forall t t', xrun t os = Some t' ->
  [/\ List.map lk_mean (x_liks t') = List.map lk_mean (x_liks t), List.map lk_var (x_liks t') = List.map lk_var (x_liks t),
      List.map lk_weight (x_liks t') = last_weights (List.map lk_weight (x_liks t)) os, length (x_gps t') = length (x_gps t) &
      forall k g, List.nth_error (x_gps t) k = Some g -> exists g', List.nth_error (x_gps t') k = Some g' /\ lsteps k g (hops k os) = Some g'].
Proof.
elim: os => [|o os IH] t t' /=; first by case=> <-; split=> // k g Hg; exists g.
case E: (xnext t o) => [t1|] // R1; have [A B C D F] := IH _ _ R1.
case: o E => [j h|w] /=; last first.
  case S1: (set_weights _ _) => [l|] //= [Et]; have [A1 B1 C1] := set_weights_ok S1; rewrite -Et /= in A B C D F.
  by split; [rewrite A|rewrite B|rewrite C C1|by []|by []].
case G: (List.nth_error (x_gps t) j) => [g0|] //; case L: (lstep j g0 _) => [g1|] // [Et]; rewrite -Et /= in A B C D F.
split=> //; first by rewrite D length_set_at.
move=> k g Hg; have := F k; rewrite nth_set_at Hg; case: Nat.eqb_spec => [Ej|Nj] {}F; last exact: F.
have [g' [N' S']] := F _ erefl; exists g'; split=> //=; rewrite /hops /= -/(hops k os); subst k.
by move: Hg; rewrite G => -[<-]; rewrite L.
Qed.

(** ** what a component predicts *)
Lemma given_mean_flat q (xp : 'I_q -> P) n (x : 'I_n -> P) (kh : P -> P -> R) m (A : 'M[R]_n) y i :
  (mean_vec m xp + gram kh xp x *m invmx A *m (y - mean_vec m x)) i 0 = given_mean kh m x A y (xp i).
Proof.
rewrite !mxE /given_mean; congr (_ + _); rewrite exchange_big; apply: eq_bigr => j _; rewrite !mxE mulr_suml.
by apply: eq_bigr => l _; rewrite !mxE.
Qed.
Lemma given_cov_flat q (xp : 'I_q -> P) n (x : 'I_n -> P) (kh : P -> P -> R) (A : 'M[R]_n) i j :
  (gram kh xp xp - gram kh xp x *m invmx A *m gram kh x xp) i j = given_cov kh x A (xp i) (xp j).
Proof.
rewrite !mxE /given_cov; congr (_ - _); rewrite exchange_big; apply: eq_bigr => l _; rewrite !mxE mulr_suml.
by apply: eq_bigr => l' _; rewrite !mxE.
Qed.
Lemma noise_pd (d : @dataset P R H) : length (ds_nv d) = length (ds_x d) -> (forall v, List.In v (ds_nv d) -> (0 < v)%coqR) -> posdef (obs_noise p0 nz defnoise d).
Proof.
move=> L Pv; have -> : obs_noise p0 nz defnoise d = diag_mx (\row_i List.nth i (ds_nv d) R0).
  apply/matrixP=> i j; rewrite !mxE /noise_entry -val_eqE /=; case: Nat.eqb_spec => [->|N]; first by rewrite eqxx.
  by case: eqP.
apply: posdef_diagmx => i; rewrite mxE; apply/RltP; apply: Pv; apply: List.nth_In; rewrite L; exact/ssrnat.ltP.
Qed.

Lemma component_reads k (x : list P) c h os g g' : exact_mode mode -> accepted x c ->
  lbuild k x (lk_mean c) (lk_var c) h = Some g -> lsteps k g (hops k os) = Some g' ->
  let d := DS x (lk_mean c) (lk_var c) (last_hps k h os) in
  stored g' = d /\
  forall q (xp : 'I_q -> P) garbage i,
    let kh := fun a b => kf k a b (ds_h d) in let X := LifeCycleSpec.points p0 (d:=d) in
    let m := prior_mean GGMPDensity.mean (mf k) d in let A := gram kh X X + obs_noise p0 nz defnoise d in
    l_mean (kf k) (mf k) GGMPDensity.mean p0 g' xp i 0 = given_mean kh m X A (targets d) (xp i) /\
    (l_cov (kf k) lu_solve iterate c_solve mode p0 g' garbage xp true).1 i 0 = given_cov kh X A (xp i) (xp i).
Proof.
move=> EM /accepted_ok [L1 L2 Pv] B St d.
have Al : nz = @Measured P H -> length (lk_var c) = length x /\ forall o, List.In o (hops k os) -> aligned o.
  by move=> _; split=> // o /hops_set [h' ->].
have Mv o : List.In o (hops k os) -> ~ moving_noise nz o by move=> _ [].
have [Ed] := @end_to_end P H p0 (kf k) (mf k) nz GGMPDensity.mean defnoise _ _ _ _ _ _ iterate estimate _ _ _ _ mode CC CI CL CU I (VK k) _ _ _ _ _ _ _ B St Al Mv EM.
rewrite Ed hops_history -/d => Q; split; first by [].
have [|_ {}Q] := Q; first exact: noise_pd.
move=> q xp garbage i kh X m A; have [M V _ _] := Q q xp garbage.
by rewrite M given_mean_flat; split=> //; have [-> _] := V true; rewrite mxE given_cov_flat.
Qed.

Lemma state_ok x liks hs t0 os t : initgps x liks hs = Some t0 -> xrun t0 os = Some t ->
  [/\ x_liks t0 = liks, length (x_liks t) = length liks, List.map lk_weight (x_liks t) = last_weights (List.map lk_weight liks) os &
   forall k c, List.nth_error liks k = Some c -> exists h g0 g c', [/\ List.nth_error hs k = Some h,
     List.nth_error (x_gps t) k = Some g, List.nth_error (x_liks t) k = Some c', lk_var c' = lk_var c &
     [/\ accepted x c, lbuild k x (lk_mean c) (lk_var c) (recentred h (lk_mean c)) = Some g0 & lsteps k g0 (hops k os) = Some g]]].
Proof.
rewrite /init_gps; case M: (makegps _ _ _ _) => [gs|] //= [<-] R1; have [A B C D F] := run_ok R1; have [L J] := make_gps_ok M.
have LL : length (x_liks t) = length liks by rewrite -(List.map_length lk_mean) A List.map_length.
split=> // k c Hc; have [h [g0 [H1 H2 H3 H4 H5]]] := J k c Hc; have [g [G1 G2]] := F k g0 H2.
have : List.nth_error (List.map lk_var (x_liks t)) k = Some (lk_var c) by rewrite B List.nth_error_map Hc.
by rewrite List.nth_error_map; case C': (List.nth_error (x_liks t) k) => [c'|] //= [Ev]; exists h, g0, g, c'.
Qed.
Lemma lsum_nth w : lsum w = rsum (fun k => List.nth k w R0) (length w).
Proof.
rewrite -{1}(List.map_id w) (@lsum_index R id (fun k => List.nth k w R0) w 0) // => j a Hj.
by rewrite (List.nth_error_nth _ _ _ Hj).
Qed.

(** C200: with likelihood objects [liks] at the stations [x] and starting hyperparameters [hs], after any training, the prediction at
    a point is mean and variance of the mixture, in proportions of the current weights, of K normal distributions: the
    conditional distributions of the component processes given the component's means at the stations, observed with the
    component's variances, widened by their average; never below the average noise *)
Theorem mixture_end_to_end : forall x liks hs t0 os t,
  initgps x liks hs = Some t0 -> xrun t0 os = Some t -> exact_mode mode ->
  let K := length liks in let w := last_weights (List.map lk_weight liks) os in
  length w = K /\
  ((forall a, List.In a w -> 0 <= a)%coqR -> (0 < lsum w)%coqR ->
   let share k := (List.nth k w R0 / lsum w)%coqR in
   forall q (xp : 'I_q -> P) garbage i,
     let m k := comp_mean p0 kf mf x liks hs os k (xp i) in let v k := comp_var p0 kf x liks hs os k (xp i) in
     xmean t xp i = mixture_mean K share m /\
     (xvar t xp garbage i = mixture_second K share m v - mixture_mean K share m * mixture_mean K share m)%coqR /\
     (rsum (fun k => share k * (lsum (lk_var (comp liks k)) / INR (length x))) K <= xvar t xp garbage i)%coqR).
Proof.
move=> x liks hs t0 os t I0 R0' EM K w; have [_ LL EW J] := state_ok I0 R0'; rewrite -/w in EW.
have Lw : length w = K by rewrite -EW List.map_length LL.
split=> // Wp Ws share q xp garbage i m v.
have Ew k : x_weight t k = List.nth k w R0.
  rewrite /x_weight; case E: (List.nth_error (x_liks t) k) => [c|].
    by symmetry; apply: List.nth_error_nth; rewrite -EW List.nth_error_map E.
  by rewrite List.nth_overflow // -EW List.map_length; exact/List.nth_error_None.
have Es : rsum (x_weight t) K = lsum w by rewrite lsum_nth Lw; apply: rsum_ext => k _; exact: Ew.
have at_k k : (k < K)%coq_nat -> [/\ gp_mean kf mf p0 t xp i k = m k, (gp_var kf lu_solve iterate c_solve mode p0 t xp garbage i k + GGMPDensity.mean (x_noise t k) = v k)%coqR,
    (0 <= gp_var kf lu_solve iterate c_solve mode p0 t xp garbage i k)%coqR & GGMPDensity.mean (x_noise t k) = (lsum (lk_var (comp liks k)) / INR (length x))%coqR].
  move=> Hk; case Hc: (List.nth_error liks k) => [c|]; last by move/List.nth_error_None: Hc; rewrite -/K; lia.
  have [h [g0 [g [c' [H1 H2 H3 H4 [H5 H6 H7]]]]]] := J k c Hc.
  have [_ /(_ q xp garbage i) [M V]] := component_reads EM H5 H6 H7.
  have Ec : comp liks k = c by exact: List.nth_error_nth.
  have Eh : List.nth k hs [::] = h by exact: List.nth_error_nth.
  have [L1 L2 _] := accepted_ok H5.
  have En : GGMPDensity.mean (x_noise t k) = (lsum (lk_var (comp liks k)) / INR (length x))%coqR by rewrite /x_noise H3 H4 Ec /GGMPDensity.mean L2.
  set d := DS _ _ _ _ in M V.
  have Ed : comp_data x liks hs os k = d by rewrite /comp_data Ec Eh.
  have EA : gram (fun a b => kf k a b (ds_h d)) (LifeCycleSpec.points p0 (d:=d)) (LifeCycleSpec.points p0 (d:=d)) + obs_noise p0 nz defnoise d = comp_cov p0 kf x liks hs os k.
    apply/matrixP=> a b; rewrite !mxE /comp_kernel Ed Ec /LifeCycleSpec.noise_entry /=; congr (_ + _).
  have EM' : comp_mean p0 kf mf x liks hs os k (xp i) = given_mean (fun a b => kf k a b (ds_h d)) (prior_mean GGMPDensity.mean (mf k) d) (LifeCycleSpec.points p0 (d:=d)) (comp_cov p0 kf x liks hs os k) (targets d) (xp i).
    by rewrite /comp_mean /comp_kernel /comp_prior Ed Ec.
  have EV' : comp_var p0 kf x liks hs os k (xp i) = (given_cov (fun a b => kf k a b (ds_h d)) (LifeCycleSpec.points p0 (d:=d)) (comp_cov p0 kf x liks hs os k) (xp i) (xp i) + lsum (lk_var (comp liks k)) / INR (length x))%coqR.
    by rewrite /comp_var /comp_kernel Ed.
  split=> //.
  - by rewrite /gp_mean H2 M EA /m EM'.
  - by rewrite /gp_var H2 V EA En /v EV'.
  rewrite /gp_var H2; apply/RleP; rewrite /l_cov.
  refine (proj1 (posterior_variance_nonneg _ _ _ _ _ _ _ _) i) => j.
  by rewrite /noise_mx !mxE mul0rn.
have WP : (forall k, (k < K)%coq_nat -> 0 <= x_weight t k)%coqR by move=> k Hk; rewrite Ew; apply: Wp; apply: List.nth_In; rewrite Lw.
have WS : (0 < rsum (x_weight t) K)%coqR by rewrite Es.
have [_ [E1 [E2 [E3 _]]]] := mixture_variance K (x_weight t) (gp_mean kf mf p0 t xp i) (gp_var kf lu_solve iterate c_solve mode p0 t xp garbage i) (x_noise t) WP WS.
have MM : mixture_mean K (fun k => x_weight t k / rsum (x_weight t) K)%coqR (gp_mean kf mf p0 t xp i) = mixture_mean K share m.
  by apply: rsum_ext => k Hk; have [-> _ _ _] := at_k k Hk; rewrite Ew Es.
rewrite /x_mean /x_var LL -/K; split; first by rewrite E1.
split.
- rewrite E2 MM; congr (_ - _)%coqR; apply: rsum_ext => k Hk; have [A1 A2 _ _] := at_k k Hk.
  by rewrite Ew Es A2 A1.
- apply: Rle_trans E3; apply: rsum_le => k Hk; have [_ _ A3 A4] := at_k k Hk; rewrite Ew Es A4.
  apply: Rmult_le_compat_l; last lra.
  apply: Rmult_le_pos; first by rewrite -Ew; exact: WP.
  by apply: Rlt_le; exact: Rinv_0_lt_compat.
Qed.

(** and construction succeeds for positive variances, in particular for the likelihoods made from densities, as do assignments to existing components *)
Theorem mixture_succeeds :
  (forall x liks hs, (length liks <= length hs)%coq_nat -> (forall h, List.In h hs -> h <> [::]) ->
     (forall c, List.In c liks -> length (lk_mean c) = length x /\ length (lk_var c) = length x /\ forall v, List.In v (lk_var c) -> (0 < v)%coqR) ->
     exists t, initgps x liks hs = Some t) /\
  (forall K ys x liks hs, init_likelihoods K ys None None None = Ok liks -> length ys = length x -> (K <= length hs)%coq_nat ->
     (forall h, List.In h hs -> h <> [::]) -> exists t, initgps x liks hs = Some t) /\
  (forall x liks hs t0 os t o, initgps x liks hs = Some t0 -> xrun t0 os = Some t ->
     (match o with XHps k _ => (k < length liks)%coq_nat | XWeights w => length w = length liks end) -> exists t', xnext t o = Some t').
Proof.
have build k x c h : accepted x c -> exists g, lbuild k x (lk_mean c) (lk_var c) h = Some g.
  move=> /accepted_ok [L1 L2 Pv]; have [B _] := @updates_succeed P H p0 (kf k) (mf k) nz GGMPDensity.mean defnoise _ _ _ _ _ _ iterate estimate _ c_factor c_solve c_logdet mode CC CI CL I (VK k).
  exact: (B x (lk_mean c) (lk_var c) h (fun _ => L2) (@noise_pd (DS x (lk_mean c) (lk_var c) h) L2 Pv)).
have P1 x liks hs : (length liks <= length hs)%coq_nat -> (forall h, List.In h hs -> h <> [::]) ->
     (forall c, List.In c liks -> length (lk_mean c) = length x /\ length (lk_var c) = length x /\ forall v, List.In v (lk_var c) -> (0 < v)%coqR) ->
     exists t, initgps x liks hs = Some t.
  move=> L N A; have A' j c : List.nth_error liks j = Some c -> accepted x c.
    by move=> Hj; have [A1 [A2 A3]] := A c (List.nth_error_In _ _ Hj); exact: accepted_intro.
  have [|gs E] := @make_gps_total x liks 0%nat hs L A' N; first by move=> j c h Hj; apply: build; exact: A' Hj.
  by rewrite /init_gps E; eexists.
split; first exact: P1.
split.
- move=> K ys x liks hs E Ly LK N; have [base [vars [M [L [_ [_ C]]]]]] := init_ok _ _ _ _ _ _ E; have [B1 [B2 B3]] := M.
  apply: (P1 x liks hs) => // [|c Hin]; first by rewrite L.
  have [k Hk] := List.In_nth_error _ _ Hin.
  have Lk : (k < K)%coq_nat by rewrite -L; apply/List.nth_error_Some; rewrite Hk.
  have [c' [Hc' [Em [Ev _]]]] := C k Lk; move: Hc'; rewrite Hk => -[Ec]; rewrite -Ec in Em Ev.
  rewrite Em Ev List.map_length B1 B2; do 2 split=> //; move=> v Hv; have [i [Hi <-]] := @List.In_nth _ _ _ R0 Hv.
  case Y: (List.nth_error ys i) => [[d f]|]; last by move/List.nth_error_None: Y; lia.
  have := B3 i d f Y; rewrite /station_moments; case: (gradient d) => // g.
  have lo z : (0 < Rmax z (/ 1000000))%coqR by apply: Rlt_le_trans (Rmax_r _ _); lra.
  by case: (Rle_dec _ _) => _ [_ <-]; exact: lo.
- move=> x liks hs t0 os t o I0 R1; have [_ LL EW J] := state_ok I0 R1; case: o => [k h|w] Ho /=; last first.
    by rewrite /set_weights LL Ho Nat.eqb_refl; eexists.
  case Hc: (List.nth_error liks k) => [c|]; last by move/List.nth_error_None: Hc; lia.
  have [h0 [g0 [g [c' [H1 H2 H3 H4 [H5 H6 H7]]]]]] := J k c Hc; rewrite H2; have [L1 L2 Pv] := accepted_ok H5.
  have [_ St] := @updates_succeed P H p0 (kf k) (mf k) nz GGMPDensity.mean defnoise _ _ _ _ _ _ iterate estimate _ c_factor c_solve c_logdet mode CC CI CL I (VK k).
  have Al : nz = @Measured P H -> length (lk_var c) = length x /\ forall o, List.In o (hops k os) -> aligned o by move=> _; split=> // o /hops_set [h' ->].
  have Mv o : List.In o (hops k os) -> ~ moving_noise nz o by move=> _ [].
  have [||g' E] := St _ _ _ _ _ _ _ (@GSetHps P R H h) H6 H7 Al Mv (fun _ => I); [by []| |by rewrite E; eexists].
  have KS a b h1 : kf k a b h1 = kf k b a h1 by have [Sy _] := VK k h1; exact: Sy.
  have [B0 S0] := Proofs.LifeCycleP.build_inv p0 KS (I : symmetric_noise nz) (fun e => proj1 (Al e)) H6.
  have [_ S1] := Proofs.LifeCycleP.steps_ok KS (I : symmetric_noise nz) B0 (fun e => proj2 (Al e)) Mv H7.
  by rewrite S1 S0 hops_history; exact: noise_pd.
Qed.
End Mixture.
Print Assumptions mixture_end_to_end.
Print Assumptions mixture_succeeds.

From Verif Require Import Proofs.CholP Proofs.SolversP Proofs.PosteriorEx Props.SolversProps.
(** example: kernel x*y with the default constant mean, one station at 1 with components of means 2 and 6 and variances 1; training
    assigns the mean 0 to the first component and the weights 1, 3: the components predict 1 and 6 with variance 3/2 *)
Definition linl (_ : nat) (a b : R) (_ : list R) : R := LifeCycleProps.linh a b tt.
Definition ex_liks : list lik := [:: Lik [:: 2%coqR] [:: R1] R1; Lik [:: 6%coqR] [:: R1] R1].
Definition ex_ops : list xop := [:: XHps 0 [:: R0]; XWeights [:: R1; 3%coqR]].
Notation with_mx f mode it est := (f linl (fun _ => Some (@constant_mean R)) (fun _ => R0) (@my_cho R_rcfType) (@my_inv R_rcfType) (fun n => 'M[R]_n)
  (@my_lu R_rcfType) idR_sol (@my_diag R_rcfType) it est (fun n => 'M[R]_n) (fun n A => A) idR_sol (@my_logdet R_rcfType R_zmodType lnabs) mode).
Lemma linl_valid k h : valid_covariance (fun a b => linl k a b h). Proof. exact: (linh_valid tt). Qed.
Example mixture_end_to_end_ex mode it est : exact_mode mode ->
  exists t0 t, with_mx (@init_gps R) mode it est [:: R1] ex_liks [:: [:: R0]; [:: R0]] = Some t0 /\ with_mx (@x_run R) mode it est t0 ex_ops = Some t /\
    x_mean linl (fun _ => Some (@constant_mean R)) R0 t (fun _ : 'I_1 => R1) ord0 = (19 / 4)%coqR /\
    x_var linl (fun _ => Some (@constant_mean R)) idR_sol it idR_sol mode R0 t (fun _ : 'I_1 => R1) 0 ord0 = (99 / 16)%coqR.
Proof.
move=> EM; have [CC [CI [CL CU]]] := contracts_possible (lnabs : R_rcfType -> R_zmodType).
have [S1 [_ S3]] := @mixture_succeeds R R0 linl (fun _ => Some (@constant_mean R)) (fun _ => R0) _ _ _ _ _ _ it est (fun n => 'M[R]_n) (fun n A => A) idR_sol (@my_logdet R_rcfType R_zmodType lnabs) mode CC CI CL linl_valid.
have [|h|c|t0 E0] := S1 [:: R1] ex_liks [:: [:: R0]; [:: R0]].
- by rewrite /=; lia.
- by case=> [<-|[<-|[]]].
- by case=> [<-|[<-|[]]]; do 2 split=> //; move=> v [<-|[]]; exact: Rlt_0_1.
have [|t1 E1] := S3 _ _ _ _ [::] t0 (XHps 0 [:: R0]) E0 erefl; first by rewrite /=; lia.
have R1' : with_mx (@x_run R) mode it est t0 [:: XHps 0 [:: R0]] = Some t1 by rewrite /x_run E1.
have [|t E2] := S3 _ _ _ _ _ t1 (XWeights [:: R1; 3%coqR]) E0 R1'; first by [].
have R2 : with_mx (@x_run R) mode it est t0 ex_ops = Some t by rewrite /ex_ops /x_run E1 E2.
exists t0, t; split=> //; split=> //.
have [_ Q] := @mixture_end_to_end R R0 linl (fun _ => Some (@constant_mean R)) (fun _ => R0) _ _ _ _ _ _ it est (fun n => 'M[R]_n) (fun n A => A) idR_sol (@my_logdet R_rcfType R_zmodType lnabs) mode CC CI CL CU linl_valid _ _ _ _ _ _ E0 R2 EM.
have [||Q1 [Q2 _]] := Q _ _ 1%nat (fun _ => R1) 0 ord0.
- by move=> a [<-|[<-|[]]]; lra.
- by rewrite /lsum /=; lra.
have EA k : (k < 2)%coq_nat -> invmx (comp_cov R0 linl [:: R1] ex_liks [:: [:: R0]; [:: R0]] ex_ops k) = ((/ 2)%coqR)%:M :> 'M[R]_1.
  move=> Lk; have -> : comp_cov R0 linl [:: R1] ex_liks [:: [:: R0]; [:: R0]] ex_ops k = (2%coqR)%:M :> 'M[R]_1.
    by apply/matrixP=> i j; rewrite !ord1 !mxE eqxx mulr1n /comp_kernel /linl /LifeCycleProps.linh /lin; case: k Lk => [|[|k]] Lk /=; toR; try ring; exfalso; lia.
  have AB : (2%coqR)%:M *m ((/ 2)%coqR)%:M = 1%:M :> 'M[R]_1 by rewrite -scalar_mxM (_ : 2%coqR * (/ 2)%coqR = 1 :> R) //; exact: Rinv_r (Rgt_not_eq _ _ Rlt_0_2).
  by have [U _] := mulmx1_unit AB; rewrite -[RHS](mulKmx U) AB mulmx1.
have EM0 k (Lk : (k < 2)%coq_nat) : comp_mean R0 linl (fun _ => Some (@constant_mean R)) [:: R1] ex_liks [:: [:: R0]; [:: R0]] ex_ops k R1 = (if k is 0%nat then R1 else 6)%coqR.
  rewrite /comp_mean /given_mean (EA k Lk) !big_ord_recl !big_ord0 !mxE eqxx mulr1n /comp_prior /constant_mean /comp_kernel /linl /LifeCycleProps.linh /lin.
  by case: k Lk => [|[|k]] Lk /=; rewrite ?/lsum /=; toR; try field; exfalso; lia.
have EV0 k (Lk : (k < 2)%coq_nat) : comp_var R0 linl [:: R1] ex_liks [:: [:: R0]; [:: R0]] ex_ops k R1 = (3 / 2)%coqR.
  rewrite /comp_var /given_cov (EA k Lk) !big_ord_recl !big_ord0 !mxE eqxx mulr1n /comp_kernel /linl /LifeCycleProps.linh /lin.
  by case: k Lk => [|[|k]] Lk /=; rewrite ?/lsum /=; toR; try field; exfalso; lia.
rewrite Q1 Q2 /mixture_mean /mixture_second /= !EM0 ?EV0 /lsum /=; try lia.
by split; toR; field.
Qed.
