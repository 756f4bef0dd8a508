(** The whole object after any history of updates: C154. *)
From Coq Require Import Reals Lra List ZArith Lia.
From mathcomp Require Import all_ssreflect all_algebra.
From Verif Require Import Model.Prelude Model.GPState Model.Likelihood Model.Solvers Model.Posterior Model.LifeCycle.
From Verif Require Import Proofs.RealMx Spec.CholSpec Spec.SolversSpec Spec.GPStateSpec Spec.LifeCycleSpec Spec.KernelSpec Spec.LikelihoodSpec Spec.PosteriorSpec.
From Verif Require Import Proofs.GPStateP Proofs.LifeEntryP Proofs.CholP Proofs.PosDef Proofs.SolversP Proofs.PosteriorP Proofs.LifeCycleP Props.SolversProps Props.PosteriorProps.
Set Implicit Arguments.
Unset Strict Implicit.
Unset Printing Implicit Defensive.
Import Order.TTheory GRing.Theory Num.Theory.
Local Open Scope ring_scope.

Section Life.
Variables P H : Type.
Variables (p0 : P) (k : P -> P -> H -> R) (mu : option (P -> H -> R)) (nz : noise_choice P H) (favg defnoise : list R -> R).
Variable cho_factor np_inv : forall n, 'M[R]_n -> option 'M[R]_n.
Variable LUt : nat -> Type.
Variable splu : forall n, 'M[R]_n -> option (LUt n).
Variable lu_solve : forall n k, LUt n -> 'M[R]_(n, k) -> 'M[R]_(n, k).
Variable lu_diag : forall n, LUt n -> 'rV[R]_n.
Variable iterate : smode -> forall n k, 'M[R]_n -> 'M[R]_(n, k) -> 'M[R]_(n, k).
Variable estimate : nat -> forall n, 'M[R]_n -> R * option R.
Variable Obj : nat -> Type.
Variable c_factor : forall n, 'M[R]_n -> Obj n.
Variable c_solve : forall n k, Obj n -> 'M[R]_(n, k) -> 'M[R]_(n, k).
Variable c_logdet : forall n, Obj n -> R.
Variable mode : smode.
Hypothesis CC : @chol_contract R_rcfType cho_factor.
Hypothesis CI : @inv_contract R_rcfType np_inv.
Hypothesis CL : @lu_contract R_rcfType LUt splu lu_solve lu_diag.
Hypothesis CU : @custom_contract R_rcfType R_zmodType lnabs Obj c_factor c_solve c_logdet.
Hypothesis NS : symmetric_noise nz.
(** the covariance function is valid for all hyperparameters *)
Hypothesis VK : forall h, valid_covariance (fun a b => k a b h).

Notation lbuild := (l_build k mu nz favg defnoise cho_factor np_inv splu lu_solve lu_diag iterate estimate c_factor c_solve c_logdet mode).
Notation lstep := (l_step k mu nz favg defnoise cho_factor np_inv splu lu_solve lu_diag iterate estimate c_factor c_solve c_logdet mode).
Notation lsteps := (l_steps k mu nz favg defnoise cho_factor np_inv splu lu_solve lu_diag iterate estimate c_factor c_solve c_logdet mode).
Notation lmean := (l_mean k mu favg p0).
Notation lcov := (l_cov k lu_solve iterate c_solve mode p0).
Notation noisemx := (obs_noise p0 nz defnoise).
Notation LInv := (LInv p0 k mu nz favg defnoise cho_factor np_inv splu lu_solve lu_diag iterate estimate c_factor c_solve c_logdet mode).

Lemma KS x y h : k x y h = k y x h. Proof. by have [S _] := VK h; exact: S. Qed.

(** the covariance of all observations *)
Definition obs_cov (d : @dataset P R H) : 'M[R]_(length (ds_x d)) :=
  gram (fun a b => k a b (ds_h d)) (points p0 (d:=d)) (points p0 (d:=d)) + noisemx d.

Lemma obs_noise_sym d : (noisemx d)^T = noisemx d.
Proof.
apply/matrixP=> i j; rewrite !mxE /noise_entry; move: NS; rewrite /symmetric_noise; case: (nz) => [_|_|nu _|nu S]; last exact: S.
all: by rewrite Nat.eqb_sym; case: Nat.eqb_spec => // ->.
Qed.
Lemma resid_eq (t : life P H LUt Obj) : LInv t ->
  resid (l_gp t) = targets (stored t) - mean_vec (prior_mean favg mu (stored t)) (points p0 (d:=stored t)).
Proof.
move=> [[I1 _] _]; apply/colP=> i; rewrite !mxE I1; congr (_ - _).
rewrite /mean_of /mean_call /prior_mean /points; have Hi : lt i (length (xd (l_gp t))) by apply/ssrnat.ltP.
by case: (mu) => [f|] /=; rewrite (nth_map _ _ _ _ _ p0).
Qed.

Lemma obs_accepts d : posdef (noisemx d) -> accepts (R:=R_rcfType) mode (\matrix_(i, j) entry_of p0 k nz defnoise d i j : 'M[R]_(length (ds_x d))).
Proof.
move=> PN; have -> : (\matrix_(i, j) entry_of p0 k nz defnoise d i j) = obs_cov d by apply/matrixP=> i j; rewrite !mxE.
have Vk := VK (ds_h d).
have SA := @KV_sym _ _ _ (points p0 (d:=d)) (NFull (noisemx d)) Vk (obs_noise_sym d).
have PA := @KV_pd _ _ _ (points p0 (d:=d)) (NFull (noisemx d)) Vk PN.
by case: mode => //=; exact: posdef_unit SA PA.
Qed.

(** what every read of a consistent object returns *)
Lemma reads (t : life P H LUt Obj) : LInv t -> exact_mode mode -> let d := stored t in
  posdef (noisemx d) ->
  let kh := fun a b => k a b (ds_h d) in let x := points p0 (d:=d) in
  let m := prior_mean favg mu d in let A := obs_cov d in
  l_loglik t = log_gauss (targets d) (mean_vec m x) A /\
  forall q (xp : 'I_q -> P) (garbage : 'M[R]_q),
    let S := gram kh xp xp - gram kh xp x *m invmx A *m gram kh x xp in
    [/\ lmean t xp = mean_vec m xp + gram kh xp x *m invmx A *m (targets d - mean_vec m x),
        forall vo, (lcov t garbage xp vo).1 = \col_i S i i /\ (forall S', (lcov t garbage xp vo).2 = Some S' -> S' = S),
        (lcov t garbage xp false).2 = Some S &
        forall f : 'cV[R]_q, 0 < \det S ->
          log_gauss (col_mx (targets d) f) (col_mx (mean_vec m x) (mean_vec m xp)) (block_mx A (gram kh x xp) (gram kh xp x) (gram kh xp xp))
          = l_loglik t + log_gauss f (lmean t xp) S].
Proof.
move=> I EM d PN kh x m A.
have SV := obs_noise_sym d; have Vk : valid_covariance kh := VK _.
have EA : (\matrix_(i, j) (k (List.nth i (ds_x d) p0) (List.nth j (ds_x d) p0) (ds_h d) + noise_entry p0 nz defnoise d i j)) = A.
  by apply/matrixP=> i j; rewrite !mxE.
have SA : A^T = A by exact: (@KV_sym _ kh _ x (NFull (noisemx d)) Vk SV).
have PA : posdef A by exact: (@KV_pd _ kh _ x (NFull (noisemx d)) Vk PN).
have UA := posdef_unit SA PA; have dA := posdef_det SA PA.
have [|_ EY EL ES EI] := kv_exact CC CI CL CU I EM; first by rewrite EA.
rewrite EA in EY EL ES EI; have ER := resid_eq I; rewrite -/d -/m -/x in ER.
have LL : l_loglik t = log_gauss (targets d) (mean_vec m x) A.
  rewrite /l_loglik EY EL ER /log_gauss /neg_log_gauss mulNr; congr (- (_ * (_ + _ + _))).
    by rewrite -mulmxA [RHS]mxE; apply: eq_bigr => i _; rewrite [X in _ = X * _]mxE.
  by rewrite /lnabs gtr0_norm // Rabs_pos_eq //; apply: Rlt_le; apply/RltP.
split=> // q xp garbage S.
have EM' : lmean t xp = mean_vec m xp + gram kh xp x *m invmx A *m (targets d - mean_vec m x).
  apply/colP=> i; rewrite [LHS]mxE [RHS]mxE [X in _ = X + _]mxE EY ER mulmxA.
  by congr (_ + (_ *m _ *m _) _ _); exact: (gram_sym x xp Vk).
have HP K : cross_solve_product (fun m (b : 'M[R]_(length (ds_x d), m)) => solve lu_solve iterate c_solve mode (v_factor (l_kv t)) b) None false Z0 garbage K = K^T *m invmx A *m K.
  by apply: cross_solve_l => m' M; exact: ES.
have EC vo := @posterior_covariance_exact _ kh _ x (NFull (noisemx d)) (fun q _ => NDiag 0) 1 q xp (stored_inverse t) _ vo Vk SV PN EI HP.
have C1 vo : lcov t garbage xp vo = (\col_i S i i, if (stored_inverse t != None) && vo && (1 == 1)%N then None else Some S) by exact: EC.
split=> //.
- by move=> vo; rewrite C1 /=; split=> // S'; case: ifP => // _ [].
- by rewrite C1 /= andbF.
move=> f dS; rewrite LL EM' -(gram_sym x xp Vk) log_gauss_cond //.
  by congr (_ + log_gauss _ _ _); rewrite ?mulmxA // /S -(gram_sym x xp Vk).
by move: dS; rewrite /S -(gram_sym x xp Vk).
Qed.

(** C154: after any history of appends (with and without rank-n updates), overwrites and hyperparameter changes, in every exact
    solver mode, the object holds the data and hyperparameters of the history, log_likelihood() is the Gaussian log density of
    the observations, and posterior_mean and posterior_covariance are mean and covariance of the conditional distribution:
    the joint density of observations and predictions is the product of the two *)
Theorem end_to_end : forall x y nv h t0 os t,
  lbuild x y nv h = Some t0 -> lsteps t0 os = Some t ->
  (nz = @Measured P H -> length nv = length x /\ forall o, In o os -> aligned o) ->
  (forall o, In o os -> ~ moving_noise nz o) -> exact_mode mode ->
  let d := stored t in
  d = history (DS x y nv h) os /\
  (posdef (noisemx d) ->
   let kh := fun a b => k a b (ds_h d) in let x := points p0 (d:=d) in
   let m := prior_mean favg mu d in let A := obs_cov d in
   l_loglik t = log_gauss (targets d) (mean_vec m x) A /\
   forall q (xp : 'I_q -> P) (garbage : 'M[R]_q),
     let S := gram kh xp xp - gram kh xp x *m invmx A *m gram kh x xp in
     [/\ lmean t xp = mean_vec m xp + gram kh xp x *m invmx A *m (targets d - mean_vec m x),
         forall vo, (lcov t garbage xp vo).1 = \col_i S i i /\ (forall S', (lcov t garbage xp vo).2 = Some S' -> S' = S),
         (lcov t garbage xp false).2 = Some S &
         forall f : 'cV[R]_q, 0 < \det S ->
           log_gauss (col_mx (targets d) f) (col_mx (mean_vec m x) (mean_vec m xp)) (block_mx A (gram kh x xp) (gram kh xp x) (gram kh xp xp))
           = l_loglik t + log_gauss f (lmean t xp) S]).
Proof.
move=> x y nv h t0 os t B E Al Mv EM d.
have [I0 S0] := build_inv p0 KS NS (fun e => proj1 (Al e)) B.
have [I S1] := steps_ok KS NS I0 (fun e => proj2 (Al e)) Mv E.
by split; [rewrite /d S1 S0|exact: reads].
Qed.

(** and no update fails as long as the noise of the data it leads to is positive definite *)
Theorem updates_succeed : 
  (forall x y nv h, (nz = @Measured P H -> length nv = length x) -> posdef (noisemx (DS x y nv h)) ->
     exists t, lbuild x y nv h = Some t) /\
  (forall x y nv h t0 os t o,
     lbuild x y nv h = Some t0 -> lsteps t0 os = Some t ->
     (nz = @Measured P H -> length nv = length x /\ forall o, In o os -> aligned o) ->
     (forall o, In o os -> ~ moving_noise nz o) ->
     (nz = @Measured P H -> aligned o) -> ~ moving_noise nz o -> posdef (noisemx (ds_step (stored t) o)) ->
     exists t', lstep t o = Some t').
Proof.
split=> [x y nv h L PN|x y nv h t0 os t o B E Al Mv Alo Mvo PN].
- exact: (build_total mu favg iterate estimate c_factor c_solve c_logdet CC CI CL KS NS L (obs_accepts PN)).
have [I0 S0] := build_inv p0 KS NS (fun e => proj1 (Al e)) B.
have [I S1] := steps_ok KS NS I0 (fun e => proj2 (Al e)) Mv E.
exact: (step_total CC CI CL KS NS I Alo Mvo (obs_accepts PN)).
Qed.
End Life.
Print Assumptions end_to_end.
Print Assumptions updates_succeed.

(** example: the kernel x*y, mean zero, one observation 2 at 1 with variance 1, then a rank-n append of the observation 4 at
    the same place; whatever the mode, the prediction at 1 is 2 with variance 1/3 *)
Definition idR_sol := @my_sol R_rcfType.
Definition linh (a b : R) (_ : unit) : R := lin a b.
Notation ex_build mode it est := (l_build linh (Some (fun _ _ => R0)) (@Measured R unit) (fun _ => R0) (fun _ => R0)
  (@my_cho R_rcfType) (@my_inv R_rcfType) (LUt := fun n => 'M[R]_n) (@my_lu R_rcfType) idR_sol (@my_diag R_rcfType) it est
  (Obj := fun n => 'M[R]_n) (fun n A => A) idR_sol (@my_logdet R_rcfType R_zmodType lnabs) mode).
Notation ex_steps mode it est := (l_steps linh (Some (fun _ _ => R0)) (@Measured R unit) (fun _ => R0) (fun _ => R0)
  (@my_cho R_rcfType) (@my_inv R_rcfType) (LUt := fun n => 'M[R]_n) (@my_lu R_rcfType) idR_sol (@my_diag R_rcfType) it est
  (Obj := fun n => 'M[R]_n) (fun n A => A) idR_sol (@my_logdet R_rcfType R_zmodType lnabs) mode).
Lemma linh_valid (h : unit) : valid_covariance (fun a b => linh a b h). Proof. exact: lin_valid. Qed.
Lemma two_points : let A : 'M[R]_2 := \matrix_(i, j) (if i == j then 2 else 1)%coqR in
  let g : 'rV[R]_2 := const_mx 1 in let r : 'cV[R]_2 := \col_i (if i == O :> nat then 2%coqR else 4%coqR) in
  (g *m (invmx A *m r)) 0 0 = 2%coqR /\ (g *m invmx A *m g^T) 0 0 = (2 / 3)%coqR.
Proof.
move=> A g r; pose B : 'M[R]_2 := \matrix_(i, j) (if i == j then 2 / 3 else - / 3)%coqR.
have AB : A *m B = 1%:M.
  apply/matrixP=> i j; rewrite mxE big_ord_recl big_ord1 !mxE.
  case: i => [[|[|]]] // ?; case: j => [[|[|]]] // ?; rewrite -!val_eqE /= ?mulr1n ?mulr0n; toR; try field.
have [U _] := mulmx1_unit AB.
have -> : invmx A = B by rewrite -[B](mulKmx U) AB mulmx1.
split; rewrite mxE big_ord_recl big_ord1 !mxE !big_ord_recl !big_ord0 !mxE /=; toR; field.
Qed.
Example end_to_end_ex mode it est : exact_mode mode ->
  exists t0 t, ex_build mode it est [1%coqR] [2%coqR] [1%coqR] tt = Some t0 /\
    ex_steps mode it est t0 [GAppend true [1%coqR] [4%coqR] [1%coqR]] = Some t /\
    l_mean linh (Some (fun _ _ => R0)) (fun _ => R0) R0 t (fun _ : 'I_1 => 1%coqR) 0 0 = 2%coqR /\
    (l_cov linh idR_sol it idR_sol mode R0 t 0 (fun _ : 'I_1 => 1%coqR) true).1 0 0 = (1 / 3)%coqR.
Proof.
move=> EM; have [CC [CI [CL CU]]] := contracts_possible (lnabs : R_rcfType -> R_zmodType).
have NS : symmetric_noise (@Measured R unit) by [].
have PD (d : @dataset R R unit) : (forall i, lt i (length (ds_x d)) -> List.nth i (ds_nv d) R0 = 1%coqR) ->
    posdef (obs_noise R0 (@Measured R unit) (fun _ => R0) d).
  move=> D; have -> : obs_noise R0 (@Measured R unit) (fun _ => R0) d = 1%:M.
    apply/matrixP=> i j; rewrite !mxE /noise_entry -val_eqE /=; have := D i; case: Nat.eqb_spec => [->|N] Di.
      by rewrite eqxx D //; apply/ssrnat.ltP.
    by case: eqP.
  by move=> x x0; rewrite mulmx1; exact: quad_gt0.
have [B S] := @updates_succeed R unit R0 linh (Some (fun _ _ => R0)) (@Measured R unit) (fun _ => R0) (fun _ => R0)
  _ _ _ _ _ _ it est (fun n => 'M[R]_n) (fun n A => A) idR_sol (@my_logdet R_rcfType R_zmodType lnabs) mode CC CI CL NS linh_valid.
pose proof (@end_to_end R unit R0 linh (Some (fun _ _ => R0)) (@Measured R unit) (fun _ => R0) (fun _ => R0)
  _ _ _ _ _ _ it est _ _ _ _ mode CC CI CL CU NS linh_valid) as EE.
have NM o : ~ moving_noise (@Measured R unit) o by [].
have [|t0 E0] := B [1%coqR] [2%coqR] [1%coqR] tt (fun=> erefl).
  by apply: PD => -[|i] //= L; exfalso; lia.
have A0 : (@Measured R unit = @Measured R unit -> length [1%coqR] = length [1%coqR] /\ forall o : @gop R R unit, In o [] -> aligned o) by [].
have [Ed _] := EE _ _ _ _ _ [] t0 E0 erefl A0 (fun o _ => NM o) EM.
set o := GAppend true [1%coqR] [4%coqR] [1%coqR] : @gop R R unit.
have [|t Et] := S _ _ _ _ _ [] t0 o E0 erefl A0 (fun o _ => NM o) (fun=> erefl) (NM o).
  by apply: PD; rewrite Ed => -[|[|i]] //= L; exfalso; lia.
have Es : ex_steps mode it est t0 [o] = Some t by rewrite /= Et.
have A1 : (@Measured R unit = @Measured R unit -> length [1%coqR] = length [1%coqR] /\ forall o' : @gop R R unit, In o' [o] -> aligned o').
  by move=> _; split=> // o' [<-|[]].
exists t0, t; split=> //; split=> //.
have [Dt Q] := EE _ _ _ _ _ [o] t E0 Es A1 (fun o _ => NM o) EM.
move: (stored t) Dt Q => d Dt; subst d => Q.
have [|_ /(_ 1%N (fun=> 1%coqR) 0) [-> /(_ true) [-> _] _ _]] := Q.
  by apply: PD => -[|[|i]] //= L; exfalso; lia.
have [T1 T2] := two_points; set A := obs_cov _ _ _ _ _; rewrite -mulmxA.
have EA : A = \matrix_(i, j) (if i == j then 2 else 1)%coqR.
  apply/matrixP=> i j; rewrite !mxE /noise_entry /linh /lin /points.
  by case: i => [[|[|]]] //= ?; case: j => [[|[|]]] //= ?; toR; ring.
rewrite EA; set x := points R0 (d := _).
have EG : gram (fun a b => linh a b tt) (fun _ : 'I_1 => 1%coqR) x = const_mx 1.
  by apply/matrixP=> i j; rewrite !mxE /x /linh /lin /points; case: j => [[|[|]]] //= ?; toR; ring.
have EG' : gram (fun a b => linh a b tt) x (fun _ : 'I_1 => 1%coqR) = (const_mx 1 : 'rV[R]_2)^T.
  by apply/matrixP=> i j; rewrite !mxE /x /linh /lin /points; case: i => [[|[|]]] //= ?; toR; ring.
set r := targets _ - _.
have Er : r = \col_i (if i == O :> nat then 2%coqR else 4%coqR).
  by apply/colP=> i; rewrite !mxE /prior_mean; case: i => [[|[|]]] //= ?; toR; ring.
rewrite Er mxE EG EG' [X in X + _]mxE; split; first by rewrite -[RHS]T1 /= -[R0]/(0 : R) add0r.
rewrite mxE mxE [X in X + _]mxE.
have -> : (1 / 3)%coqR = linh 1 1 tt - (2 / 3)%coqR by rewrite /linh /lin; toR; field.
by rewrite -T2 [X in _ + X]mxE.
Qed.
