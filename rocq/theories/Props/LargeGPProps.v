(** A GP under gp2Scale, end to end: C191. *)
From Coq Require Import Reals Lra List ZArith Lia.
From mathcomp Require Import all_ssreflect all_algebra.
From Verif Require Import Model.Prelude Model.GPState Model.Likelihood Model.Solvers Model.Posterior Model.Gp2Scale Model.LifeCycle Model.LargeGP.
From Verif Require Import Proofs.RealMx Spec.CholSpec Spec.SolversSpec Spec.GPStateSpec Spec.Gp2ScaleSpec Spec.LifeCycleSpec Spec.LargeGPSpec Spec.KernelSpec Spec.LikelihoodSpec Spec.PosteriorSpec.
From Verif Require Import Proofs.GPStateP Proofs.LifeEntryP Proofs.CholP Proofs.PosDef Proofs.SolversP Proofs.PosteriorP Proofs.Gp2ScaleHistP Proofs.LifeCycleP Proofs.LargeListP Proofs.LargeGPP.
From Verif Require Import Props.SolversProps Props.PosteriorProps Props.LifeCycleProps.
Set Implicit Arguments.
Unset Strict Implicit.
Unset Printing Implicit Defensive.
Import Order.TTheory GRing.Theory Num.Theory.
Local Open Scope ring_scope.

Section Large.
Variables P H : Type.
Variables (p0 : P) (k : P -> P -> H -> R) (kernel : list P -> list P -> H -> res cexn (@kout R)).
Variables (batch : Z) (dist : distribution) (isz : R -> bool).
Variables (mu : option (P -> H -> R)) (nz : noise_choice P H) (favg defnoise : list R -> R).
Variable cho_factor np_inv : forall n, 'M[R]_n -> option 'M[R]_n.
Variable LUt : nat -> Type.
Variable splu : forall n, 'M[R]_n -> option (LUt n).
Variable lu_solve : forall n k, LUt n -> 'M[R]_(n, k) -> 'M[R]_(n, k).
Variable lu_diag : forall n, LUt n -> 'rV[R]_n.
Variable iterate : smode -> forall n k, 'M[R]_n -> 'M[R]_(n, k) -> 'M[R]_(n, k).
Variable estimate : nat -> forall n, 'M[R]_n -> R * option R.
Variable Obj : nat -> Type.
Variable c_factor : forall n, 'M[R]_n -> Obj n.
Variable c_solve : forall n k, Obj n -> 'M[R]_(n, k) -> 'M[R]_(n, k).
Variable c_logdet : forall n, Obj n -> R.
Variable mode : smode.
Hypothesis CC : @chol_contract R_rcfType cho_factor.
Hypothesis CI : @inv_contract R_rcfType np_inv.
Hypothesis CL : @lu_contract R_rcfType LUt splu lu_solve lu_diag.
Hypothesis CU : @custom_contract R_rcfType R_zmodType lnabs Obj c_factor c_solve c_logdet.
Hypothesis NS : symmetric_noise nz.
(** the test for zero of a dense block; the kernel callable returns the matrix of a covariance function, dense or sparse *)
Hypothesis Hz : forall v, isz v = true <-> v = R0.
Hypothesis Hk : kernel_is R0 Rplus kernel k.
Hypothesis VK : forall h, valid_covariance (fun a b => k a b h).

Notation lbuild := (l_build k mu nz favg defnoise cho_factor np_inv splu lu_solve lu_diag iterate estimate c_factor c_solve c_logdet mode).
Notation lsteps := (l_steps k mu nz favg defnoise cho_factor np_inv splu lu_solve lu_diag iterate estimate c_factor c_solve c_logdet mode).
Notation gstart := (g_start kernel batch dist isz mu nz favg defnoise cho_factor np_inv splu lu_solve lu_diag iterate estimate c_factor c_solve c_logdet mode).
Notation gnext := (g_next kernel batch dist isz mu nz favg defnoise cho_factor np_inv splu lu_solve lu_diag iterate estimate c_factor c_solve c_logdet mode).
Notation grun := (g_run kernel batch dist isz mu nz favg defnoise cho_factor np_inv splu lu_solve lu_diag iterate estimate c_factor c_solve c_logdet mode).
Notation gmean := (g_mean kernel batch dist isz mu favg).
Notation gcov := (g_cov kernel batch dist isz lu_solve iterate c_solve mode).
Notation noisemx := (obs_noise p0 nz defnoise).
Notation obscov := (obs_cov p0 k nz defnoise).
Notation LInv := (LInv p0 k mu nz favg defnoise cho_factor np_inv splu lu_solve lu_diag iterate estimate c_factor c_solve c_logdet mode).
Notation BInv := (BInv k mu nz favg defnoise).
Notation larget := (large P H LUt Obj).
Notation pts xp := (fun i : 'I_(length xp) => List.nth i xp p0).
Let KS := KS VK.

Lemma g_reads (t : larget) : BInv t -> LInv (g_life t) -> exact_mode mode -> (Z.of_nat (length (xd (l_gp (g_life t)))) < 2 ^ 63)%Z ->
  let d := stored (g_life t) in posdef (noisemx d) ->
  let kh := fun a b => k a b (ds_h d) in let x := Spec.LifeCycleSpec.points p0 (d:=d) in
  let m := prior_mean favg mu d in let A := obscov d in
  forall (xp : list P) (garbage : 'M[R]_(length xp)) c, lossy c -> (Z.of_nat (length xp) < 2 ^ 63)%Z ->
    let S := gram kh (pts xp) (pts xp) - gram kh (pts xp) x *m invmx A *m gram kh x (pts xp) in
    (forall r, gmean t c xp = Some r -> r = mean_vec m (pts xp) + gram kh (pts xp) x *m invmx A *m (targets d - mean_vec m x)) /\
    (forall vo r, gcov t c garbage vo = Some r -> r.1 = \col_i S i i /\ (forall S', r.2 = Some S' -> S' = S) /\ (vo = false -> r.2 = Some S)).
Proof.
move=> B I EM Bx d PN kh x m A xp garbage c Hl Bp S.
have SV := obs_noise_sym p0 defnoise NS d; have Vk : valid_covariance kh := VK _.
have [_ /(_ (length xp) (pts xp) garbage) [EMn _ _ _]] := reads CC CI CL CU NS VK I EM PN.
split=> [r|vo r].
  rewrite /g_mean; case E : (cross _ _ _ _ _ _ _) => [K|] //= [<-].
  rewrite -EMn; apply/colP=> i; rewrite !mxE.
  rewrite (List.nth_error_nth' xp p0); last exact/ssrnat.ltP.
  by rewrite (cross_is p0 Hz Hk B Hl Bx Bp E).
rewrite /g_cov; case E : (cross _ _ _ _ _ _ _) => [K|] //; case Eo : (own _ _ _) => [KK|] // Er.
have EA : (\matrix_(i, j) (k (List.nth i (ds_x d) p0) (List.nth j (ds_x d) p0) (ds_h d) + noise_entry p0 nz defnoise d i j)) = A.
  by apply/matrixP=> i j; rewrite !mxE.
have SA : A^T = A by exact: (@KV_sym _ kh _ x (NFull (noisemx d)) Vk SV).
have PA : posdef A by exact: (@KV_pd _ kh _ x (NFull (noisemx d)) Vk PN).
have UA := posdef_unit SA PA.
have [|_ _ _ ES EI] := kv_exact CC CI CL CU I EM; first by rewrite EA.
rewrite EA in ES EI.
pose product := fun K' : 'M[R]_(length (xd (l_gp (g_life t))), length xp) => cross_solve_product (fun m (b : 'M[R]_(length (xd (l_gp (g_life t))), m)) => solve lu_solve iterate c_solve mode (v_factor (l_kv (g_life t))) b)
   None true batch garbage K'.
have HP K' : product K' = K'^T *m invmx A *m K' by apply: cross_solve_l => m' M; exact: ES.
have EC := @posterior_covariance_exact _ kh _ x (NFull (noisemx d)) (fun q _ => NDiag 0) 1 (length xp) (pts xp) (stored_inverse (g_life t)) product vo Vk SV PN EI HP.
have Er' : posterior_covariance kh 1 x (fun q _ => NDiag 0) (stored_inverse (g_life t)) product (pts xp) vo false = r.
  move: Er; rewrite (cross_is p0 Hz Hk B Hl Bx Bp E) (own_is p0 Hk Eo) /posterior_covariance andbT.
  by case: (stored_inverse _) => [KVi|]; last case: ifP => _ /= [<-] //; case: (vo) => /=; case: ifP => _ [<-].
rewrite -Er' EC /= andbT; split=> //; split.
  by move=> S'; case: ifP => // _ [].
by move=> ->; rewrite andbF.
Qed.

(** C191: after any history of appends (with and without rank-n updates), overwrites and hyperparameter changes whose
    covariances were assembled on clusters that complete tasks in any order, for every batch size and distribution and in every
    exact solver mode, the object holds the data and hyperparameters of the history, log_likelihood() is the Gaussian log
    density of the observations, and predictions made on any such cluster are mean and covariance of the conditional
    distribution; with a kernel that does not raise and clusters that lose nothing they are there *)
Theorem large_end_to_end : forall c x y nv h t0 os t,
  lossy c -> (forall o, In o os -> any_cluster o) -> countable x os ->
  gstart c x y nv h = Some t0 -> grun t0 os = Some t ->
  (nz = @Measured P H -> length nv = length x /\ forall o, In o os -> aligned (request o)) ->
  (forall o, In o os -> ~ moving_noise nz (request o)) -> exact_mode mode ->
  let d := stored (g_life t) in
  d = history (DS x y nv h) (List.map request os) /\
  (posdef (noisemx d) ->
   let kh := fun a b => k a b (ds_h d) in let x := Spec.LifeCycleSpec.points p0 (d:=d) in
   let m := prior_mean favg mu d in let A := obscov d in
   g_loglik t = log_gauss (targets d) (mean_vec m x) A /\
   forall (xp : list P) (garbage : 'M[R]_(length xp)) c', lossy c' -> (Z.of_nat (length xp) < 2 ^ 63)%Z ->
     let S := gram kh (pts xp) (pts xp) - gram kh (pts xp) x *m invmx A *m gram kh x (pts xp) in
     let mean := mean_vec m (pts xp) + gram kh (pts xp) x *m invmx A *m (targets d - mean_vec m x) in
     [/\ forall r, gmean t c' xp = Some r -> r = mean,
         forall vo r, gcov t c' garbage vo = Some r -> r.1 = \col_i S i i /\ (forall S', r.2 = Some S' -> S' = S) /\ (vo = false -> r.2 = Some S),
         (forall xs ys h, exists o, kernel xs ys h = Ok o) -> faithful c' ->
           gmean t c' xp = Some mean /\ exists r, gcov t c' garbage false = Some (r, Some S) &
         forall f : 'cV[R]_(length xp), 0 < \det S ->
           log_gauss (col_mx (targets d) f) (col_mx (mean_vec m x) (mean_vec m (pts xp))) (block_mx A (gram kh x (pts xp)) (gram kh (pts xp) x) (gram kh (pts xp) (pts xp)))
           = g_loglik t + log_gauss f mean S]).
Proof.
move=> c x y nv h t0 os t Hl Ho Hc E0 Er Al Mv EM d.
have Bx : (Z.of_nat (length x) < 2 ^ 63)%Z by move: Hc; rewrite /countable; lia.
have [F0 [B0 X0]] := start_life Hz Hk KS Hl Bx E0.
have Hc0 : countable (xd (l_gp (g_life t0))) os by rewrite X0.
have [F [B Bl]] := run_life Hz Hk KS B0 Hc0 Ho Er.
have Bt : (Z.of_nat (length (xd (l_gp (g_life t)))) < 2 ^ 63)%Z by move: Hc0; rewrite /countable; lia.
have Al' : nz = @Measured P H -> length nv = length x /\ forall o, In o (List.map request os) -> aligned o.
  by move=> e; have [a b] := Al e; split=> // o /in_map_iff [o' [<- Io]]; exact: b.
have Mv' o : In o (List.map request os) -> ~ moving_noise nz o by move=> /in_map_iff [o' [<- Io]]; exact: Mv.
have [I0 S0] := build_inv p0 KS NS (fun e => proj1 (Al' e)) F0.
have [I S1] := steps_ok KS NS I0 (fun e => proj2 (Al' e)) Mv' F.
split; first by rewrite /d S1 S0.
move=> PN kh x' m A.
have [LL Q] := reads CC CI CL CU NS VK I EM PN.
split=> // xp garbage c' Hl' Bp S mean.
have [GM GC] := g_reads B I EM Bt PN garbage Hl' Bp.
have [EMn _ _ J] := Q (length xp) (pts xp) garbage.
split=> //; last by move=> f dS; have := J f dS; rewrite EMn.
move=> Kt Hf; have [K EK] := cross_total batch dist Hz Hk KS Kt B Hf Bt Bp.
have [o Eo] := Kt xp xp (hp (l_gp (g_life t))).
have [KK EKK] : exists KK, own kernel t xp = Some KK by rewrite /own Eo; case: (o) => *; eexists.
split.
  by case EG : (gmean t c' xp) => [r|]; [rewrite (GM _ EG)|move: EG; rewrite /g_mean EK].
case EG : (gcov t c' garbage false) => [[v S']|]; last by move: EG; rewrite /g_cov EK EKK; case: (stored_inverse _).
by have [_ [_ /(_ erefl) /= ->]] := GC _ _ EG; exists v.
Qed.

(** and with such a kernel and such clusters no update fails as long as the noise of the data it leads to is positive definite *)
Theorem large_updates_succeed : (forall xs ys h, exists o, kernel xs ys h = Ok o) ->
  (forall c x y nv h, faithful c -> countable (H:=H) x [::] -> (nz = @Measured P H -> length nv = length x) -> posdef (noisemx (DS x y nv h)) ->
     exists t, gstart c x y nv h = Some t) /\
  (forall c x y nv h t0 os t o,
     lossy c -> (forall o', In o' os -> any_cluster o') -> countable x (os ++ [:: o]) -> good_cluster o ->
     gstart c x y nv h = Some t0 -> grun t0 os = Some t ->
     (nz = @Measured P H -> length nv = length x /\ forall o, In o os -> aligned (request o)) ->
     (forall o, In o os -> ~ moving_noise nz (request o)) ->
     (nz = @Measured P H -> aligned (request o)) -> ~ moving_noise nz (request o) -> posdef (noisemx (ds_step (stored (g_life t)) (request o))) ->
     exists t', gnext t o = Some t').
Proof.
move=> Kt; have [T1 T2] := @updates_succeed P H p0 k mu nz favg defnoise cho_factor np_inv LUt splu lu_solve lu_diag iterate estimate Obj c_factor c_solve c_logdet mode CC CI CL NS VK.
split=> [c x y nv h Hf Hc L PN|c x y nv h t0 os t o Hl Ho Hc Hg E0 Er Al Mv Alo Mvo PN].
  have [l El] := T1 x y nv h L PN; have Bx : (Z.of_nat (length x) < 2 ^ 63)%Z by move: Hc; rewrite /countable; cbn; lia.
  have [t E] := start_total batch dist Hz Hk KS Kt Hf Bx El; by exists t.
have Bx : (Z.of_nat (length x) < 2 ^ 63)%Z by move: Hc; rewrite /countable; lia.
have [F0 [B0 X0]] := start_life Hz Hk KS Hl Bx E0.
move: Hc; rewrite /countable map_app list_sum_app => Hc; cbn [List.map list_sum List.fold_right] in Hc.
have Hc0 : countable (xd (l_gp (g_life t0))) os by rewrite X0 /countable; lia.
have [F [B Bl]] := run_life Hz Hk KS B0 Hc0 Ho Er; rewrite X0 in Bl.
have Al' : nz = @Measured P H -> length nv = length x /\ forall o, In o (List.map request os) -> aligned o.
  by move=> e; have [a b] := Al e; split=> // o' /in_map_iff [o'' [<- Io]]; exact: b.
have Mv' o' : In o' (List.map request os) -> ~ moving_noise nz o' by move=> /in_map_iff [o'' [<- Io]]; exact: Mv.
have [l El] := T2 _ _ _ _ _ _ _ _ F0 F Al' Mv' Alo Mvo PN.
have Ht : countable (xd (l_gp (g_life t))) [:: o] by rewrite /countable; cbn [List.map list_sum List.fold_right]; lia.
have [t' E] := next_total batch dist Hz Hk KS Kt B Ht Hg El; by exists t'.
Qed.
End Large.
Print Assumptions large_end_to_end.
Print Assumptions large_updates_succeed.

(** example: the observation 2 at 1 with variance 1, a rank-n append of the observation 4 at the same place, then the
    hyperparameters are set again; tasks of one entry, completed last to first.  Whatever the mode, the prediction at 1 is 2
    with variance 1/3 *)
Definition zeroR (v : R) : bool := if Req_EM_T v R0 then true else false.
Lemma zeroR_iff v : zeroR v = true <-> v = R0. Proof. by rewrite /zeroR; case: Req_EM_T. Qed.
Definition linkernel (xs ys : list R) (h : unit) : res cexn (@kout R) := Ok (KDense (length ys) (kernel_call linh xs ys h)).
Lemma linkernel_is : kernel_is R0 Rplus linkernel linh.
Proof.
move=> xs ys h o [<-]; split=> //; rewrite /kernel_call map_length; split=> //; split.
  by move=> r /in_map_iff [a [<- _]]; rewrite map_length.
move=> i j Hi Hj; rewrite (cov_at _ _ _ _ _ _ R0) //; exact: (mget_ent R0 (fun a b => linh a b h) xs ys i j R0).
Qed.
Definition lastfirst {A} (l : list A) : list A := List.rev l.
Lemma lastfirst_faithful A : faithful (@lastfirst A). Proof. by move=> l; apply: Permutation_sym; exact: Permutation_rev. Qed.
Notation exg_start mode it est := (g_start linkernel 1 Blockwise zeroR (Some (fun _ _ => R0)) (@Measured R unit) (fun _ => R0) (fun _ => R0)
  (@my_cho R_rcfType) (@my_inv R_rcfType) (LUt := fun n => 'M[R]_n) (@my_lu R_rcfType) idR_sol (@my_diag R_rcfType) it est
  (Obj := fun n => 'M[R]_n) (fun n A => A) idR_sol (@my_logdet R_rcfType R_zmodType lnabs) mode).
Notation exg_run mode it est := (g_run linkernel 1 Blockwise zeroR (Some (fun _ _ => R0)) (@Measured R unit) (fun _ => R0) (fun _ => R0)
  (@my_cho R_rcfType) (@my_inv R_rcfType) (LUt := fun n => 'M[R]_n) (@my_lu R_rcfType) idR_sol (@my_diag R_rcfType) it est
  (Obj := fun n => 'M[R]_n) (fun n A => A) idR_sol (@my_logdet R_rcfType R_zmodType lnabs) mode).
Example large_ex mode it est : exact_mode mode ->
  let os := [:: @LAppend R unit true [:: 1%coqR] [:: 4%coqR] [:: 1%coqR] lastfirst lastfirst; @LSetHps R unit tt lastfirst] in
  exists t0 t, exg_start mode it est lastfirst [:: 1%coqR] [:: 2%coqR] [:: 1%coqR] tt = Some t0 /\
    exg_run mode it est t0 os = Some t /\
    forall c, faithful c -> exists m v S,
      g_mean linkernel 1 Blockwise zeroR (Some (fun _ _ => R0)) (fun _ => R0) t c [:: 1%coqR] = Some m /\
      g_cov linkernel 1 Blockwise zeroR idR_sol it idR_sol mode t c (0 : 'M[R]_(length [:: 1%coqR])) false = Some (v, Some S) /\
      m 0 0 = 2%coqR /\ S 0 0 = (1 / 3)%coqR.
Proof.
move=> EM os; have [CC [CI [CL CU]]] := contracts_possible (lnabs : R_rcfType -> R_zmodType).
have NS : symmetric_noise (@Measured R unit) by [].
have Kt (xs ys : list R) (h : unit) : exists o, linkernel xs ys h = Ok o by eexists.
have PD (d : @dataset R R unit) : (forall i, lt i (length (ds_x d)) -> List.nth i (ds_nv d) R0 = 1%coqR) ->
    posdef (obs_noise R0 (@Measured R unit) (fun _ => R0) d).
  move=> D; have -> : obs_noise R0 (@Measured R unit) (fun _ => R0) d = 1%:M.
    apply/matrixP=> i j; rewrite !mxE /noise_entry -val_eqE /=; have := D i; case: Nat.eqb_spec => [->|N] Di.
      by rewrite eqxx D //; apply/ssrnat.ltP.
    by case: eqP.
  by move=> x x0; rewrite mulmx1; exact: quad_gt0.
have [B S] := @large_updates_succeed R unit R0 linh linkernel 1 Blockwise zeroR (Some (fun _ _ => R0)) (@Measured R unit) (fun _ => R0) (fun _ => R0)
  _ _ _ _ _ _ it est (fun n => 'M[R]_n) (fun n A => A) idR_sol (@my_logdet R_rcfType R_zmodType lnabs) mode CC CI CL NS zeroR_iff linkernel_is linh_valid Kt.
pose proof (@large_end_to_end R unit R0 linh linkernel 1 Blockwise zeroR (Some (fun _ _ => R0)) (@Measured R unit) (fun _ => R0) (fun _ => R0)
  _ _ _ _ _ _ it est _ _ _ _ mode CC CI CL CU NS zeroR_iff linkernel_is linh_valid) as EE.
have NM o : ~ moving_noise (@Measured R unit) o by [].
have Fl : faithful (lastfirst : @cluster_t R) by exact: lastfirst_faithful.
have Ll := @faithful_lossy lastfirst Fl.
have Any o : In o os -> any_cluster o by move=> [<-|[<-|[]]] /=.
have Ali o : In o os -> aligned (request o) by move=> [<-|[<-|[]]] /=.
have [||t0 E0] := B lastfirst [:: 1%coqR] [:: 2%coqR] [:: 1%coqR] tt Fl _ (fun=> erefl).
- by rewrite /countable; cbn; lia.
- by apply: PD => -[|i] //= L; exfalso; lia.
have A0 : (@Measured R unit = @Measured R unit -> length [:: 1%coqR] = length [:: 1%coqR] /\ forall o : lop R unit, In o [::] -> aligned (request o)) by [].
have C0 : countable (H:=unit) [:: 1%coqR] [::] by rewrite /countable; cbn; lia.
have [Ed _] := EE lastfirst _ _ _ _ _ [::] t0 Ll (fun _ (I : False) => match I with end) C0 E0 erefl A0 (fun o _ => NM _) EM.
pose o1 := @LAppend R unit true [:: 1%coqR] [:: 4%coqR] [:: 1%coqR] lastfirst lastfirst : lop R unit.
have [||t1 E1] := S lastfirst _ _ _ _ _ [::] t0 o1 Ll (fun _ (I : False) => match I with end) _ (conj Fl Fl) E0 erefl A0 (fun o _ => NM _) (fun=> erefl) (NM _).
- by rewrite /countable; cbn; lia.
- by apply: PD; rewrite Ed => -[|[|i]] //= L; exfalso; lia.
have A1 : (@Measured R unit = @Measured R unit -> length [:: 1%coqR] = length [:: 1%coqR] /\ forall o : lop R unit, In o [:: o1] -> aligned (request o)).
  by move=> _; split=> // o' [<-|[]].
have Any1 o : In o [:: o1] -> any_cluster o by move=> [<-|[]] /=.
have C1 : countable [:: 1%coqR] [:: o1] by rewrite /countable; cbn; lia.
have R1 : exg_run mode it est t0 [:: o1] = Some t1 by rewrite /= E1.
have [Ed1 _] := EE lastfirst _ _ _ _ _ [:: o1] t1 Ll Any1 C1 E0 R1 A1 (fun o _ => NM _) EM.
have [||t2 E2] := S lastfirst _ _ _ _ _ [:: o1] t1 (@LSetHps R unit tt lastfirst) Ll Any1 _ Fl E0 R1 A1 (fun o _ => NM _) (fun=> I) (NM _).
- by rewrite /countable; cbn; lia.
- by apply: PD; rewrite Ed1 => -[|[|i]] //= L; exfalso; lia.
have R2 : exg_run mode it est t0 os = Some t2 by rewrite /= E1 E2.
exists t0, t2; split=> //; split=> // c Hf.
have A2 : (@Measured R unit = @Measured R unit -> length [:: 1%coqR] = length [:: 1%coqR] /\ forall o : lop R unit, In o os -> aligned (request o)) by [].
have C2 : countable [:: 1%coqR] os by rewrite /countable; cbn; lia.
have [Dt Q] := EE lastfirst _ _ _ _ _ os t2 Ll Any C2 E0 R2 A2 (fun o _ => NM _) EM.
move: (stored (g_life t2)) Dt Q => d Dt; subst d => Q.
have [|_ /(_ [:: 1%coqR] 0 c (@faithful_lossy c Hf)) Qp] := Q.
  by apply: PD => -[|[|i]] //= L; exfalso; lia.
have [|_ _ /(_ Kt Hf) [Em [v Ev]] _] := Qp; first by cbn; lia.
do 3 eexists; split; first exact: Em.
split; first exact: Ev.
have [T1 T2] := two_points; set A := obs_cov _ _ _ _ _.
have EA : A = \matrix_(i, j) (if i == j then 2 else 1)%coqR.
  apply/matrixP=> i j; rewrite !mxE /noise_entry /linh /lin /points.
  by case: i => [[|[|]]] //= ?; case: j => [[|[|]]] //= ?; toR; ring.
rewrite EA; set x := points R0 (d := _); set xp := fun i : 'I_(length [:: 1%coqR]) => _.
have EG : gram (fun a b => linh a b tt) xp x = const_mx 1.
  by apply/matrixP=> i j; rewrite !mxE /x /xp /linh /lin /points; case: i => [[|]] //= ?; case: j => [[|[|]]] //= ?; toR; ring.
have EG' : gram (fun a b => linh a b tt) x xp = (const_mx 1 : 'rV[R]_2)^T.
  by apply/matrixP=> i j; rewrite !mxE /x /xp /linh /lin /points; case: j => [[|]] //= ?; case: i => [[|[|]]] //= ?; toR; ring.
set r := targets _ - _.
have Er : r = \col_i (if i == O :> nat then 2%coqR else 4%coqR).
  by apply/colP=> i; rewrite !mxE /prior_mean; case: i => [[|[|]]] //= ?; toR; ring.
rewrite -mulmxA Er mxE EG EG' [X in X + _]mxE; split; first by rewrite -[RHS]T1 /= -[R0]/(0 : R) add0r.
rewrite mxE [X in X + _]mxE.
have -> : (1 / 3)%coqR = linh 1 1 tt - (2 / 3)%coqR by rewrite /linh /lin; toR; field.
by rewrite -T2 [X in _ + X]mxE.
Qed.
