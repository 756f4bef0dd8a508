(** Training by Bayesian optimisation from the data to the likelihood: C207. *)
From Coq Require Import Reals Lra List ZArith Lia.
From mathcomp Require Import all_ssreflect all_algebra.
From Verif Require Import Model.Prelude Model.Ext Model.GPState Model.Likelihood Model.Solvers Model.Posterior Model.LifeCycle Model.BO Model.Training Model.TrainBO.
From Verif Require Import Proofs.RealMx Spec.CholSpec Spec.SolversSpec Spec.GPStateSpec Spec.LifeCycleSpec Spec.KernelSpec Spec.LikelihoodSpec Spec.PosteriorSpec.
From Verif Require Import Proofs.GPStateP Proofs.LifeEntryP Proofs.CholP Proofs.PosDef Proofs.SolversP Proofs.PosteriorP Proofs.PosteriorEx Proofs.LifeCycleP Props.SolversProps Props.PosteriorProps Props.LifeCycleProps Props.BOProps Props.BODesignProps Proofs.TrainBOP.
Set Implicit Arguments.
Unset Strict Implicit.
Unset Printing Implicit Defensive.
Import Order.TTheory GRing.Theory Num.Theory.
Local Open Scope ring_scope.

Section TrainBO.
Variable P : Type.
Notation H := (list R).
Variables (p0 : P) (k : P -> P -> H -> R) (mu : option (P -> H -> R)) (nz : noise_choice P H) (favg defnoise : list R -> R).
Variable cho_factor np_inv : forall n, 'M[R]_n -> option 'M[R]_n.
Variable LUt : nat -> Type.
Variable splu : forall n, 'M[R]_n -> option (LUt n).
Variable lu_solve : forall n k, LUt n -> 'M[R]_(n, k) -> 'M[R]_(n, k).
Variable lu_diag : forall n, LUt n -> 'rV[R]_n.
Variable iterate : smode -> forall n k, 'M[R]_n -> 'M[R]_(n, k) -> 'M[R]_(n, k).
Variable estimate : nat -> forall n, 'M[R]_n -> R * option R.
Variable Obj : nat -> Type.
Variable c_factor : forall n, 'M[R]_n -> Obj n.
Variable c_solve : forall n k, Obj n -> 'M[R]_(n, k) -> 'M[R]_(n, k).
Variable c_logdet : forall n, Obj n -> R.
Variable mode : smode.
Hypothesis CC : @chol_contract R_rcfType cho_factor.
Hypothesis CI : @inv_contract R_rcfType np_inv.
Hypothesis CL : @lu_contract R_rcfType LUt splu lu_solve lu_diag.
Hypothesis CU : @custom_contract R_rcfType R_zmodType lnabs Obj c_factor c_solve c_logdet.
Hypothesis NS : symmetric_noise nz.
Hypothesis VK : forall h, valid_covariance (fun a b => k a b h).
Notation lbuild := (l_build k mu nz favg defnoise cho_factor np_inv splu lu_solve lu_diag iterate estimate c_factor c_solve c_logdet mode).
Notation lstep := (l_step k mu nz favg defnoise cho_factor np_inv splu lu_solve lu_diag iterate estimate c_factor c_solve c_logdet mode).
Notation lsteps := (l_steps k mu nz favg defnoise cho_factor np_inv splu lu_solve lu_diag iterate estimate c_factor c_solve c_logdet mode).
Notation nlik := (neg_lik k mu nz favg defnoise cho_factor np_inv splu lu_solve lu_diag iterate estimate c_factor c_solve c_logdet mode).
Notation train := (train_bo k mu nz favg defnoise cho_factor np_inv splu lu_solve lu_diag iterate estimate c_factor c_solve c_logdet mode).
Notation noisemx := (obs_noise p0 nz defnoise).

(** the log density of the observations under the Gaussian of kernel, mean and noise at the hyperparameters *)
Definition evidence (d : @dataset P R H) : R :=
  log_gauss (targets d) (mean_vec (prior_mean favg mu d) (points p0 (d:=d))) (obs_cov p0 k nz defnoise d).
Definition at_hps (d : @dataset P R H) (h : H) : dataset := DS (ds_x d) (ds_y d) (ds_nv d) h.

Section History.
Variables (x : list P) (y nv : list R) (h : H) (t0 t : life P H LUt Obj) (os : list (@gop P R H)).
Hypothesis B : lbuild x y nv h = Some t0.
Hypothesis E : lsteps t0 os = Some t.
Hypothesis Al : nz = @Measured P H -> length nv = length x /\ forall o, In o os -> aligned o.
Hypothesis Mv : forall o, In o os -> ~ moving_noise nz o.
Hypothesis EM : exact_mode mode.
Let d := stored t.
Hypothesis PN : forall h', posdef (noisemx (at_hps d h')).

Lemma steps_snoc o t' : lstep t o = Some t' -> lsteps t0 (os ++ [o]) = Some t'.
Proof. move: (t0) E => s; elim: (os) s => [|a l IH] s /=; [by move=> [->] ->|by case: (lstep s a) => // s'; exact: IH]. Qed.
Lemma set_reads h' t' : lstep t (GSetHps h') = Some t' -> stored t' = at_hps d h' /\ l_loglik t' = evidence (at_hps d h').
Proof.
move=> /steps_snoc E'; set o := GSetHps h' : @gop P R H in E'.
have Al' : nz = @Measured P H -> length nv = length x /\ forall a, In a (os ++ [o]) -> aligned a.
  by move=> e; have [L A] := Al e; split=> // a Ha; have [Ha'|[<-|[]]] // := in_app_or _ _ _ Ha; exact: A.
have Mv' a : In a (os ++ [o]) -> ~ moving_noise nz a.
  by move=> Ha; have [Ha'|[<-|[]]] := in_app_or _ _ _ Ha; [exact: Mv|rewrite /moving_noise /o; case: (nz) => // ? []].
have [D Q] := @end_to_end _ _ p0 k mu nz favg defnoise _ _ _ _ _ _ iterate estimate _ _ _ _ mode CC CI CL CU NS VK _ _ _ _ _ _ _ B E' Al' Mv' EM.
have [D0 _] := @end_to_end _ _ p0 k mu nz favg defnoise _ _ _ _ _ _ iterate estimate _ _ _ _ mode CC CI CL CU NS VK _ _ _ _ _ _ _ B E Al Mv EM.
have DD : stored t' = at_hps d h' by rewrite D /history fold_left_app /= /d D0.
split=> //; have [|-> _] := Q; first by rewrite DD; exact: PN.
by rewrite -DD.
Qed.
Lemma set_ok h' : exists t', lstep t (GSetHps h') = Some t'.
Proof.
have [_ S] := @updates_succeed _ _ p0 k mu nz favg defnoise _ _ _ _ _ _ iterate estimate Obj c_factor c_solve c_logdet mode CC CI CL NS VK.
by apply: (S x y nv h t0 os) => //; [rewrite /moving_noise; case: (nz) => // ? []|exact: PN].
Qed.
Lemma nlikE h' : nlik t h' = Some (Ropp (evidence (at_hps d h'))).
Proof. by have [t' Et] := set_ok h'; rewrite /neg_lik /set_hps_to Et /=; have [_ ->] := set_reads Et. Qed.
Lemma now_reads : l_loglik t = evidence d.
Proof.
have [_ Q] := @end_to_end _ _ p0 k mu nz favg defnoise _ _ _ _ _ _ iterate estimate _ _ _ _ mode CC CI CL CU NS VK _ _ _ _ _ _ _ B E Al Mv EM.
by have [|-> _] := Q; first exact: (@PN (ds_h d)).
Qed.
End History.

(** C207: after any history of updates, GP.train(method="bo") with an exact solver ends at hyperparameters inside the bounds, keeps
    the data, and leaves a GP whose log_likelihood() is the Gaussian log density of the data there.  If the hyperparameters in
    force lay in the bounds, that density is at least what it was before; otherwise it is at least that of the random start.  If
    the surrogate always proposes a point the call does not fail. *)
Theorem bo_training : forall x y nv h t0 os t c bounds ls us G fit acquire pm sobol,
  lbuild x y nv h = Some t0 -> lsteps t0 os = Some t ->
  (nz = @Measured P H -> length nv = length x /\ forall o, In o os -> aligned o) ->
  (forall o, In o os -> ~ moving_noise nz o) -> exact_mode mode ->
  let d := stored t in
  (forall h', posdef (noisemx (at_hps d h'))) ->
  (forall (g : G) vs m, pm g vs = Some m -> length m = length vs) ->
  (forall j lo hi, nth_error bounds j = Some (lo, hi) -> (lo < hi)%coqR /\ ((0 < lo)%coqR -> (/ 10 ^ 300 <= lo)%coqR)) ->
  (forall t', train fit acquire pm sobol c t bounds ls us = Some t' -> exists hx s,
     [/\ stored t' = at_hps d hx, in_box bounds hx, in_box bounds s & l_loglik t' = evidence (at_hps d hx)] /\
     (evidence (at_hps d s) <= evidence (at_hps d hx))%coqR /\
     (length (ds_h d) = length bounds -> in_box bounds (ds_h d) -> s = ds_h d /\ (l_loglik t <= l_loglik t')%coqR)) /\
  (length (ds_h d) = length bounds -> (forall i, (0 <= us i <= 1)%coqR) -> (forall g evs, acquire g evs <> None) ->
     exists t', train fit acquire pm sobol c t bounds ls us = Some t').
Proof.
move=> x y nv h t0 os t c bounds ls us G fit acquire pm sobol B E Al Mv EM d PN Hm Hb.
have NL := nlikE B E Al Mv EM PN; have SR := set_reads B E Al Mv EM PN.
have NR := now_reads B E Al Mv EM PN.
split=> [t'|L Hu Ha].
- rewrite /train_bo /bo_start; case Es : (start_point _ _ _ _) => [x0|] //.
  have [L0 [B0 C0]] := start_box _ _ _ _ Es.
  set obj := (fun _ h' => option_map Fin _).
  case Er : (bayesian_optimize _ _ _ _ _ _ _ _ _ _ _) => [[info cbs]|] // St.
  have [IB [OX [[v [OI LE]] _]]] := @bo_answer bounds ls c (nlik t) (Some (fun _ _ => None)) None (fun _ => false) G fit acquire pm sobol _ info cbs Hm L0 B0 Hb (fun _ _ => erefl) Er.
  have [DD LL] := SR _ _ St.
  exists (i_x info), (List.map to_r x0); split; first by split.
  move: OX OI; rewrite !NL => -[OX] [OI]; rewrite -OX -OI in LE.
  have LE' : (evidence (at_hps d (List.map to_r x0)) <= evidence (at_hps d (i_x info)))%coqR by move: LE; rewrite -/d; lra.
  split=> // Lh Bh; have EH := C0 Lh Bh; split=> //.
  by rewrite NR LL; move: LE'; rewrite EH.
have [x0 Es] := start_total (ds_h d) bounds us L (fun j lo hi Hj => Rlt_le _ _ (proj1 (Hb j lo hi Hj))) Hu.
rewrite /train_bo /bo_start; move: Es; rewrite /ext_box /= => ->.
set obj := (fun _ h' => option_map Fin _).
have [||//|[info cbs] Er] := @run_total c (bo_dims bounds ls) obj (Some (fun _ _ => None)) None (fun _ => false) G fit acquire pm sobol (List.map to_r x0).
- by move=> i h'; rewrite /obj NL.
- exact: Ha.
by move: Er; rewrite /run => ->; exact: (set_ok B E Al Mv PN).
Qed.
End TrainBO.
Print Assumptions bo_training.

(** example: the linear kernel with its scale as hyperparameter, one observation 2 at 1 with variance 1, scale 1, bounds 1 and 3 *)
Definition lins (a b : R) (h : list R) : R := let s := List.nth 0 h R0 in Rmult (Rmult s a) (Rmult s b).
Lemma lins_valid h : valid_covariance (fun a b => lins a b h). Proof. exact: (rank1_valid (fun a => Rmult (List.nth 0 h R0) a)). Qed.
Example bo_training_ex mode it est c ls us (G : Type) fit acquire pm sobol : exact_mode mode ->
  (forall i, (0 <= us i <= 1)%coqR) -> (forall (g : G) evs, acquire g evs <> None) -> (forall (g : G) vs m, pm g vs = Some m -> length m = length vs) ->
  exists t0 t' s,
    l_build lins (Some (fun _ _ => R0)) (@Measured R (list R)) (fun _ => R0) (fun _ => R0) (@my_cho R_rcfType) (@my_inv R_rcfType)
      (LUt := fun n => 'M[R]_n) (@my_lu R_rcfType) idR_sol (@my_diag R_rcfType) it est (Obj := fun n => 'M[R]_n) (fun n A => A) idR_sol
      (@my_logdet R_rcfType R_zmodType lnabs) mode [1%coqR] [2%coqR] [1%coqR] [1%coqR] = Some t0 /\
    train_bo lins (Some (fun _ _ => R0)) (@Measured R (list R)) (fun _ => R0) (fun _ => R0) (@my_cho R_rcfType) (@my_inv R_rcfType)
      (LUt := fun n => 'M[R]_n) (@my_lu R_rcfType) idR_sol (@my_diag R_rcfType) it est (Obj := fun n => 'M[R]_n) (fun n A => A) idR_sol
      (@my_logdet R_rcfType R_zmodType lnabs) mode fit acquire pm sobol c t0 [(1, 3)%coqR] ls us = Some t' /\
    stored t' = DS [1%coqR] [2%coqR] [1%coqR] s /\ in_box [(1, 3)%coqR] s /\ (l_loglik t0 <= l_loglik t')%coqR.
Proof.
move=> EM Hu Ha Hm; have [CC [CI [CL CU]]] := contracts_possible (lnabs : R_rcfType -> R_zmodType).
have NS : symmetric_noise (@Measured R (list R)) by [].
have PD h : posdef (obs_noise R0 (@Measured R (list R)) (fun _ => R0) (DS [1%coqR] [2%coqR] [1%coqR] h)).
  have -> : obs_noise R0 (@Measured R (list R)) (fun _ => R0) (DS [1%coqR] [2%coqR] [1%coqR] h) = 1%:M.
    by apply/matrixP=> i j; rewrite !mxE /noise_entry !ord1 /=.
  by move=> x x0; rewrite mulmx1; exact: quad_gt0.
have [B _] := @updates_succeed R (list R) R0 lins (Some (fun _ _ => R0)) (@Measured R (list R)) (fun _ => R0) (fun _ => R0)
  _ _ _ _ _ _ it est (fun n => 'M[R]_n) (fun n A => A) idR_sol (@my_logdet R_rcfType R_zmodType lnabs) mode CC CI CL NS lins_valid.
have [t0 E0] := B [1%coqR] [2%coqR] [1%coqR] [1%coqR] (fun=> erefl) (PD _).
have A0 : (@Measured R (list R) = @Measured R (list R) -> length [1%coqR] = length [1%coqR] /\ forall o : @gop R R (list R), In o [] -> aligned o) by [].
have [D0 _] := @end_to_end R (list R) R0 lins (Some (fun _ _ => R0)) (@Measured R (list R)) (fun _ => R0) (fun _ => R0)
  _ _ _ _ _ _ it est _ _ _ _ mode CC CI CL CU NS lins_valid _ _ _ _ _ [] t0 E0 erefl A0 (fun o _ F => F) EM.
have Hb j lo hi : nth_error [(1, 3)%coqR] j = Some (lo, hi) -> (lo < hi)%coqR /\ ((0 < lo)%coqR -> (/ 10 ^ 300 <= lo)%coqR).
  case: j => [[<- <-]|[|j] //]; split; first by lra.
  move=> _; rewrite -[X in (_ <= X)%coqR]Rinv_1; apply: Rinv_le_contravar; first by lra.
  by rewrite -[X in (X <= _)%coqR](pow1 300); apply: pow_incr; lra.
have [|T1 T2] := @bo_training R R0 lins (Some (fun _ _ => R0)) (@Measured R (list R)) (fun _ => R0) (fun _ => R0)
  _ _ _ _ _ _ it est _ _ _ _ mode CC CI CL CU NS lins_valid _ _ _ _ _ [] t0 c [(1, 3)%coqR] ls us G fit acquire pm sobol E0 erefl A0 (fun o _ F => F) EM _ Hm Hb.
  by move=> h'; rewrite D0 /at_hps /=; exact: PD.
rewrite D0 /at_hps /= in T1 T2.
have [t' Et] := T2 erefl Hu Ha; have [hx [s [[S1 S2 _ _] [_ L]]]] := T1 _ Et.
exists t0, t', hx; split=> //; split=> //; split=> //; split=> //.
have [|_ //] := L erefl.
by move=> [|[|j]] v //= [<-]; exists 1%coqR, 3%coqR; split=> //; lra.
Qed.
