(** A GP through updates and trainings in any order: C208. *)
From Coq Require Import Reals Lra List ZArith Lia.
From mathcomp Require Import all_ssreflect all_algebra.
From Verif Require Import Model.Prelude Model.Ext Model.GPState Model.Likelihood Model.Solvers Model.Posterior Model.LifeCycle Model.BO Model.Training Model.TrainBO Model.TrainSession.
From Verif Require Import Proofs.RealMx Spec.CholSpec Spec.SolversSpec Spec.GPStateSpec Spec.LifeCycleSpec Spec.KernelSpec Spec.LikelihoodSpec Spec.PosteriorSpec.
From Verif Require Import Proofs.GPStateP Proofs.LifeEntryP Proofs.CholP Proofs.PosDef Proofs.SolversP Proofs.PosteriorP Proofs.PosteriorEx Proofs.LifeCycleP Props.SolversProps Props.PosteriorProps Props.LifeCycleProps Props.BOProps Props.BODesignProps Proofs.TrainBOP Props.TrainBOProps.
Set Implicit Arguments.
Unset Strict Implicit.
Unset Printing Implicit Defensive.
Import Order.TTheory GRing.Theory Num.Theory.
Local Open Scope ring_scope.

Section Spec.
Variable P : Type.
Notation H := (list R).
(** the calls that change the data or set hyperparameters by hand *)
Definition updates (ss : list (sop P)) : list (@gop P R H) := flat_map (fun s => if s is SUpdate o then [o] else []) ss.
(** two data sets that differ at most in the hyperparameters *)
Definition same_data (d d' : @dataset P R H) : Prop := ds_x d = ds_x d' /\ ds_y d = ds_y d' /\ ds_nv d = ds_nv d'.
(** a call of train: with the guard, or by Bayesian optimisation in a proper box around the hyperparameters [h] in force *)
Definition sound_training (h : H) (s : sop P) : Prop :=
  match s with
  | SUpdate _ => False
  | SGuarded _ => True
  | SBO c bounds ls us su => length h = length bounds /\ in_box bounds h /\
      (forall j lo hi, nth_error bounds j = Some (lo, hi) -> (lo < hi)%coqR /\ ((0 < lo)%coqR -> (/ 10 ^ 300 <= lo)%coqR)) /\
      (forall g vs m, @su_mean su g vs = Some m -> length m = length vs)
  end.
End Spec.

Section Session.
Variable P : Type.
Notation H := (list R).
Variables (p0 : P) (k : P -> P -> H -> R) (mu : option (P -> H -> R)) (nz : noise_choice P H) (favg defnoise : list R -> R).
Variable cho_factor np_inv : forall n, 'M[R]_n -> option 'M[R]_n.
Variable LUt : nat -> Type.
Variable splu : forall n, 'M[R]_n -> option (LUt n).
Variable lu_solve : forall n k, LUt n -> 'M[R]_(n, k) -> 'M[R]_(n, k).
Variable lu_diag : forall n, LUt n -> 'rV[R]_n.
Variable iterate : smode -> forall n k, 'M[R]_n -> 'M[R]_(n, k) -> 'M[R]_(n, k).
Variable estimate : nat -> forall n, 'M[R]_n -> R * option R.
Variable Obj : nat -> Type.
Variable c_factor : forall n, 'M[R]_n -> Obj n.
Variable c_solve : forall n k, Obj n -> 'M[R]_(n, k) -> 'M[R]_(n, k).
Variable c_logdet : forall n, Obj n -> R.
Variable mode : smode.
Hypothesis CC : @chol_contract R_rcfType cho_factor.
Hypothesis CI : @inv_contract R_rcfType np_inv.
Hypothesis CL : @lu_contract R_rcfType LUt splu lu_solve lu_diag.
Hypothesis CU : @custom_contract R_rcfType R_zmodType lnabs Obj c_factor c_solve c_logdet.
Hypothesis NS : symmetric_noise nz.
Hypothesis VK : forall h, valid_covariance (fun a b => k a b h).
Notation lbuild := (l_build k mu nz favg defnoise cho_factor np_inv splu lu_solve lu_diag iterate estimate c_factor c_solve c_logdet mode).
Notation lstep := (l_step k mu nz favg defnoise cho_factor np_inv splu lu_solve lu_diag iterate estimate c_factor c_solve c_logdet mode).
Notation lsteps := (l_steps k mu nz favg defnoise cho_factor np_inv splu lu_solve lu_diag iterate estimate c_factor c_solve c_logdet mode).
Notation sess := (session k mu nz favg defnoise cho_factor np_inv splu lu_solve lu_diag iterate estimate c_factor c_solve c_logdet mode).
Notation sstep := (s_step k mu nz favg defnoise cho_factor np_inv splu lu_solve lu_diag iterate estimate c_factor c_solve c_logdet mode).
Notation lmean := (l_mean k mu favg p0).
Notation lcov := (l_cov k lu_solve iterate c_solve mode p0).
Notation noisemx := (obs_noise p0 nz defnoise).
Notation evid := (evidence p0 k mu nz favg defnoise).

Lemma steps_app os os' : forall s t t', lsteps s os = Some t -> lsteps t os' = Some t' -> lsteps s (os ++ os') = Some t'.
Proof. by elim: os => [|a l IH] s t t' /=; [move=> [->]|case: (lstep s a) => // s'; exact: IH]. Qed.
(** a training is a sequence of set_hyperparameters *)
Definition sets_only (os : list (@gop P R H)) : Prop := forall o, In o os -> exists h, o = GSetHps h.
Lemma step_is t s t' : sstep t s = Some t' ->
  exists os, lsteps t os = Some t' /\ match s with SUpdate o => os = [o] | _ => sets_only os end.
Proof.
case: s => [o|[h|]|c b ls us su] //=.
- by move=> E; exists [o]; rewrite /= E.
- rewrite /set_hps_to; case E1 : (lstep t _) => [t1|] //; case: Rle_dec => [?|?] /= E2.
    by exists [GSetHps h]; rewrite /= E1 -E2; split=> // o [<-|[]]; exists h.
  by exists [GSetHps h; GSetHps (hp (l_gp t))]; rewrite /= E1 E2; split=> // o [<-|[<-|[]]]; [exists h|exists (hp (l_gp t))].
rewrite /train_bo; case: (bo_start t b us) => [init|] //; case: (bayesian_optimize _ _ _ _ _ _ _ _ _ _ _) => [[info cbs]|] //.
by rewrite /set_hps_to => E; exists [GSetHps (i_x info)]; rewrite /= E; split=> // o [<-|[]]; exists (i_x info).
Qed.
(** what the updates of a session do to the data, and those of the list of steps it amounts to *)
Definition only_data (os : list (@gop P R H)) := List.filter (fun o => if o is GSetHps _ then false else true) os.
Lemma same_step (d d' : @dataset P R H) o : same_data d d' -> same_data (ds_step d o) (ds_step d' o).
Proof. by move=> [e1 [e2 e3]]; case: o => [r x y nv|x y nv|h]; rewrite /same_data /= ?e1 ?e2 ?e3. Qed.
Lemma same_history os : forall d d' : @dataset P R H, same_data d d' -> same_data (history d os) (history d' os).
Proof. by elim: os => [|o os IH] d d' S //=; apply: IH; exact: same_step. Qed.
Lemma same_sets os : sets_only os -> forall d : @dataset P R H, same_data (history d os) d.
Proof.
elim: os => [|o os IH] S d //=; have [|h ->] := S o; first by left.
by apply: (IH (fun a Ha => S a (or_intror Ha))).
Qed.
Lemma session_is ss : forall t t', sess t ss = Some t' ->
  exists os, [/\ lsteps t os = Some t', forall o, In o os -> In o (updates ss) \/ exists h, o = GSetHps h &
    forall d d' : dataset, same_data d d' -> same_data (history d os) (history d' (updates ss))].
Proof.
elim: ss => [|s ss IH] t t' /=; first by move=> [<-]; exists [].
case E : (sstep t s) => [t1|] // Es; have [os2 [S2 A2 D2]] := IH _ _ Es; have [os1 [S1 A1]] := step_is E.
exists (os1 ++ os2); split; first exact: steps_app S1 S2.
- move=> o Ha; have [Ho|Ho] := in_app_or _ _ _ Ha.
    case: s A1 {E} => [o'|r|c b ls us su] A1 /=; last by right; exact: A1. 2: by right; exact: A1.
    by move: Ho; rewrite A1 => -[<-|[]]; left; left.
  by have [U|U] := A2 _ Ho; [left; apply: in_or_app; right|right].
move=> d d' S; rewrite /history !fold_left_app; case: s A1 {E} => [o|r|c b ls us su] A1 /=.
- by rewrite A1 /=; apply: D2; exact: same_step.
- by apply: D2; have [e1 [e2 e3]] := same_sets A1 d; have [f1 [f2 f3]] := S; rewrite /same_data -f1 -f2 -f3.
- by apply: D2; have [e1 [e2 e3]] := same_sets A1 d; have [f1 [f2 f3]] := S; rewrite /same_data -f1 -f2 -f3.
Qed.
Lemma hand_set o : (exists h, o = GSetHps h) -> aligned o /\ ~ moving_noise nz o.
Proof. by move=> [h ->]; split=> //; rewrite /moving_noise; case: (nz) => // ? []. Qed.

(** C208: however data updates, settings of hyperparameters and trainings were mixed, in every exact solver mode: the GP holds
    the data of the updates alone; its likelihood and predictions are those of the Gaussian process at these data and the
    hyperparameters it holds; a further training does not lower the likelihood, whatever its optimizer returns, and a training
    that is guarded fails exactly if the optimizer does and installs its result exactly if that is at least as likely *)
Theorem training_session : forall x y nv h t0 ss t,
  lbuild x y nv h = Some t0 -> sess t0 ss = Some t ->
  (nz = @Measured P H -> length nv = length x /\ forall o, In o (updates ss) -> aligned o) ->
  (forall o, In o (updates ss) -> ~ moving_noise nz o) -> exact_mode mode ->
  let d := stored t in
  same_data d (history (DS x y nv h) (updates ss)) /\
  (posdef (noisemx d) ->
   let kh := fun a b => k a b (ds_h d) in let x := points p0 (d:=d) in
   let m := prior_mean favg mu d in let A := obs_cov p0 k nz defnoise d in
   l_loglik t = evid d /\
   forall q (xp : 'I_q -> P) (garbage : 'M[R]_q),
     let S := gram kh xp xp - gram kh xp x *m invmx A *m gram kh x xp in
     [/\ lmean t xp = mean_vec m xp + gram kh xp x *m invmx A *m (targets d - mean_vec m x),
         forall vo, (lcov t garbage xp vo).1 = \col_i S i i,
         (lcov t garbage xp false).2 = Some S &
         forall f : 'cV[R]_q, 0 < \det S ->
           log_gauss (col_mx (targets d) f) (col_mx (mean_vec m x) (mean_vec m xp)) (block_mx A (gram kh x xp) (gram kh xp x) (gram kh xp xp))
           = l_loglik t + log_gauss f (lmean t xp) S]) /\
  ((forall h', posdef (noisemx (at_hps d h'))) ->
   (forall s t', sound_training (ds_h d) s -> sstep t s = Some t' ->
      same_data (stored t') d /\ (l_loglik t <= l_loglik t')%coqR /\ (evid d <= evid (stored t'))%coqR) /\
   (forall h', exists t', sstep t (SGuarded (Some h')) = Some t' /\
      stored t' = if Rle_dec (evid d) (evid (at_hps d h')) then at_hps d h' else d) /\
   sstep t (SGuarded None) = None).
Proof.
move=> x y nv h t0 ss t B E Al Mv EM d.
have [os [S A D]] := session_is E.
have Al' : nz = @Measured P H -> length nv = length x /\ forall o, In o os -> aligned o.
  move=> e; have [L a] := Al e; split=> // o Ho; have [U|U] := A _ Ho; first exact: a.
  by have [] := hand_set U.
have Mv' o : In o os -> ~ moving_noise nz o.
  by move=> Ho; have [U|U] := A _ Ho; [exact: Mv|have [] := hand_set U].
have [DD Q] := @end_to_end _ _ p0 k mu nz favg defnoise _ _ _ _ _ _ iterate estimate _ _ _ _ mode CC CI CL CU NS VK _ _ _ _ _ _ _ B S Al' Mv' EM.
split; first by rewrite /d DD; exact: D.
split.
- move=> PN kh x' m A0; have [L R] := Q PN; split=> // q xp garbage S0; have [R1 R2 R3 R4] := R q xp garbage.
  by split=> // vo; have [-> _] := R2 vo.
move=> PN; have SO := set_ok CC CI CL NS VK B S Al' Mv' PN; have SR := set_reads CC CI CL CU NS VK B S Al' Mv' EM PN; have NR := now_reads CC CI CL CU NS VK B S Al' Mv' EM PN.
have B2 h1 t1 h2 : lstep t (GSetHps h1) = Some t1 ->
    exists t2, [/\ lstep t1 (GSetHps h2) = Some t2, stored t2 = at_hps d h2 & l_loglik t2 = evid (at_hps d h2)].
  move=> E1; have S1 := steps_snoc S E1.
  have Al1 : nz = @Measured P H -> length nv = length x /\ forall o, In o (os ++ [GSetHps h1]) -> aligned o.
    by move=> e; have [L a] := Al' e; split=> // o Ha; have [Ho|[<-|[]]] // := in_app_or _ _ _ Ha; exact: a.
  have Mv1 o : In o (os ++ [GSetHps h1]) -> ~ moving_noise nz o.
    by move=> Ha; have [Ho|[<-|[]]] := in_app_or _ _ _ Ha; [exact: Mv'|have [] := @hand_set (GSetHps h1) (ex_intro _ h1 erefl)].
  have [D1 _] := SR _ _ E1.
  have PN1 h' : posdef (noisemx (at_hps (stored t1) h')) by rewrite D1; exact: (@PN h').
  have [t2 E2] := set_ok CC CI CL NS VK B S1 Al1 Mv1 PN1 h2; have [D2 L2] := set_reads CC CI CL CU NS VK B S1 Al1 Mv1 EM PN1 E2.
  by exists t2; rewrite E2 D2 L2 D1.
split; [move=> s t' ST|split=> // h'].
- case: s ST => [//|[h1|] // _|c b ls us su [L [IB [Hb Hm]]]] /=.
    rewrite /set_hps_to; case E1 : (lstep t _) => [t1|] //; have [D1 L1] := SR _ _ E1.
    case: Rle_dec => [Le [<-]|Le E2]; first by rewrite D1 -L1; split=> //; split=> //; rewrite -NR.
    have [t2 [E2' D2 L2]] := B2 _ _ (hp (l_gp t)) E1; move: E2; rewrite E2' => -[<-].
    by rewrite D2 L2; split=> //; split; [rewrite NR|]; apply: Req_le.
  have [T _] := @bo_training _ p0 k mu nz favg defnoise _ _ _ _ _ _ iterate estimate _ _ _ _ mode CC CI CL CU NS VK _ _ _ _ _ _ _ c b ls us (su_type su)
    (@su_fit su) (@su_acquire su) (@su_mean su) (su_design su) B S Al' Mv' EM PN Hm Hb.
  move=> /T [hx [s' [[D1 I1 I2 L1] [Le K]]]]; have [es LL] := K L IB.
  by rewrite D1; split=> //; split=> //; rewrite -L1 -NR.
rewrite /= /set_hps_to; have [t1 E1] := SO h'; rewrite E1; have [D1 L1] := SR _ _ E1; rewrite NR L1; case: Rle_dec => ?; first by exists t1.
by have [t2 [-> D2 _]] := B2 _ _ (hp (l_gp t)) E1; exists t2.
Qed.
End Session.
Print Assumptions training_session.

(** example: the kernel of bo_training_ex, one observation 2 at 1 with variance 1, scale 1; an optimizer that returns the scale 0
    is turned down, one that returns 2 is not *)
Lemma one_evidence h : let s := List.nth 0 h R0 in
  evidence R0 lins (Some (fun _ _ => R0)) (@Measured R (list R)) (fun _ => R0) (fun _ => R0) (DS [1%coqR] [2%coqR] [1%coqR] h)
  = (- / 2 * (4 / (s * s + 1) + ln (s * s + 1) + ln (2 * PI)))%coqR.
Proof.
move=> s; rewrite /evidence; set A := obs_cov _ _ _ _ _.
have p : (s * s + 1 > 0)%coqR by nra.
have EA : A = (s * s + 1)%coqR%:M.
  by apply/matrixP=> i j; rewrite !mxE !ord1 eqxx mulr1n /lins /noise_entry /points /= -/s; toR; ring.
have nz : (s * s + 1)%coqR != 0 :> R by apply/eqP => e; move: p; rewrite e; exact: Rlt_irrefl.
rewrite EA /log_gauss /neg_log_gauss det_scalar1 invmx_scalar //.
set u := _ 0 0; have -> : u = (4 / (s * s + 1))%coqR.
  rewrite /u mul_mx_scalar -scalemxAl mxE mxE big_ord1 !mxE /prior_mean /points /= rinvE //; toR; field; lra.
have n2 : (2%:R : R) != 0 by rewrite pnatr_eq0.
by rewrite rinvE // /= mulr1n; toR; field; lra.
Qed.
Lemma ln_le_sub x : (0 < x)%coqR -> (ln x <= x - 1)%coqR.
Proof.
move=> p; rewrite -[X in (_ <= X)%coqR]ln_exp; have : (x <= exp (x - 1))%coqR by have := exp_ineq1_le (x - 1); lra.
by move=> [L|<-]; [apply: Rlt_le; exact: ln_increasing|exact: Rle_refl].
Qed.
Lemma lower_at_zero : (- / 2 * (4 / (0 * 0 + 1) + ln (0 * 0 + 1) + ln (2 * PI)) < - / 2 * (4 / (1 * 1 + 1) + ln (1 * 1 + 1) + ln (2 * PI)))%coqR.
Proof.
have -> : (0 * 0 + 1 = 1)%coqR by ring. have -> : (1 * 1 + 1 = 2)%coqR by ring. rewrite ln_1.
have : (ln 2 <= 2 - 1)%coqR by apply: ln_le_sub; lra. lra.
Qed.
Lemma higher_at_two : (- / 2 * (4 / (1 * 1 + 1) + ln (1 * 1 + 1) + ln (2 * PI)) <= - / 2 * (4 / (2 * 2 + 1) + ln (2 * 2 + 1) + ln (2 * PI)))%coqR.
Proof.
have -> : (1 * 1 + 1 = 2)%coqR by ring. have -> : (2 * 2 + 1 = 2 * ((5 / 4) * ((4 / 3) * (3 / 2))))%coqR by field.
rewrite (ln_mult 2 (5 / 4 * (4 / 3 * (3 / 2)))%coqR); [|lra|lra]. rewrite (ln_mult (5 / 4)); [|lra|lra]. rewrite (ln_mult (4 / 3)); [|lra|lra].
have : (ln (5 / 4) <= 5 / 4 - 1)%coqR by apply: ln_le_sub; lra.
have : (ln (4 / 3) <= 4 / 3 - 1)%coqR by apply: ln_le_sub; lra.
have : (ln (3 / 2) <= 3 / 2 - 1)%coqR by apply: ln_le_sub; lra. lra.
Qed.
Example training_session_ex mode it est : exact_mode mode ->
  let step := s_step lins (Some (fun _ _ => R0)) (@Measured R (list R)) (fun _ => R0) (fun _ => R0) (@my_cho R_rcfType) (@my_inv R_rcfType)
      (LUt := fun n => 'M[R]_n) (@my_lu R_rcfType) idR_sol (@my_diag R_rcfType) it est (Obj := fun n => 'M[R]_n) (fun n A => A) idR_sol
      (@my_logdet R_rcfType R_zmodType lnabs) mode in
  exists t0 t1 t2,
    l_build lins (Some (fun _ _ => R0)) (@Measured R (list R)) (fun _ => R0) (fun _ => R0) (@my_cho R_rcfType) (@my_inv R_rcfType)
      (LUt := fun n => 'M[R]_n) (@my_lu R_rcfType) idR_sol (@my_diag R_rcfType) it est (Obj := fun n => 'M[R]_n) (fun n A => A) idR_sol
      (@my_logdet R_rcfType R_zmodType lnabs) mode [1%coqR] [2%coqR] [1%coqR] [1%coqR] = Some t0 /\
    (step t0 (SGuarded (Some [0%coqR])) = Some t1 /\ stored t1 = DS [1%coqR] [2%coqR] [1%coqR] [1%coqR]) /\
    (step t0 (SGuarded (Some [2%coqR])) = Some t2 /\ stored t2 = DS [1%coqR] [2%coqR] [1%coqR] [2%coqR]).
Proof.
move=> EM step; have [CC [CI [CL CU]]] := contracts_possible (lnabs : R_rcfType -> R_zmodType).
have NS : symmetric_noise (@Measured R (list R)) by [].
have PD h : posdef (obs_noise R0 (@Measured R (list R)) (fun _ => R0) (DS [1%coqR] [2%coqR] [1%coqR] h)).
  have -> : obs_noise R0 (@Measured R (list R)) (fun _ => R0) (DS [1%coqR] [2%coqR] [1%coqR] h) = 1%:M.
    by apply/matrixP=> i j; rewrite !mxE /noise_entry !ord1 /=.
  by move=> x x0; rewrite mulmx1; exact: quad_gt0.
have [B _] := @updates_succeed R (list R) R0 lins (Some (fun _ _ => R0)) (@Measured R (list R)) (fun _ => R0) (fun _ => R0)
  _ _ _ _ _ _ it est (fun n => 'M[R]_n) (fun n A => A) idR_sol (@my_logdet R_rcfType R_zmodType lnabs) mode CC CI CL NS lins_valid.
have [t0 E0] := B [1%coqR] [2%coqR] [1%coqR] [1%coqR] (fun=> erefl) (PD _).
pose proof (@end_to_end R (list R) R0 lins (Some (fun _ _ => R0)) (@Measured R (list R)) (fun _ => R0) (fun _ => R0)
  _ _ _ _ _ _ it est _ _ _ _ mode CC CI CL CU NS lins_valid) as EE.
have A0 (os : list (@gop R R (list R))) : (forall o, In o os -> aligned o) -> (@Measured R (list R) = @Measured R (list R) -> length [1%coqR] = length [1%coqR] /\ forall o : @gop R R (list R), In o os -> aligned o) by [].
have Z0 : forall o : @gop R R (list R), In o [] -> aligned o by [].
have [D0 _] := EE _ _ _ _ _ [] t0 E0 erefl (A0 _ Z0) (fun o _ F => F) EM.
have PN h' : posdef (obs_noise R0 (@Measured R (list R)) (fun _ => R0) (at_hps (stored t0) h')) by rewrite D0; exact: PD.
have NR := now_reads CC CI CL CU NS lins_valid E0 (erefl : l_steps _ _ _ _ _ _ _ _ _ _ _ _ _ _ _ _ t0 [] = _) (A0 _ Z0) (fun o _ F => F) EM PN.
have SR := set_reads CC CI CL CU NS lins_valid E0 (erefl : l_steps _ _ _ _ _ _ _ _ _ _ _ _ _ _ _ _ t0 [] = _) (A0 _ Z0) (fun o _ F => F) EM PN.
have [_ [_ /(_ PN) [_ [T _]]]] := @training_session R R0 lins (Some (fun _ _ => R0)) (@Measured R (list R)) (fun _ => R0) (fun _ => R0)
  _ _ _ _ _ _ it est _ _ _ _ mode CC CI CL CU NS lins_valid _ _ _ _ _ [] t0 E0 erefl (A0 _ Z0) (fun o _ F => F) EM.
rewrite D0 one_evidence /= in NR.
exists t0.
have [t1 [E1 _]] := T [0%coqR]; have [t2 [E2 _]] := T [2%coqR]; exists t1, t2; split=> //; split.
- split=> //; move: E1; rewrite /= /set_hps_to; case Es : (l_step _ _ _ _ _ _ _ _ _ _ _ _ _ _ _ _ t0 _) => [s|] //.
  have [_ Ls] := SR _ _ Es; rewrite D0 /at_hps /= one_evidence /= in Ls.
  case: Rle_dec => [Le|nLe] /= Ef; first by exfalso; move: Le lower_at_zero; rewrite NR Ls; lra.
  have Z2 : forall o : @gop R R (list R), In o [GSetHps [0%coqR]; GSetHps (hp (l_gp t0))] -> aligned o by move=> o [<-|[<-|[]]].
  have E3 : l_steps lins (Some (fun _ _ => R0)) (@Measured R (list R)) (fun _ => R0) (fun _ => R0) (@my_cho R_rcfType) (@my_inv R_rcfType)
      (LUt := fun n => 'M[R]_n) (@my_lu R_rcfType) idR_sol (@my_diag R_rcfType) it est (Obj := fun n => 'M[R]_n) (fun n A => A) idR_sol
      (@my_logdet R_rcfType R_zmodType lnabs) mode t0 [GSetHps [0%coqR]; GSetHps (hp (l_gp t0))] = Some t1 by rewrite /= Es Ef.
  have [D1 _] := EE _ _ _ _ _ _ t1 E0 E3 (A0 _ Z2) (fun o _ F => F) EM.
  by rewrite D1 /=; congr DS; have := f_equal ds_h D0.
split=> //; move: E2; rewrite /= /set_hps_to; case Es : (l_step _ _ _ _ _ _ _ _ _ _ _ _ _ _ _ _ t0 _) => [s|] //.
have [Ds Ls] := SR _ _ Es; rewrite D0 /at_hps /= one_evidence /= in Ls.
case: Rle_dec => [Ly [<-]|Le]; first by rewrite Ds D0.
by exfalso; apply: Le; rewrite NR Ls; exact: higher_at_two.
Qed.
