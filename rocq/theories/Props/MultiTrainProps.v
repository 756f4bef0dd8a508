(** A multi-task GP through updates and trainings in any order: C211. *)
From Coq Require Import Reals Lra List ZArith Lia.
From mathcomp Require Import all_ssreflect all_algebra.
From Verif Require Import Model.Prelude Model.Ext Model.Data Model.FvGP Model.GPState Model.Likelihood Model.Solvers Model.Posterior Model.LifeCycle Model.TaskArray Model.MultiGP Model.BO Model.Training Model.TrainBO Model.TrainSession Model.MultiTrain.
From Verif Require Import Proofs.RealMx Spec.CholSpec Spec.SolversSpec Spec.GPStateSpec Spec.LifeCycleSpec Spec.KernelSpec Spec.LikelihoodSpec Spec.PosteriorSpec Spec.MultiGPSpec.
From Verif Require Import Spec.DataSpec Spec.FvGPSpec Proofs.DataP Proofs.FvGPP Proofs.MultiDataP Proofs.CholP Proofs.PosDef Proofs.SolversP Proofs.PosteriorP Proofs.PosteriorEx Props.SolversProps Props.PosteriorProps Props.FvGPProps Props.TaskArrayProps Props.LifeCycleProps Props.MultiGPProps Props.BOProps Props.TrainBOProps Props.TrainSessionProps.
Set Implicit Arguments.
Unset Strict Implicit.
Unset Printing Implicit Defensive.
Import Order.TTheory GRing.Theory Num.Theory.
Local Open Scope ring_scope.

Section Multi.
Variable Pt : Type.
Notation H := (list R).
Notation P := (list value + Pt * nat)%type.
Variables (p0 : P) (k : P -> P -> H -> R) (mu : option (P -> H -> R)) (nz : noise_choice P H) (favg defnoise : list R -> R).
Variable cho_factor np_inv : forall n, 'M[R]_n -> option 'M[R]_n.
Variable LUt : nat -> Type.
Variable splu : forall n, 'M[R]_n -> option (LUt n).
Variable lu_solve : forall n k, LUt n -> 'M[R]_(n, k) -> 'M[R]_(n, k).
Variable lu_diag : forall n, LUt n -> 'rV[R]_n.
Variable iterate : smode -> forall n k, 'M[R]_n -> 'M[R]_(n, k) -> 'M[R]_(n, k).
Variable estimate : nat -> forall n, 'M[R]_n -> R * option R.
Variable Obj : nat -> Type.
Variable c_factor : forall n, 'M[R]_n -> Obj n.
Variable c_solve : forall n k, Obj n -> 'M[R]_(n, k) -> 'M[R]_(n, k).
Variable c_logdet : forall n, Obj n -> R.
Variable mode : smode.
Hypothesis CC : @chol_contract R_rcfType cho_factor.
Hypothesis CI : @inv_contract R_rcfType np_inv.
Hypothesis CL : @lu_contract R_rcfType LUt splu lu_solve lu_diag.
Hypothesis CU : @custom_contract R_rcfType R_zmodType lnabs Obj c_factor c_solve c_logdet.
Hypothesis NS : symmetric_noise nz.
Hypothesis VK : forall h, valid_covariance (fun a b => k a b h).

Notation lbuild := (l_build k mu nz favg defnoise cho_factor np_inv splu lu_solve lu_diag iterate estimate c_factor c_solve c_logdet mode).
Notation lsteps := (l_steps k mu nz favg defnoise cho_factor np_inv splu lu_solve lu_diag iterate estimate c_factor c_solve c_logdet mode).
Notation sess := (session k mu nz favg defnoise cho_factor np_inv splu lu_solve lu_diag iterate estimate c_factor c_solve c_logdet mode).
Notation sstep := (s_step k mu nz favg defnoise cho_factor np_inv splu lu_solve lu_diag iterate estimate c_factor c_solve c_logdet mode).
Notation mstart := (m_start k mu nz favg defnoise cho_factor np_inv splu lu_solve lu_diag iterate estimate c_factor c_solve c_logdet mode).
Notation mrun := (m_run k mu nz favg defnoise cho_factor np_inv splu lu_solve lu_diag iterate estimate c_factor c_solve c_logdet mode).
Notation mtstep := (mt_step k mu nz favg defnoise cho_factor np_inv splu lu_solve lu_diag iterate estimate c_factor c_solve c_logdet mode).
Notation mtsess := (mt_session k mu nz favg defnoise cho_factor np_inv splu lu_solve lu_diag iterate estimate c_factor c_solve c_logdet mode).
Notation mmean := (m_mean k mu favg p0).
Notation mcov := (m_cov k lu_solve iterate c_solve mode p0).
Notation noisemx := (obs_noise p0 nz defnoise).
Notation evid := (evidence p0 k mu nz favg defnoise).

(** the calls of a session that change data *)
Definition data_calls (os : list (mtop Pt)) : list (fop value Pt) := List.flat_map (fun o => if o is MTUpdate (MUpdate _ u) then [:: u] else [::]) os.
(** trainings whose result cannot be worse: guarded, or by Bayesian optimisation in a proper box around [h] *)
Definition sound (h : H) (s : training) : Prop :=
  match s with
  | TGuarded _ => True
  | TBO c bounds ls us su => length h = length bounds /\ in_box bounds h /\
      (forall j lo hi, nth_error bounds j = Some (lo, hi) -> (lo < hi)%coqR /\ ((0 < lo)%coqR -> (/ 10 ^ 300 <= lo)%coqR)) /\
      (forall g vs m, @su_mean su g vs = Some m -> length m = length vs)
  end.

Lemma run_app os os' : forall t t' t'', mrun t os = Some t' -> mrun t' os' = Some t'' -> mrun t (os ++ os')%list = Some t''.
Proof. by elim: os => [|a l IH] t t' t'' /=; [move=> [->]|case: (m_next _ _ _ _ _ _ _ _ _ _ _ _ _ _ _ _ t a) => // s; exact: IH]. Qed.
(** a training is a sequence of set_hyperparameters *)
Lemma training_is t s t' : mtstep t (MTTrain s) = Some t' ->
  m_f t' = m_f t /\ exists hs, mrun t (List.map (@MSetHps Pt H) hs) = Some t'.
Proof.
rewrite /=; case E : (sstep (m_life t) (as_sop Pt s)) => [l|] //= [<-]; split=> //; have [os [S O]] := step_is E.
have {O} O : sets_only os by case: s O {E}.
case: t E S => f l0 _ /=.
elim: os O l0 => [|o os IH] O l0 /=; first by move=> [<-]; exists [::].
have [|h ->] := O o; first by left.
case E : (l_step _ _ _ _ _ _ _ _ _ _ _ _ _ _ _ _ l0 _) => [l1|] // S; have [|hs Hs] := IH _ _ S; first by move=> a Ha; apply: O; right.
by exists (h :: hs); rewrite /= E.
Qed.
Lemma session_runs os : forall t t', mtsess t os = Some t' ->
  exists ms, [/\ mrun t ms = Some t', MultiGPProps.updates ms = data_calls os & forall r u, In (MUpdate H r u) ms -> In (MTUpdate (MUpdate H r u)) os].
Proof.
elim: os => [|o os IH] t t' /=; first by move=> [<-]; exists [::].
case E : (mtstep t o) => [t1|] // S; have [ms [R U I]] := IH _ _ S; case: o E => [o|s] E.
- exists (o :: ms); split; first by move: E; rewrite /= => ->.
    by rewrite /MultiGPProps.updates /= -/(MultiGPProps.updates ms) U; case: (o).
  by move=> r u [->|Ha]; [left|right; exact: I].
have [_ [hs Hs]] := training_is E; exists (List.map (@MSetHps Pt H) hs ++ ms)%list; split; first exact: run_app Hs R.
- rewrite /MultiGPProps.updates List.flat_map_app -/(MultiGPProps.updates ms) U; suff -> : List.flat_map (fun o : mop Pt H => if o is MUpdate _ u then [:: u] else [::]) (List.map (@MSetHps Pt H) hs) = [::] by [].
  by elim: (hs).
- move=> r u /List.in_app_iff [/List.in_map_iff [h [//]]|Ha]; right; exact: I.
Qed.
Lemma as_session gops : forall l l', lsteps l gops = Some l' -> sess l (List.map (@SUpdate P) gops) = Some l'.
Proof. by elim: gops => [|g gs IH] l l' //=; case: (l_step _ _ _ _ _ _ _ _ _ _ _ _ _ _ _ _ l g) => // l1; exact: IH. Qed.
Lemma its_updates gops : TrainSessionProps.updates (List.map (@SUpdate P) gops) = gops.
Proof. by elim: gops => [|g gs IH] //; rewrite /TrainSessionProps.updates /= -/(TrainSessionProps.updates _) IH. Qed.

(** C211: however updates of the data, settings of hyperparameters and trainings were mixed, in every exact solver mode: the
    multi-task arrays are those of the updates; the single-task data are their observed entries, each once; likelihood and
    predictions are those of the joint Gaussian of points and tasks given exactly these, at the hyperparameters the GP holds; a
    further training keeps all of the data and does not lower the likelihood, and a guarded one fails exactly if its optimizer
    does and installs its result exactly if that is at least as likely *)
Theorem multi_task_session : forall x ym nv h t0 os t,
  mstart x (FYMat ym) nv h = Some t0 -> mtsess t0 os = Some t ->
  args_ok x (FYMat ym) nv -> rows ym <> [::] -> (0 < ncols ym)%coq_nat ->
  (forall o, In o (data_calls os) -> args_ok (p_x o) (p_y o) (p_n o) /\ exists yo, p_y o = FYMat yo /\ rows yo <> [::]) ->
  (nz = @Measured P H -> nv <> FNNone) ->
  (nz = @Default P H -> forall u, In (MTUpdate (MUpdate H true u)) os -> p_append u = false) -> exact_mode mode ->
  let d := LifeCycleSpec.stored (m_life t) in let s := m_f t in
  (mt_points (f_x s) = List.fold_left mt_points_after (data_calls os) (mt_points x) /\
   mt_values (f_y s) = List.fold_left mt_values_after (data_calls os) (rows ym) /\
   mt_noise (f_n s) = List.fold_left mt_noise_after (data_calls os) (mt_noise nv)) /\
  (exists ym' idx, f_y s = FYMat ym' /\ enumerates vnan (ncols ym) ym' idx /\ length (ds_x d) = length idx /\ length (ds_y d) = length idx /\
     forall a i j, List.nth_error idx a = Some (i, j) ->
       List.nth_error (ds_x d) a = task_point (fun i => Some (INR i)) (f_x s) i j /\
       (exists r, FvGPSpec.entry ym' j i = Some (Some r) /\ List.nth_error (ds_y d) a = Some r) /\
       (forall nm, f_n s = FNMat nm -> exists v, FvGPSpec.entry nm j i = Some v /\ List.nth_error (ds_nv d) a = Some (num v))) /\
  (posdef (noisemx d) ->
   let kh := fun a b => k a b (ds_h d) in let X := LifeCycleSpec.points p0 (d:=d) in
   let m := prior_mean favg mu d in let A := gram kh X X + noisemx d in
   l_loglik (m_life t) = log_gauss (targets d) (mean_vec m X) A /\
   forall xp x_out garbage p tk z,
     let T := if x_out is Some l then l else List.seq 0 (ncols ym) in
     List.nth_error xp p = Some z -> forall u, List.nth_error T tk = Some u ->
     let at_ (z : list value + Pt) (u : nat) : P := match z with inl r => inl (r ++ [:: Some (INR u)])%list | inr o => inr (o, u) end in
     mmean t xp x_out [:: p; tk] = given_mean kh m X A (targets d) (at_ z u) /\
     (forall vo, (@mcov t xp x_out garbage vo).1 [:: p; tk] = given_cov kh X A (at_ z u) (at_ z u)) /\
     exists C, (@mcov t xp x_out garbage false).2 = Some C /\
       forall p' tk' z' u', List.nth_error xp p' = Some z' -> List.nth_error T tk' = Some u' ->
         C [:: p; p'; tk; tk'] = given_cov kh X A (at_ z u) (at_ z' u')) /\
  ((forall h', posdef (noisemx (DS (ds_x d) (ds_y d) (ds_nv d) h'))) ->
   (forall s' t', sound (ds_h d) s' -> mtstep t (MTTrain s') = Some t' ->
      m_f t' = m_f t /\ (exists h', LifeCycleSpec.stored (m_life t') = DS (ds_x d) (ds_y d) (ds_nv d) h') /\ (l_loglik (m_life t) <= l_loglik (m_life t'))%coqR) /\
   (forall h', let evid := evidence p0 k mu nz favg defnoise in let d' := DS (ds_x d) (ds_y d) (ds_nv d) h' in
      exists t', mtstep t (MTTrain (TGuarded (Some h'))) = Some t' /\
        LifeCycleSpec.stored (m_life t') = if Rle_dec (evid d) (evid d') then d' else d) /\
   mtstep t (MTTrain (TGuarded None)) = None).
Proof.
move=> x ym nv h t0 os t B E Ao Ne Kp F Nm Mv EM d s; have [ms [Rn U I]] := session_runs E; rewrite -U in F.
have Mv' : nz = @Default P H -> forall u, In (MUpdate H true u) ms -> p_append u = false by move=> D u Hu; apply: (Mv D); exact: I.
have [[Q1 [Q2 [Q3 _]]] [QF QP]] := multi_task_end_to_end p0 CC CI CL CU NS VK B Rn Ao Ne Kp F Nm Mv' EM.
split; first by rewrite -U.
split; first exact: QF. split; first exact: QP.
move=> PN.
have [s0 [l0 [FI [{}B T0]]]] : exists s0 l0, fv_init vnan vtask x (FYMat ym) nv = Ok s0 /\ lbuild (pts (Data.g_x (f_data s0))) (vals (Data.g_y (f_data s0))) (noises (Data.g_noise (f_data s0))) h = Some l0 /\ t0 = Multi s0 l0.
  move: B; rewrite /m_start; case: (fv_init _ _ _ _ _) => [s0|] //; case B: (lbuild _ _ _ h) => [l0|] //= [<-].
  by exists s0, l0.
subst t0.
have [I0 K0] := init_inv vnan vtask _ _ _ _ (proj1 Ao) Ao Ne Kp FI.
have Gn : nz = @Measured P H -> Data.g_noise (f_data s0) <> None.
  move/Nm=> N; case: I0 => _ [_ [ym0 [_ [_ [_ [NR _]]]]]]; move: NR.
  have -> : f_n s0 = nv by move: FI; rewrite /fv_init; case: (negb _) => //; case: (transform_index_set2 _ _ _ _ _ _) => // f; case: (data_init _ _ _ _) => // d0 [<-].
  by case: (nv) N => //= nm _; case: (Data.g_noise _).
have [gops [log [S1 [S2 [S3 [S4 [S5 [S6 S7]]]]]]]] := run_ok Rn I0 F Mv' Gn.
have AL : nz = @Measured P H -> length (noises (Data.g_noise (f_data s0))) = length (pts (Data.g_x (f_data s0))) /\ forall o, In o (TrainSessionProps.updates (List.map (@SUpdate P) gops)) -> aligned o.
  rewrite its_updates => M; split; last exact: S6.
  case: I0 => _ [_ [ym0 [_ [_ [_ [NR _]]]]]]; move: NR (Gn M); case: (Data.g_noise _) => [l|] //=; case: (f_n s0) => //= nm [_ [_ Ll]] _.
  by rewrite List.map_length Ll.
have S7' o : In o (TrainSessionProps.updates (List.map (@SUpdate P) gops)) -> ~ moving_noise nz o by rewrite its_updates; exact: S7.
have [_ [_ T]] := training_session p0 CC CI CL CU NS VK B (as_session S1) AL S7' EM; have [T1 [T2 _]] := T PN.
split; [move=> s' t' So Es|split=> // h' evid d'].
- have [Ef _] := training_is Es; split=> //; move: Es; rewrite /=; case Es : (sstep (m_life t) _) => [l|] //= [<-] /=.
  have [|[e1 [e2 e3]] [Le _]] := T1 (as_sop Pt s') l _ Es; first by case: (s') So.
  split=> //; move: e1 e2 e3; case: (LifeCycleSpec.stored l) => a b c e /= -> -> ->; by exists e.
by have [l [El Dl]] := T2 h'; exists (Multi (m_f t) l); move: El; rewrite /= => ->.
Qed.
End Multi.
Print Assumptions multi_task_session.

(** example: task 0 is measured at 1 (value 2, variance 1), task 1 is not; the common kernel is the product of the coordinates times
    the squared scale, which is 1.  An optimizer that returns the scale 0 is turned down, one that returns 2 is not; the arrays stay *)
Definition colins (a b : Px) (h : list R) : R := lins (xco a) (xco b) h.
Lemma colins_valid (h : list R) : valid_covariance (fun a b => colins a b h).
Proof. exact: (rank1_valid (fun a => Rmult (List.nth 0 h R0) (xco a))). Qed.
Notation exds h := (DS [:: ex_row 0] [:: 2%coqR] [:: 1%coqR] h).
Lemma task_evidence h : let s := List.nth 0 h R0 in
  evidence (ex_row 0) colins (Some (fun _ _ => R0)) (@Measured Px (list R)) (fun _ => R0) (fun _ => R0) (exds h)
  = (- / 2 * (4 / (s * s + 1) + ln (s * s + 1) + ln (2 * PI)))%coqR.
Proof.
move=> s; rewrite /evidence; set A := obs_cov _ _ _ _ _.
have p : (s * s + 1 > 0)%coqR by nra.
have EA : A = (s * s + 1)%coqR%:M.
  by apply/matrixP=> i j; rewrite !mxE !ord1 eqxx mulr1n /colins /lins /LifeCycleSpec.noise_entry /LifeCycleSpec.points /= -/s; toR; ring.
have nz : (s * s + 1)%coqR != 0 :> R by apply/eqP => e; move: p; rewrite e; exact: Rlt_irrefl.
rewrite EA /log_gauss /neg_log_gauss det_scalar1 invmx_scalar //.
set u := _ 0 0; have -> : u = (4 / (s * s + 1))%coqR.
  rewrite /u mul_mx_scalar -scalemxAl mxE mxE big_ord1 !mxE /prior_mean /LifeCycleSpec.points /= rinvE //; toR; field; lra.
have n2 : (2%:R : R) != 0 by rewrite pnatr_eq0.
by rewrite rinvE // /= mulr1n; toR; field; lra.
Qed.
Notation with_es f mode it est := (f colins (Some (fun _ _ => R0)) (@Measured Px (list R)) (fun _ => R0) (fun _ => R0)
  (@my_cho R_rcfType) (@my_inv R_rcfType) (fun n => 'M[R]_n) (@my_lu R_rcfType) idR_sol (@my_diag R_rcfType) it est
  (fun n => 'M[R]_n) (fun n A => A) idR_sol (@my_logdet R_rcfType R_zmodType lnabs) mode).
Example multi_task_session_ex mode it est : exact_mode mode ->
  exists t0 t1 t2, with_es (@m_start unit (list R)) mode it est ex_fx (FYMat ex_y0) ex_fn [:: 1%coqR] = Some t0 /\
    (with_es (@mt_step unit) mode it est t0 (MTTrain (TGuarded (Some [:: 0%coqR]))) = Some t1 /\ ds_h (LifeCycleSpec.stored (m_life t1)) = [:: 1%coqR]) /\
    (with_es (@mt_step unit) mode it est t0 (MTTrain (TGuarded (Some [:: 2%coqR]))) = Some t2 /\ ds_h (LifeCycleSpec.stored (m_life t2)) = [:: 2%coqR]) /\
    f_y (m_f t2) = FYMat ex_y0.
Proof.
move=> EM; have [CC [CI [CL CU]]] := contracts_possible (lnabs : R_rcfType -> R_zmodType).
have NS : symmetric_noise (@Measured Px (list R)) by [].
have PD h : posdef (obs_noise (ex_row 0) (@Measured Px (list R)) (fun _ => R0) (exds h)).
  have -> : obs_noise (ex_row 0) (@Measured Px (list R)) (fun _ => R0) (exds h) = 1%:M.
    by apply/matrixP=> i j; rewrite !mxE /LifeCycleSpec.noise_entry !ord1 /=.
  by move=> x x0; rewrite mulmx1; exact: quad_gt0.
have [B _] := @updates_succeed Px (list R) (ex_row 0) colins (Some (fun _ _ => R0)) (@Measured Px (list R)) (fun _ => R0) (fun _ => R0)
  _ _ _ _ _ _ it est (fun n => 'M[R]_n) (fun n A => A) idR_sol (@my_logdet R_rcfType R_zmodType lnabs) mode CC CI CL NS colins_valid.
have [s0 [I0 [Ix [Iy [In0 _]]]]] := ex_init.
have Fy : f_y s0 = FYMat ex_y0 by move: I0 => -[<-].
have [l0 E0] := B [:: ex_row 0] [:: 2%coqR] [:: 1%coqR] [:: 1%coqR] (fun=> erefl) (PD _).
pose proof (@end_to_end Px (list R) (ex_row 0) colins (Some (fun _ _ => R0)) (@Measured Px (list R)) (fun _ => R0) (fun _ => R0)
  _ _ _ _ _ _ it est _ _ _ _ mode CC CI CL CU NS colins_valid) as EE.
have A0 (os : list (@gop Px R (list R))) : (forall o, In o os -> aligned o) -> (@Measured Px (list R) = @Measured Px (list R) -> length [:: 1%coqR] = length [:: ex_row 0] /\ forall o : @gop Px R (list R), In o os -> aligned o) by [].
have Z0 : forall o : @gop Px R (list R), In o [::] -> aligned o by [].
have [D0 _] := EE _ _ _ _ _ [::] l0 E0 erefl (A0 _ Z0) (fun o _ F => F) EM.
have PN h' : posdef (obs_noise (ex_row 0) (@Measured Px (list R)) (fun _ => R0) (at_hps (LifeCycleSpec.stored l0) h')) by rewrite D0; exact: PD.
have NR := now_reads CC CI CL CU NS colins_valid E0 (erefl : l_steps _ _ _ _ _ _ _ _ _ _ _ _ _ _ _ _ l0 [::] = _) (A0 _ Z0) (fun o _ F => F) EM PN.
have SR := set_reads CC CI CL CU NS colins_valid E0 (erefl : l_steps _ _ _ _ _ _ _ _ _ _ _ _ _ _ _ _ l0 [::] = _) (A0 _ Z0) (fun o _ F => F) EM PN.
have S0 : with_es (@m_start unit (list R)) mode it est ex_fx (FYMat ex_y0) ex_fn [:: 1%coqR] = Some (Multi s0 l0) by rewrite /m_start I0 Ix Iy In0 E0.
have AO0 : args_ok ex_fx (FYMat ex_y0) ex_fn by split=> // r [<-|[]].
have [_ [_ [_ T]]] := @multi_task_session unit (ex_row 0) colins (Some (fun _ _ => R0)) (@Measured Px (list R)) (fun _ => R0) (fun _ => R0)
  _ _ _ _ _ _ it est _ _ _ _ mode CC CI CL CU NS colins_valid ex_fx ex_y0 ex_fn [:: 1%coqR] _ [::] _ S0 erefl AO0 ltac:(by []) ltac:(rewrite /=; lia) ltac:(by []) ltac:(by []) ltac:(by []) EM.
have [_ [{}T _]] := T PN; rewrite D0 task_evidence /= in NR.
have [t1 [E1 _]] := T [:: 0%coqR]; have [t2 [E2 _]] := T [:: 2%coqR]; exists (Multi s0 l0), t1, t2; split=> //; split.
- split=> //; move: E1; rewrite /= /set_hps_to; case Es : (l_step _ _ _ _ _ _ _ _ _ _ _ _ _ _ _ _ l0 _) => [s|] //.
  have [_ Ls] := SR _ _ Es; rewrite D0 /at_hps /= task_evidence /= in Ls.
  case: Rle_dec => [Le|nLe] /=; first by exfalso; move: Le lower_at_zero; rewrite NR Ls; lra.
  case Ef : (l_step _ _ _ _ _ _ _ _ _ _ _ _ _ _ _ _ s _) => [l1|] //= [<-] /=.
  have Z2 : forall o : @gop Px R (list R), In o [:: GSetHps [:: 0%coqR]; GSetHps (hp (l_gp l0))] -> aligned o by move=> o [<-|[<-|[]]].
  have E3 : with_es (@l_steps Px (list R)) mode it est l0 [:: GSetHps [:: 0%coqR]; GSetHps (hp (l_gp l0))] = Some l1 by rewrite /= Es Ef.
  have [D1 _] := EE _ _ _ _ _ _ l1 E0 E3 (A0 _ Z2) (fun o _ F => F) EM.
  exact: (etrans (f_equal ds_h D1) (f_equal ds_h D0)).
move: E2; rewrite /= /set_hps_to; case Es : (l_step _ _ _ _ _ _ _ _ _ _ _ _ _ _ _ _ l0 _) => [s|] //.
have [Ds Ls] := SR _ _ Es; rewrite D0 /at_hps /= task_evidence /= in Ls.
case: Rle_dec => [Ly|Le]; last by exfalso; apply: Le; rewrite NR Ls; exact: higher_at_two.
by move=> /= [<-]; split=> //; split=> //; exact: (f_equal ds_h Ds).
Qed.
