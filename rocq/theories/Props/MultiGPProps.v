(** A multi-task GP from its data to its predictions: C196. *)
From Coq Require Import Reals Lra List ZArith Lia.
From mathcomp Require Import all_ssreflect all_algebra.
From Verif Require Import Model.Prelude Model.Data Model.FvGP Model.GPState Model.Likelihood Model.Solvers Model.Posterior Model.LifeCycle Model.TaskArray Model.MultiGP.
From Verif Require Import Proofs.RealMx Spec.CholSpec Spec.SolversSpec Spec.GPStateSpec Spec.LifeCycleSpec Spec.KernelSpec Spec.LikelihoodSpec Spec.PosteriorSpec Spec.MultiGPSpec.
From Verif Require Import Spec.DataSpec Spec.FvGPSpec Proofs.DataP Proofs.FvGPP Proofs.MultiDataP Props.FvGPProps Props.TaskArrayProps Props.LifeCycleProps.
Set Implicit Arguments.
Unset Strict Implicit.
Unset Printing Implicit Defensive.
Import Order.TTheory GRing.Theory Num.Theory.
Local Open Scope ring_scope.

Lemma zip3_nth {A B C} (a : list A) (b : list B) (c : option (list C)) : forall n p r s, List.nth_error (zip3 a b c) n = Some (p, r, s) ->
  List.nth_error a n = Some p /\ List.nth_error b n = Some r /\ (match c with Some l => exists v, s = Some v /\ List.nth_error l n = Some v | None => s = None end).
Proof.
rewrite /zip3 => n p r s; elim: n a b c => [|n IH] [|a0 a] [|b0 b] [[|c0 c]|] //=.
- by case=> <- <- <-; do 2 split=> //; exists c0.
- by case=> <- <- <-.
- by move/(IH a b (Some c)).
by move/(IH a b None).
Qed.

Section Multi.
Variables Pt H : Type.
Notation P := (list value + Pt * nat)%type.
Variables (p0 : P) (k : P -> P -> H -> R) (mu : option (P -> H -> R)) (nz : noise_choice P H) (favg defnoise : list R -> R).
Variable cho_factor np_inv : forall n, 'M[R]_n -> option 'M[R]_n.
Variable LUt : nat -> Type.
Variable splu : forall n, 'M[R]_n -> option (LUt n).
Variable lu_solve : forall n k, LUt n -> 'M[R]_(n, k) -> 'M[R]_(n, k).
Variable lu_diag : forall n, LUt n -> 'rV[R]_n.
Variable iterate : smode -> forall n k, 'M[R]_n -> 'M[R]_(n, k) -> 'M[R]_(n, k).
Variable estimate : nat -> forall n, 'M[R]_n -> R * option R.
Variable Obj : nat -> Type.
Variable c_factor : forall n, 'M[R]_n -> Obj n.
Variable c_solve : forall n k, Obj n -> 'M[R]_(n, k) -> 'M[R]_(n, k).
Variable c_logdet : forall n, Obj n -> R.
Variable mode : smode.
Hypothesis CC : @chol_contract R_rcfType cho_factor.
Hypothesis CI : @inv_contract R_rcfType np_inv.
Hypothesis CL : @lu_contract R_rcfType LUt splu lu_solve lu_diag.
Hypothesis CU : @custom_contract R_rcfType R_zmodType lnabs Obj c_factor c_solve c_logdet.
Hypothesis NS : symmetric_noise nz.
Hypothesis VK : forall h, valid_covariance (fun a b => k a b h).

Notation lbuild := (l_build k mu nz favg defnoise cho_factor np_inv splu lu_solve lu_diag iterate estimate c_factor c_solve c_logdet mode).
Notation lstep := (l_step k mu nz favg defnoise cho_factor np_inv splu lu_solve lu_diag iterate estimate c_factor c_solve c_logdet mode).
Notation lsteps := (l_steps k mu nz favg defnoise cho_factor np_inv splu lu_solve lu_diag iterate estimate c_factor c_solve c_logdet mode).
Notation mstart := (m_start k mu nz favg defnoise cho_factor np_inv splu lu_solve lu_diag iterate estimate c_factor c_solve c_logdet mode).
Notation mrun := (m_run k mu nz favg defnoise cho_factor np_inv splu lu_solve lu_diag iterate estimate c_factor c_solve c_logdet mode).
Notation mmean := (m_mean k mu favg p0).
Notation mcov := (m_cov k lu_solve iterate c_solve mode p0).
Notation noisemx := (obs_noise p0 nz defnoise).
Notation data := (@dataset P R H).
Notation inv := (FvGPP.inv vnan vtask).

(** the calls that change data *)
Definition updates (os : list (mop Pt H)) : list (fop value Pt) := List.flat_map (fun o => if o is MUpdate _ u then [:: u] else [::]) os.
Definition last_hps (h : H) (os : list (mop Pt H)) : H := List.fold_left (fun h o => if o is MSetHps h' then h' else h) os h.
Definition agrees (d : data) (g : gdata value (Pt * nat)) : Prop :=
  [/\ ds_x d = stored_x g, ds_y d = List.map (fun r => num (List.hd None r)) (stored_y g) & ds_nv d = noises (g_noise g)].

Lemma base_op_new r ap (d : gdata value (Pt * nat)) : base_op H r ap d =
  let x := new_x ap d in let y := List.map (fun r => num (List.hd None r)) (new_y ap d) in let n := noises (new_n ap d) in
  if ap then GAppend r x y n else GOverwrite x y n.
Proof. by rewrite /base_op /new_x /new_y /new_n; case: ap => //=; case: (g_xnew d) => [[]|]; case: (g_ynew d). Qed.

Lemma run_ok : forall os t t', mrun t os = Some t' -> inv (m_f t) -> (forall o, In o (updates os) -> op_fine o) ->
  (nz = @Default P H -> forall u, In (MUpdate H true u) os -> p_append u = false) ->
  (nz = @Measured P H -> g_noise (f_data (m_f t)) <> None) ->
  exists gops log, lsteps (m_life t) gops = Some (m_life t') /\
    fv_session vnan vtask (m_f t) (updates os) = (m_f t', log) /\ (forall o r, In (o, r) log -> r = Ok tt) /\ inv (m_f t') /\
    (forall d0, agrees d0 (f_data (m_f t)) -> agrees (history d0 gops) (f_data (m_f t')) /\ ds_h (history d0 gops) = last_hps (ds_h d0) os) /\
    (nz = @Measured P H -> forall o, In o gops -> aligned o) /\ (forall o, In o gops -> ~ moving_noise nz o).
Proof.
elim=> [|o os IH] t t' /=.
  by case=> <- I _ _ _; exists [::], [::]; do 6 split=> //.
case: o => [r u|h] /=; rewrite /m_next.
- case U: (fv_update vnan vtask (m_f t) u) => [s [[]|e]] //; set g := base_op H r (p_append u) (f_data s).
  case L: (lstep (m_life t) g) => [l|] //= E I F Mv Nn.
  have Fu : op_fine u by apply: F; left.
  have [I1 K1] := update_inv vnan vtask _ _ _ I Fu U; have [Sx [Sy Sn]] := base_step vnan vtask _ _ _ I Fu U.
  have Nn' : nz = @Measured P H -> g_noise (f_data s) <> None.
    by move/Nn; move: Sn; case: (g_noise (f_data (m_f t))) => // a; case: (g_noise (f_data s)).
  have [|||gops [log [S1 [S2 [S3 [S4 [S5 [S6 S7]]]]]]]] := IH (Multi s l) t' E I1.
  + by move=> o Ho; apply: F; right.
  + by move=> D u' Hu; apply: (Mv D); right.
  + exact: Nn'.
  exists (g :: gops), ((u, Ok tt) :: log); split; first by rewrite /= L.
  split; first by rewrite S2.
  split; first by move=> o q [[_ <-]|Hq] //; exact: S3 Hq.
  split=> //; split; last split.
  + move=> d0 [A1 A2 A3]; have A : agrees (ds_step d0 g) (f_data s).
      rewrite /g base_op_new /=; case: (p_append u) Sx Sy Sn => Sx Sy Sn; split=> /=; rewrite ?A1 ?A2 ?A3.
      * by rewrite Sx.
      * by rewrite Sy List.map_app.
      * move: Sn; case: (g_noise (f_data (m_f t))) => [a|]; case: (g_noise (f_data s)) => [b|] //; rewrite /new_n; case: (g_noisenew (f_data s)) => [c|] //= [-> _].
        by rewrite List.map_app.
      * by rewrite Sx.
      * by rewrite Sy.
      * by [].
    have [B1 B2] := S5 _ A; split=> //; rewrite /history /= -/(history _ _) B2 /last_hps /=; congr (List.fold_left _ _ _).
    by rewrite /g base_op_new; case: (p_append u).
  + move=> M o [<-|Ho]; last exact: S6.
    rewrite /g base_op_new; move: Sn (Nn M); case: (g_noise (f_data (m_f t))) => [a|] //; case: (g_noise (f_data s)) => [b|] //.
    by case: (new_n (p_append u) (f_data s)) => [c|] // [_ Lc] _; case: (p_append u) Lc => /= Lc; rewrite List.map_length.
  + move=> o [<-|Ho]; last exact: S7.
    rewrite /g base_op_new /moving_noise; case EA: (p_append u); case ER: r => /=; case Z: nz => [||nu|nu]; try by case.
    by have := Mv Z u; rewrite ER EA => /(_ (or_introl (erefl _))).
- case L: (lstep (m_life t) _) => [l|] //= E I F Mv Nn.
  have [||gops [log [S1 [S2 [S3 [S4 [S5 [S6 S7]]]]]]]] := IH (Multi (m_f t) l) t' E I F.
  + by move=> D u Hu; apply: (Mv D); right.
  + exact: Nn.
  exists (@GSetHps P R H h :: gops), log; split; first by rewrite /= L.
  split=> //; split=> //; split=> //; split; last split.
  + by move=> d0 [A1 A2 A3]; have [|B1 B2] := S5 (ds_step d0 (@GSetHps P R H h)).
  + by move=> M o [<-|Ho] //; exact: S6.
  + by move=> o [<-|Ho]; [rewrite /moving_noise; case: (nz) => [||nu|nu] []|exact: S7].
Qed.

(** the entries of the flat predictions *)
Lemma given_mean_flat q (xp : 'I_q -> P) n (x : 'I_n -> P) (kh : P -> P -> R) m (A : 'M[R]_n) y i :
  (mean_vec m xp + gram kh xp x *m invmx A *m (y - mean_vec m x)) i 0 = given_mean kh m x A y (xp i).
Proof.
rewrite !mxE /given_mean; congr (_ + _); rewrite exchange_big; apply: eq_bigr => j _; rewrite !mxE mulr_suml.
by apply: eq_bigr => l _; rewrite !mxE.
Qed.
Lemma given_cov_flat q (xp : 'I_q -> P) n (x : 'I_n -> P) (kh : P -> P -> R) (A : 'M[R]_n) i j :
  (gram kh xp xp - gram kh xp x *m invmx A *m gram kh x xp) i j = given_cov kh x A (xp i) (xp j).
Proof.
rewrite !mxE /given_cov; congr (_ - _); rewrite exchange_big; apply: eq_bigr => l _; rewrite !mxE mulr_suml.
by apply: eq_bigr => l' _; rewrite !mxE.
Qed.

(** C196: after any accepted history, the single-task data are the observed entries of the multi-task arrays, each once, and
    the prediction for point p and task t is that of the joint Gaussian of all points and tasks given exactly these *)
Theorem multi_task_end_to_end : forall x ym nv h t0 os t,
  mstart x (FYMat ym) nv h = Some t0 -> mrun t0 os = Some t ->
  args_ok x (FYMat ym) nv -> rows ym <> [::] -> (0 < ncols ym)%coq_nat ->
  (forall o, In o (updates os) -> args_ok (p_x o) (p_y o) (p_n o) /\ exists yo, p_y o = FYMat yo /\ rows yo <> [::]) ->
  (nz = @Measured P H -> nv <> FNNone) ->
  (nz = @Default P H -> forall u, In (MUpdate H true u) os -> p_append u = false) -> exact_mode mode ->
  let d := LifeCycleSpec.stored (m_life t) in let s := m_f t in
  (mt_points (f_x s) = List.fold_left mt_points_after (updates os) (mt_points x) /\
   mt_values (f_y s) = List.fold_left mt_values_after (updates os) (rows ym) /\
   mt_noise (f_n s) = List.fold_left mt_noise_after (updates os) (mt_noise nv) /\ ds_h d = last_hps h os) /\
  (exists ym' idx, f_y s = FYMat ym' /\ enumerates vnan (ncols ym) ym' idx /\ length (ds_x d) = length idx /\ length (ds_y d) = length idx /\
     forall a i j, List.nth_error idx a = Some (i, j) ->
       List.nth_error (ds_x d) a = task_point (fun i => Some (INR i)) (f_x s) i j /\
       (exists r, FvGPSpec.entry ym' j i = Some (Some r) /\ List.nth_error (ds_y d) a = Some r) /\
       (forall nm, f_n s = FNMat nm -> exists v, FvGPSpec.entry nm j i = Some v /\ List.nth_error (ds_nv d) a = Some (num v))) /\
  (posdef (noisemx d) ->
   let kh := fun a b => k a b (ds_h d) in let X := LifeCycleSpec.points p0 (d:=d) in
   let m := prior_mean favg mu d in let A := gram kh X X + noisemx d in
   l_loglik (m_life t) = log_gauss (targets d) (mean_vec m X) A /\
   forall xp x_out garbage p tk z,
     let T := if x_out is Some l then l else List.seq 0 (ncols ym) in
     List.nth_error xp p = Some z -> forall u, List.nth_error T tk = Some u ->
     let at_ (z : list value + Pt) (u : nat) : P := match z with inl r => inl (r ++ [:: Some (INR u)])%list | inr o => inr (o, u) end in
     mmean t xp x_out [:: p; tk] = given_mean kh m X A (targets d) (at_ z u) /\
     (forall vo, (@mcov t xp x_out garbage vo).1 [:: p; tk] = given_cov kh X A (at_ z u) (at_ z u)) /\
     exists C, (@mcov t xp x_out garbage false).2 = Some C /\
       forall p' tk' z' u', List.nth_error xp p' = Some z' -> List.nth_error T tk' = Some u' ->
         C [:: p; p'; tk; tk'] = given_cov kh X A (at_ z u) (at_ z' u')).
Proof.
move=> x ym nv h t0 os t B E Ao Ne Kp F Nm Mv EM d s.
have [s0 [l0 [FI [{}B T0]]]] : exists s0 l0, fv_init vnan vtask x (FYMat ym) nv = Ok s0 /\ lbuild (pts (g_x (f_data s0))) (vals (g_y (f_data s0))) (noises (g_noise (f_data s0))) h = Some l0 /\ t0 = Multi s0 l0.
  move: B; rewrite /m_start; case: (fv_init _ _ _ _ _) => [s0|] //; case B: (lbuild _ _ _ h) => [l0|] //= [<-].
  by exists s0, l0.
subst t0.
have [I0 K0] := init_inv vnan vtask _ _ _ _ (proj1 Ao) Ao Ne Kp FI.
have Gn : nz = @Measured P H -> g_noise (f_data s0) <> None.
  move/Nm=> N; case: I0 => _ [_ [ym0 [_ [_ [_ [NR _]]]]]]; move: NR.
  have -> : f_n s0 = nv by move: FI; rewrite /fv_init; case: (negb _) => //; case: (transform_index_set2 _ _ _ _ _ _) => // f; case: (data_init _ _ _ _) => // d0 [<-].
  by case: (nv) N => //= nm _; case: (g_noise _).
have [gops [log [S1 [S2 [S3 [S4 [S5 [S6 S7]]]]]]]] := run_ok E I0 F Mv Gn.
have [Q1 [Q2 [Q3 [Q4 [ymf [Q5 _]]]]]] := @appended_observations_partial _ _ vnan vtask x ym nv s0 _ _ log Ao Ne Kp FI F S2 S3.
have AL : nz = @Measured P H -> length (noises (g_noise (f_data s0))) = length (pts (g_x (f_data s0))) /\ forall o, In o gops -> aligned o.
  move=> M; split; last exact: S6.
  case: I0 => _ [_ [ym0 [_ [_ [_ [NR _]]]]]]; move: NR (Gn M); case: (g_noise _) => [l|] //=; case: (f_n s0) => //= nm [_ [_ Ll]] _.
  by rewrite List.map_length Ll.
have [Hd Reads] := end_to_end p0 CC CI CL CU NS VK B S1 AL S7 EM.
have AG0 : agrees (DS (pts (g_x (f_data s0))) (vals (g_y (f_data s0))) (noises (g_noise (f_data s0))) h) (f_data s0) by [].
have [AG Hh] := S5 _ AG0; rewrite -Hd -/d in AG, Hh.
split; first by split; [exact: Q2|split; [exact: Q3|split; [exact: Q4|exact: Hh]]].
split.
- case: S4 => W [_ [ym' [Ey [Cy [Lx [NR [idx [EN [OB _]]]]]]]]]; rewrite -/s in W Ey Cy Lx NR EN OB; case: AG => A1 A2 A3.
  have Ks : f_k s = ncols ym by exact: Q1.
  have Lz : length (data_obs (f_data s)) = length (stored_x (f_data s)).
    by rewrite /data_obs; apply: zip3_length; [exact: (proj1 W)|move: NR; case: (f_n s) => [|nm|?|]; case: (g_noise _) => //= l [_ [_]]].
  have Li : length (stored_x (f_data s)) = length idx by rewrite -Lz -(List.map_length Some) OB List.map_length.
  exists ym', idx; split=> //; split; first by rewrite -Ks.
  split; first exact: etrans (congr1 (fun l => length l) A1) Li.
  split; first by apply: etrans (congr1 (fun l => length l) A2) _; rewrite List.map_length -(proj1 W).
  move=> a i j Ha.
  have Oa : List.nth_error (List.map Some (data_obs (f_data s))) a = Some (observation vtask (f_x s) ym' (f_n s) (i, j)) by rewrite OB; exact: List.map_nth_error.
  rewrite List.nth_error_map in Oa; case Za: (List.nth_error (data_obs (f_data s)) a) Oa => [[[pp rr] ss]|] //= [Oa].
  have [N1 [N2 N3]] := zip3_nth Za; rewrite /observation /= in Oa.
  case TP: (task_point vtask (f_x s) i j) Oa => [p|] //; case Ee: (FvGPSpec.entry ym' j i) => [v|] //; case En: (FvGPSpec.noise_entry (f_n s) j i) => [sv|] // [? ? ?]; subst pp rr ss.
  have [_ /(_ i j) [/(_ (List.nth_error_In _ _ Ha)) [_ [_ [v' [Ev' Nv']]]] _]] := EN; move: Ev' Nv'; rewrite Ee => -[<-]; clear Za; case: v Ee N2 => [r|] // Ee N2 _.
  split; first exact: etrans (congr1 (fun l => List.nth_error l a) A1) N1.
  split; first by exists r; split=> //; apply: etrans (congr1 (fun l => List.nth_error l a) A2) _; rewrite (List.map_nth_error _ _ _ N2).
  move=> nm Enm; move: En NR; rewrite Enm /=; case En: (FvGPSpec.entry nm j i) => [v0|] //= [Esv]; subst sv.
  move: N3 A3; case: (g_noise (f_data s)) => [l|] // [v1 [[E1] N3]] A3 _; subst v1.
  by exists v0; split=> //; apply: etrans (congr1 (fun l => List.nth_error l a) A3) _; rewrite (List.map_nth_error _ _ _ N3).
move=> PN kh X m A; have [LL RD] := Reads PN; split; first exact: LL.
move=> xp x_out garbage p tk z T Hp u Hu at_.
have ET : outs t x_out = T by rewrite /outs /T; case: (x_out) => // ; rewrite -/s Q1.
set fl := flat_points t xp x_out.
have [RM RV RS _] := RD _ (@flat_at Pt H LUt Obj p0 t xp x_out) garbage.
have FA a w : List.nth_error (cartesian_product xp (outs t x_out)) a = Some w -> forall o : 'I_(length fl), nat_of_ord o = a -> flat_at p0 o = with_task w.
  by move=> Hw o Eo; rewrite /flat_at Eo /flat_points (List.nth_error_nth _ _ _ (List.map_nth_error (@with_task Pt) _ _ Hw)).
have LT a w : List.nth_error (cartesian_product xp (outs t x_out)) a = Some w -> (a < length fl)%nat.
  by move=> Hw; apply/ssrnat.ltP; rewrite /fl /flat_points List.map_length; apply/List.nth_error_Some; rewrite Hw.
have AT w : with_task w = at_ (fst w) (snd w) by [].
have ins a w : List.nth_error (cartesian_product xp (outs t x_out)) a = Some w -> exists o : 'I_(length fl), insub a = Some o /\ flat_at p0 o = with_task w.
  move=> Hw; exists (Ordinal (LT _ _ Hw)); split; last exact: (FA _ _ Hw).
  by rewrite (insubT (fun i => i < length fl)%nat (LT _ _ Hw)).
rewrite -ET in Hu *.
pose gm := fun w => given_mean kh m X A (targets d) (with_task w); pose gc := fun w w' => given_cov kh X A (with_task w) (with_task w').
pose fm : array R := fun idx => entry1 (l_mean k mu favg p0 (m_life t) (@flat_at Pt H LUt Obj p0 t xp x_out)) (List.hd 0%nat idx).
have EMn a w : List.nth_error (cartesian_product xp (outs t x_out)) a = Some w -> fm [:: a] = gm w /\ fm [:: a; 0%nat] = gm w.
  move=> Hw; have [o [Io Fo]] := ins _ _ Hw; have Q : fm [:: a] = gm w by rewrite /fm /entry1 /= Io RM given_mean_flat Fo.
  by split.
have EC (C : 'M[R]_(length fl)) : C = gram kh (@flat_at Pt H LUt Obj p0 t xp x_out) (@flat_at Pt H LUt Obj p0 t xp x_out) - gram kh (@flat_at Pt H LUt Obj p0 t xp x_out) X *m invmx A *m gram kh X (@flat_at Pt H LUt Obj p0 t xp x_out) ->
  forall a b w w', List.nth_error (cartesian_product xp (outs t x_out)) a = Some w -> List.nth_error (cartesian_product xp (outs t x_out)) b = Some w' -> entry2 C a b = gc w w'.
  move=> -> a b w w' Hw Hw'; have [o [Io Fo]] := ins _ _ Hw; have [o' [Io' Fo']] := ins _ _ Hw'.
  by rewrite /entry2 Io Io' given_cov_flat Fo Fo'.
set Sx := gram kh _ _ - _ in EC RS RV.
pose fS : array R := fun idx => entry2 Sx (List.hd 0%nat idx) (List.nth 1 idx 0%nat).
have [_ TA] := @task_arrays_partial _ _ _ xp (outs t x_out) gm gc fm fS EMn (fun a b w w' Ha Hb => EC Sx erefl a b w w' Ha Hb).
have [TM [_ TC]] := TA p tk z u Hp Hu.
split; first exact: TM.
split.
- move=> vo; rewrite /m_cov; have [RV1 _] := RV vo; case EL: (l_cov _ _ _ _ _ _ _ _ _ _) RV1 => [v C] /= RV1.
  pose fv : array R := fun idx => entry1 v (List.hd 0%nat idx).
  have EV a w : List.nth_error (cartesian_product xp (outs t x_out)) a = Some w -> fv [:: a] = gc w w /\ fv [:: a; 0%nat] = gc w w.
    by move=> Hw; have [o [Io Fo]] := ins _ _ Hw; have Q : fv [:: a] = gc w w by rewrite /fv /entry1 /= Io RV1 mxE given_cov_flat Fo.
  have [_ TV] := @task_arrays_partial _ _ _ xp (outs t x_out) (fun w => gc w w) gc fv fS EV (fun a b w w' Ha Hb => EC Sx erefl a b w w' Ha Hb).
  by have [_ [V _]] := TV p tk z u Hp Hu.
- move: RS; rewrite /m_cov; case EL: (l_cov _ _ _ _ _ _ _ _ _ _) => [v C] /= ->; eexists; split; first by [].
  by move=> p' tk' z' u' Hp' Hu'; exact: TC.
Qed.
End Multi.
Print Assumptions multi_task_end_to_end.

From Verif Require Import Proofs.CholP Proofs.PosDef Proofs.SolversP Proofs.PosteriorP Proofs.PosteriorEx Props.SolversProps Props.PosteriorProps.
(** example: two tasks whose common kernel is the product of the coordinates, mean zero; task 0 is measured at 1 (value 2,
    variance 1) and task 1 is not, then a rank-n append of the value 4 of task 1 at the same place where task 0 is missing: the
    prediction of either task at 1 is 2 with variance 1/3 *)
Notation Px := (list value + unit * nat)%type.
Definition xco (p : Px) : R := if p is inl (Some r :: _) then r else R0.
Definition colin (a b : Px) (_ : unit) : R := xco a * xco b.
Lemma colin_valid (h : unit) : valid_covariance (fun a b => colin a b h). Proof. exact: (rank1_valid xco). Qed.
Definition zeromean : option (Px -> unit -> R) := Some (fun _ _ => R0).
Notation with_ex f mode it est := (f colin zeromean (@Measured Px unit) (fun _ => R0) (fun _ => R0)
  (@my_cho R_rcfType) (@my_inv R_rcfType) (fun n => 'M[R]_n) (@my_lu R_rcfType) idR_sol (@my_diag R_rcfType) it est
  (fun n => 'M[R]_n) (fun n A => A) idR_sol (@my_logdet R_rcfType R_zmodType lnabs) mode).
Definition v1 (r : R) : value := Some r.
Definition ex_fx : fx value unit := FXMat (Mat 1 [:: [:: v1 1%coqR]]).
Definition ex_fn : fn value := FNMat (Mat 2 [:: [:: v1 1%coqR; v1 1%coqR]]).
Definition ex_y0 : mat value := Mat 2 [:: [:: v1 2%coqR; None]].
Definition ex_up : fop value unit := FOp ex_fx (FYMat (Mat 2 [:: [:: None; v1 4%coqR]])) ex_fn true.
Definition ex_row (i : nat) : Px := inl [:: v1 1%coqR; vtask i].
Lemma ex_init : exists s0, fv_init vnan vtask ex_fx (FYMat ex_y0) ex_fn = Ok s0 /\ pts (g_x (f_data s0)) = [:: ex_row 0] /\
  vals (g_y (f_data s0)) = [:: 2%coqR] /\ noises (g_noise (f_data s0)) = [:: 1%coqR] /\
  exists s1, fv_update vnan vtask s0 ex_up = (s1, Ok tt) /\ base_op unit true true (f_data s1) = GAppend true [:: ex_row 1] [:: 4%coqR] [:: 1%coqR].
Proof. by eexists; split; [reflexivity|do 3 split=> //]; eexists; split; reflexivity. Qed.
Lemma ex_mat : let B : 'M[R]_2 := \matrix_(i, j) (if i == j then 2 / 3 else - / 3)%coqR in
  invmx (\matrix_(i, j) (if i == j then 2 else 1)%coqR : 'M[R]_2) = B.
Proof.
move=> B; set A := \matrix_(i, j) _.
have AB : A *m B = 1%:M.
  apply/matrixP=> i j; rewrite mxE big_ord_recl big_ord1 !mxE.
  case: i => [[|[|]]] // ?; case: j => [[|[|]]] // ?; rewrite -!val_eqE /= ?mulr1n ?mulr0n; toR; try field.
by have [U _] := mulmx1_unit AB; rewrite -[B](mulKmx U) AB mulmx1.
Qed.
Example multi_task_ex mode it est : exact_mode mode ->
  exists t0 t, with_ex (@m_start unit unit) mode it est ex_fx (FYMat ex_y0) ex_fn tt = Some t0 /\
    with_ex (@m_run unit unit) mode it est t0 [:: MUpdate unit true ex_up] = Some t /\
    forall tk, (tk < 2)%coq_nat ->
      m_mean colin zeromean (fun _ => R0) (ex_row 0) t [:: inl [:: v1 1%coqR]] None [:: 0%nat; tk] = 2%coqR /\
      (@m_cov unit unit colin _ idR_sol it _ idR_sol mode (ex_row 0) t [:: inl [:: v1 1%coqR]] None 0 true).1 [:: 0%nat; tk] = (1 / 3)%coqR.
Proof.
move=> EM; have [CC [CI [CL CU]]] := contracts_possible (lnabs : R_rcfType -> R_zmodType).
have NS : symmetric_noise (@Measured Px unit) by [].
pose dn (_ : list R) := R0.
have PD (d : @dataset Px R unit) : (forall i, lt i (length (ds_x d)) -> List.nth i (ds_nv d) R0 = 1%coqR) ->
    posdef (obs_noise (ex_row 0) (@Measured Px unit) dn d).
  move=> D; have -> : obs_noise (ex_row 0) (@Measured Px unit) dn d = 1%:M.
    apply/matrixP=> i j; rewrite !mxE /LifeCycleSpec.noise_entry -val_eqE /=; have := D i; case: Nat.eqb_spec => [->|N] Di.
      by rewrite eqxx D //; apply/ssrnat.ltP.
    by case: eqP.
  by move=> x x0; rewrite mulmx1; exact: quad_gt0.
have [B St] := @updates_succeed Px unit (ex_row 0) colin zeromean (@Measured Px unit) (fun _ => R0) dn
  _ _ _ _ _ _ it est (fun n => 'M[R]_n) (fun n A => A) idR_sol (@my_logdet R_rcfType R_zmodType lnabs) mode CC CI CL NS colin_valid.
pose proof (@end_to_end Px unit (ex_row 0) colin zeromean (@Measured Px unit) (fun _ => R0) dn
  _ _ _ _ _ _ it est _ _ _ _ mode CC CI CL CU NS colin_valid) as EE.
have NM o : ~ moving_noise (@Measured Px unit) o by [].
have [s0 [I0 [Ix [Iy [In [s1 [U1 B1]]]]]]] := ex_init.
have [|l0 E0] := B [:: ex_row 0] [:: 2%coqR] [:: 1%coqR] tt (fun=> erefl).
  by apply: PD => -[|i] //= L; exfalso; lia.
have A0 : (@Measured Px unit = @Measured Px unit -> length [:: 1%coqR] = length [:: ex_row 0] /\ forall o : @gop Px R unit, List.In o [::] -> aligned o) by [].
have [Ed _] := EE _ _ _ _ _ [::] l0 E0 erefl A0 (fun o _ => NM o) EM.
set o := GAppend true [:: ex_row 1] [:: 4%coqR] [:: 1%coqR] : @gop Px R unit.
have [|l Et] := St _ _ _ _ _ [::] l0 o E0 erefl A0 (fun o _ => NM o) (fun=> erefl) (NM o).
  by apply: PD; rewrite Ed => -[|[|i]] //= L; exfalso; lia.
have A1 : (@Measured Px unit = @Measured Px unit -> length [:: 1%coqR] = length [:: ex_row 0] /\ forall o' : @gop Px R unit, List.In o' [:: o] -> aligned o').
  by move=> _; split=> // o' [<-|[]].
have Es : with_ex (@l_steps Px unit) mode it est l0 [:: o] = Some l by rewrite /= Et.
have [Dt _] := EE _ _ _ _ _ [:: o] l E0 Es A1 (fun o _ => NM o) EM.
have S0 : with_ex (@m_start unit unit) mode it est ex_fx (FYMat ex_y0) ex_fn tt = Some (Multi s0 l0).
  by rewrite /m_start I0 Ix Iy In E0.
have S1 : with_ex (@m_run unit unit) mode it est (Multi s0 l0) [:: MUpdate unit true ex_up] = Some (Multi s1 l).
  by rewrite /m_run /m_next U1 -[p_append ex_up]/true B1 -/o Et.
exists (Multi s0 l0), (Multi s1 l); split=> //; split=> // tk Ltk.
have AO : forall y : mat value, (forall r, List.In r (rows y) -> length r = ncols y) -> args_ok ex_fx (FYMat y) ex_fn.
  by move=> y Hy; split=> // r [<-|[]].
have F : forall u, List.In u (updates [:: MUpdate unit true ex_up]) -> args_ok (p_x u) (p_y u) (p_n u) /\ exists yo, p_y u = FYMat yo /\ rows yo <> [::].
  by move=> u [<-|[]]; split; [apply: AO => r [<-|[]]|eexists; split].
have AO0 : args_ok ex_fx (FYMat ex_y0) ex_fn by apply: AO => r [<-|[]].
have ND : ex_fn <> FNNone by [].
have K2 : (0 < ncols ex_y0)%coq_nat by rewrite /=; lia.
have R1 : rows ex_y0 <> [::] by [].
have MD : @Measured Px unit = @Default Px unit -> forall u, List.In (MUpdate unit true u) [:: MUpdate unit true ex_up] -> p_append u = false by [].
have [_ [_]] := @multi_task_end_to_end unit unit (ex_row 0) colin zeromean (@Measured Px unit) (fun _ => R0) dn
  _ _ _ _ _ _ it est _ _ _ _ mode CC CI CL CU NS colin_valid _ _ _ _ _ _ _ S0 S1 AO0 R1 K2 F (fun=> ND) MD EM.
change (m_life (Multi s1 l)) with l; rewrite Dt => Q.
have [|_ {}Q] := Q; first by apply: PD => -[|[|i]] //= L; exfalso; lia.
have [u Hu] : exists u, List.nth_error (List.seq 0 (ncols ex_y0)) tk = Some u by case: (tk) Ltk => [|[|i]] //= Li; [exists 0%nat|exists 1%nat|exfalso; lia].
have [-> [/(_ true) V _]] := Q [:: inl [:: v1 1%coqR]] None 0 0%nat tk (inl [:: v1 1%coqR]) erefl u Hu; rewrite V {V}.
rewrite /given_mean /given_cov; set A := gram _ _ _ + _; set X := LifeCycleSpec.points _.
have EA : A = \matrix_(i, j) (if i == j then 2 else 1)%coqR.
  apply/matrixP=> i j; rewrite !mxE /LifeCycleSpec.noise_entry /colin /LifeCycleSpec.points.
  by case: i => [[|[|]]] //= ?; case: j => [[|[|]]] //= ?; toR; ring.
rewrite EA ex_mat; split.
- by rewrite !big_ord_recl !big_ord0 !mxE /= /X /colin /LifeCycleSpec.points /=; toR; field.
by rewrite !big_ord_recl !big_ord0 !mxE /= /X /colin /LifeCycleSpec.points /=; toR; field.
Qed.
