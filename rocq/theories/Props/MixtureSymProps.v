(** Predictions of a GGMP depend on the mixture only, not on how it is written down: C202. *)
From Coq Require Import Reals Lra List ZArith Lia Permutation.
From mathcomp Require Import all_ssreflect all_algebra.
From Verif Require Import Model.Prelude Model.GPState Model.Likelihood Model.Solvers Model.Posterior Model.LifeCycle Model.GGMPDensity Model.MixtureInit Model.MixtureGP.
From Verif Require Import Proofs.RealMx Spec.Sums Spec.CholSpec Spec.SolversSpec Spec.GPStateSpec Spec.LifeCycleSpec Spec.KernelSpec Spec.LikelihoodSpec Spec.PosteriorSpec Spec.MultiGPSpec.
From Verif Require Import Spec.GGMPDensitySpec Spec.MixtureInitSpec Spec.MixtureGPSpec Spec.MixtureSymSpec Props.LifeCycleProps Props.GGMPDensityProps Props.MixtureInitProps Props.MixtureGPProps.
From Verif Require Import Proofs.CholP Proofs.SolversP Proofs.PosteriorEx Props.SolversProps.
Set Implicit Arguments.
Unset Strict Implicit.
Unset Printing Implicit Defensive.
Import Order.TTheory GRing.Theory Num.Theory.
Local Open Scope ring_scope.

(** ** sums *)
Lemma rsum_seq f n : rsum f n = lsum (List.map f (List.seq 0 n)).
Proof.
elim: n => [|n IH] //; rewrite List.seq_S List.map_app [rsum _ _]/= IH [List.map f [:: _]]/=.
by elim: (List.map f _) => [|a l IH'] /=; [ring|rewrite -IH'; ring].
Qed.
Lemma lsum_perm l l' : Permutation l l' -> lsum l = lsum l'.
Proof. by elim=> //= [a l1 l2 _ ->|a b l1|l1 l2 l3 _ -> _ ->] //; ring. Qed.
Lemma rsum_relabel K s f : relabelling K s -> rsum (fun k => f (s k)) K = rsum f K.
Proof.
case=> Lt Inj; rewrite !rsum_seq -List.map_map; apply: lsum_perm; apply: Permutation_map; apply: NoDup_Permutation_bis.
- have : forall n a, (Nat.add a n <= K)%coq_nat -> List.NoDup (List.map s (List.seq a n)); last by move/(_ K 0%nat (le_n _)).
  elim=> [|n IH] a La /=; first exact: List.NoDup_nil.
  apply: List.NoDup_cons; last by apply: IH; lia.
  move=> /List.in_map_iff [b [Eb /List.in_seq Hb]]; have e : b = a by apply: Inj => //; lia.
  by move: Hb; rewrite e; lia.
- by rewrite List.map_length.
- move=> j /List.in_map_iff [b [<- /List.in_seq Hb]]; apply/List.in_seq; have : (s b < K)%coq_nat by apply: Lt; lia.
  by lia.
Qed.

Section Mixture.
Variable P : Type.
Notation H := (list R).
Variables (p0 : P) (defnoise : list R -> R).
Variable cho_factor np_inv : forall n, 'M[R]_n -> option 'M[R]_n.
Variable LUt : nat -> Type.
Variable splu : forall n, 'M[R]_n -> option (LUt n).
Variable lu_solve : forall n k, LUt n -> 'M[R]_(n, k) -> 'M[R]_(n, k).
Variable lu_diag : forall n, LUt n -> 'rV[R]_n.
Variable iterate : smode -> forall n k, 'M[R]_n -> 'M[R]_(n, k) -> 'M[R]_(n, k).
Variable estimate : nat -> forall n, 'M[R]_n -> R * option R.
Variable Obj : nat -> Type.
Variable c_factor : forall n, 'M[R]_n -> Obj n.
Variable c_solve : forall n k, Obj n -> 'M[R]_(n, k) -> 'M[R]_(n, k).
Variable c_logdet : forall n, Obj n -> R.
Variable mode : smode.
Hypothesis CC : @chol_contract R_rcfType cho_factor.
Hypothesis CI : @inv_contract R_rcfType np_inv.
Hypothesis CL : @lu_contract R_rcfType LUt splu lu_solve lu_diag.
Hypothesis CU : @custom_contract R_rcfType R_zmodType lnabs Obj c_factor c_solve c_logdet.


Notation valid kf := (forall k h, valid_covariance (fun a b => kf k a b h)).
Notation initgps kf mf := (init_gps kf mf defnoise cho_factor np_inv splu lu_solve lu_diag iterate estimate c_factor c_solve c_logdet mode).
Notation xrun kf mf := (x_run kf mf defnoise cho_factor np_inv splu lu_solve lu_diag iterate estimate c_factor c_solve c_logdet mode).
Notation xmean kf mf := (x_mean kf mf p0).
Notation xvar kf mf := (x_var kf mf lu_solve iterate c_solve mode p0).
Notation kernels := (nat -> P -> P -> list R -> R).
Notation means := (nat -> option (P -> list R -> R)).
Notation usable w := ((forall a, List.In a w -> 0 <= a)%coqR /\ (0 < lsum w)%coqR).

(** ** relabelling *)
Lemma last_hps_relabel K s os os' : relabelling K s -> List.Forall2 (op_relabelled K s) os os' -> forall k h, (k < K)%coq_nat -> last_hps k h os' = last_hps (s k) h os.
Proof.
case=> Lt Inj; elim=> [//|o o' l l' O _ IH] k h Lk; case: o o' O => [j g|w] [j' g'|w'] //=; last by move=> _; exact: IH.
move=> [Lj [-> ->]]; rewrite /last_hps /= -/(last_hps _ _ _) -/(last_hps _ _ _); case: (Nat.eqb_spec j' k) => [->|Ne]; first by rewrite Nat.eqb_refl; exact: IH.
by case: (Nat.eqb_spec (s j') (s k)) => [e|_]; [case: Ne; exact: Inj|exact: IH].
Qed.
Lemma last_weights_relabel K s os os' : List.Forall2 (op_relabelled K s) os os' -> forall w w', relabelled K s R0 w w' -> relabelled K s R0 (last_weights w os) (last_weights w' os').
Proof. by elim=> [//|o o' l l' O _ IH] w w' W; case: o o' O => [j g|v] [j' g'|v'] //= O; exact: IH. Qed.
Lemma lsum_relabel K s w w' : relabelling K s -> relabelled K s R0 w w' -> lsum w' = lsum w.
Proof.
move=> Rs [L [L' E]]; rewrite !lsum_nth L L' -[RHS](rsum_relabel _ Rs); exact: rsum_ext.
Qed.
Lemma usable_relabel K s w w' : relabelling K s -> relabelled K s R0 w w' -> usable w -> usable w'.
Proof.
move=> Rs W [Wp Ws]; rewrite (lsum_relabel Rs W); split=> // a Ha; have [k [Hk <-]] := @List.In_nth _ _ _ R0 Ha.
case: W => L [L' E]; rewrite L' in Hk; rewrite E //; apply: Wp; apply: List.nth_In; rewrite L; exact: (proj1 Rs).
Qed.

(** C202, first part: the numbering of the components does not matter *)
Theorem mixture_relabelled : forall (kf : kernels) (mf : means) s x liks liks' hs hs' os os' t0 t t0' t', valid kf ->
  let K := length liks in let kf' k := kf (s k) in let mf' k := mf (s k) in
  relabelling K s -> relabelled K s (Lik [::] [::] R0) liks liks' -> relabelled K s [::] hs hs' -> List.Forall2 (op_relabelled K s) os os' ->
  initgps kf mf x liks hs = Some t0 -> xrun kf mf t0 os = Some t -> initgps kf' mf' x liks' hs' = Some t0' -> xrun kf' mf' t0' os' = Some t' ->
  exact_mode mode -> usable (last_weights (List.map lk_weight liks) os) ->
  forall q (xp : 'I_q -> P) garbage i, xmean kf' mf' t' xp i = xmean kf mf t xp i /\ xvar kf' mf' t' xp garbage i = xvar kf mf t xp garbage i.
Proof.
move=> kf mf s x liks liks' hs hs' os os' t0 t t0' t' VK K kf' mf' Rs Rl Rh Ro I1 X1 I2 X2 EM U q xp garbage i.
have VK' : valid kf' by move=> k h; exact: VK.
have [_ Q1] := mixture_end_to_end p0 CC CI CL CU VK I1 X1 EM; have [_ Q2] := mixture_end_to_end p0 CC CI CL CU VK' I2 X2 EM.
have [L [L' El]] := Rl; have [_ [_ Eh]] := Rh.
have Rw0 : relabelled K s R0 (List.map lk_weight liks) (List.map lk_weight liks').
  by rewrite /relabelled !List.map_length; split=> //; split=> // k Lk; rewrite -[R0]/(lk_weight (Lik [::] [::] R0)) !List.map_nth El.
have Rw := last_weights_relabel Ro Rw0; have U' := usable_relabel Rs Rw U.
have [A1 [B1 _]] := Q1 (proj1 U) (proj2 U) q xp garbage i; have [A2 [B2 _]] := Q2 (proj1 U') (proj2 U') q xp garbage i.
have Es := lsum_relabel Rs Rw; have [_ [_ Ew]] := Rw.
have Ec k : (k < K)%coq_nat -> comp liks' k = comp liks (s k) by move=> Lk; exact: El.
have Ed k : (k < K)%coq_nat -> comp_data x liks' hs' os' k = comp_data x liks hs os (s k).
  by move=> Lk; rewrite /comp_data Ec // Eh // (last_hps_relabel Rs Ro).
have Em k : (k < K)%coq_nat -> comp_mean p0 kf' mf' x liks' hs' os' k (xp i) = comp_mean p0 kf mf x liks hs os (s k) (xp i).
  by move=> Lk; rewrite /comp_mean /comp_cov /comp_kernel /comp_prior Ed // Ec.
have Ev k : (k < K)%coq_nat -> comp_var p0 kf' x liks' hs' os' k (xp i) = comp_var p0 kf x liks hs os (s k) (xp i).
  by move=> Lk; rewrite /comp_var /comp_cov /comp_kernel Ed // Ec.
have M : xmean kf' mf' t' xp i = xmean kf mf t xp i.
  rewrite A1 A2 L' /mixture_mean -[RHS](rsum_relabel _ Rs); apply: rsum_ext => k Lk; by rewrite Es Ew // Em.
split=> //; rewrite B1 B2 -A1 -A2 M L'; congr (_ - _)%coqR.
rewrite /mixture_second -[RHS](rsum_relabel _ Rs); apply: rsum_ext => k Lk; by rewrite Es Ew // Em // Ev.
Qed.

(** second part: multiplying all weights by a positive number has no effect *)
Lemma lsum_scale c w : lsum (List.map (Rmult c) w) = (c * lsum w)%coqR.
Proof. by elim: w => [|a w IH] /=; [ring|rewrite IH; ring]. Qed.
Lemma last_hps_snoc k h os w : last_hps k h (os ++ [:: XWeights w])%list = last_hps k h os.
Proof. by rewrite /last_hps List.fold_left_app. Qed.
Theorem mixture_rescaled : forall (kf : kernels) (mf : means) x liks hs os t0 t t' c, valid kf ->
  let w := last_weights (List.map lk_weight liks) os in
  initgps kf mf x liks hs = Some t0 -> xrun kf mf t0 os = Some t -> (0 < c)%coqR -> xrun kf mf t0 (os ++ [:: XWeights (List.map (Rmult c) w)])%list = Some t' ->
  exact_mode mode -> usable w ->
  forall q (xp : 'I_q -> P) garbage i, xmean kf mf t' xp i = xmean kf mf t xp i /\ xvar kf mf t' xp garbage i = xvar kf mf t xp garbage i.
Proof.
move=> kf mf x liks hs os t0 t t' c VK w I1 X1 Cp X2 EM U q xp garbage i.
have [_ Q1] := mixture_end_to_end p0 CC CI CL CU VK I1 X1 EM; have [_ Q2] := mixture_end_to_end p0 CC CI CL CU VK I1 X2 EM.
have Ew : last_weights (List.map lk_weight liks) (os ++ [:: XWeights (List.map (Rmult c) w)])%list = List.map (Rmult c) w by rewrite /last_weights List.fold_left_app.
rewrite Ew in Q2; case: (U) => Wp Ws.
have [||A2 [B2 _]] := Q2 _ _ q xp garbage i.
- by move=> a Ha; have [b [<- Hb]] := proj1 (List.in_map_iff _ _ _) Ha; apply: Rmult_le_pos; [lra|exact: Wp].
- by rewrite lsum_scale; exact: Rmult_lt_0_compat.
have [A1 [B1 _]] := Q1 Wp Ws q xp garbage i.
have Sh k : (List.nth k (List.map (Rmult c) w) R0 / lsum (List.map (Rmult c) w) = List.nth k w R0 / lsum w)%coqR.
  rewrite lsum_scale; have -> : List.nth k (List.map (Rmult c) w) R0 = (c * List.nth k w R0)%coqR.
    by rewrite -(List.map_nth (Rmult c)); congr (List.nth k _ _); ring.
  by field; split; lra.
have Ed k : comp_data x liks hs (os ++ [:: XWeights (List.map (Rmult c) w)])%list k = comp_data x liks hs os k by rewrite /comp_data last_hps_snoc.
have Em k : comp_mean p0 kf mf x liks hs (os ++ [:: XWeights (List.map (Rmult c) w)])%list k (xp i) = comp_mean p0 kf mf x liks hs os k (xp i).
  by rewrite /comp_mean /comp_cov /comp_kernel /comp_prior Ed.
have Ev k : comp_var p0 kf x liks hs (os ++ [:: XWeights (List.map (Rmult c) w)])%list k (xp i) = comp_var p0 kf x liks hs os k (xp i).
  by rewrite /comp_var /comp_cov /comp_kernel Ed.
have M : xmean kf mf t' xp i = xmean kf mf t xp i by rewrite A1 A2; apply: rsum_ext => k Lk; rewrite Sh Em.
split=> //; rewrite B1 B2 -A1 -A2 M; congr (_ - _)%coqR.
by apply: rsum_ext => k Lk; rewrite Sh Em Ev.
Qed.

(** third part: a further component of weight zero has no effect *)
Lemma last_hps_widen K os os' : widened K os os' -> forall k h, (k < K)%coq_nat -> last_hps k h os' = last_hps k h os.
Proof.
elim=> [//|j g l l' Lj _ IH|g l l' _ IH|w l l' _ _ IH] k h Lk; rewrite /last_hps /= -/(last_hps _ _ _) -?/(last_hps _ _ _); try exact: IH.
by case: Nat.eqb_spec => [e|_]; [lia|exact: IH].
Qed.
Lemma last_weights_widen K os os' : widened K os os' -> forall w, last_weights (w ++ [:: R0])%list os' = (last_weights w os ++ [:: R0])%list.
Proof. by elim=> [//|j g l l' _ _ IH|g l l' _ IH|v l l' _ _ IH] w; exact: IH. Qed.
Lemma lsum_snoc w : lsum (w ++ [:: R0])%list = lsum w.
Proof. by elim: w => [|a w IH] /=; [ring|rewrite IH]. Qed.
Theorem mixture_widened : forall (kf : kernels) (mf : means) x liks hs os c h os' t0 t t0' t', valid kf ->
  initgps kf mf x liks hs = Some t0 -> xrun kf mf t0 os = Some t -> length hs = length liks -> lk_weight c = R0 -> widened (length liks) os os' ->
  initgps kf mf x (liks ++ [:: c])%list (hs ++ [:: h])%list = Some t0' -> xrun kf mf t0' os' = Some t' ->
  exact_mode mode -> usable (last_weights (List.map lk_weight liks) os) ->
  forall q (xp : 'I_q -> P) garbage i, xmean kf mf t' xp i = xmean kf mf t xp i /\ xvar kf mf t' xp garbage i = xvar kf mf t xp garbage i.
Proof.
move=> kf mf x liks hs os c h os' t0 t t0' t' VK I1 X1 Lh Cz Wd I2 X2 EM U q xp garbage i.
have [Lw Q1] := mixture_end_to_end p0 CC CI CL CU VK I1 X1 EM; have [_ Q2] := mixture_end_to_end p0 CC CI CL CU VK I2 X2 EM.
have Ew : last_weights (List.map lk_weight (liks ++ [:: c])%list) os' = (last_weights (List.map lk_weight liks) os ++ [:: R0])%list.
  by rewrite List.map_app /= Cz; exact: last_weights_widen Wd _.
rewrite Ew in Q2; case: (U) => Wp Ws; have [A1 [B1 _]] := Q1 Wp Ws q xp garbage i; have [||A2 [B2 _]] := Q2 _ _ q xp garbage i.
- by move=> a /List.in_app_iff [Ha|[<-|[]]]; [exact: Wp|lra].
- by rewrite lsum_snoc.
set w := last_weights _ _ in Lw A1 B1 A2 B2 Ws; set K := length liks in Lw A1 B1.
have LK : length (liks ++ [:: c])%list = K.+1 by rewrite List.app_length Nat.add_1_r.
have Sh k : (k < K)%coq_nat -> (List.nth k (w ++ [:: R0])%list R0 / lsum (w ++ [:: R0])%list = List.nth k w R0 / lsum w)%coqR.
  by move=> Lk; rewrite lsum_snoc List.app_nth1 // Lw.
have Sz : (List.nth K (w ++ [:: R0])%list R0 / lsum (w ++ [:: R0])%list = 0)%coqR by rewrite lsum_snoc List.app_nth2 Lw // Nat.sub_diag /=; field; lra.
have Ec k : (k < K)%coq_nat -> comp (liks ++ [:: c])%list k = comp liks k by move=> Lk; exact: List.app_nth1.
have Ed k : (k < K)%coq_nat -> comp_data x (liks ++ [:: c])%list (hs ++ [:: h])%list os' k = comp_data x liks hs os k.
  by move=> Lk; rewrite /comp_data Ec // (last_hps_widen Wd) // List.app_nth1 // Lh.
have Em k : (k < K)%coq_nat -> comp_mean p0 kf mf x (liks ++ [:: c])%list (hs ++ [:: h])%list os' k (xp i) = comp_mean p0 kf mf x liks hs os k (xp i).
  by move=> Lk; rewrite /comp_mean /comp_cov /comp_kernel /comp_prior Ed // Ec.
have Ev k : (k < K)%coq_nat -> comp_var p0 kf x (liks ++ [:: c])%list (hs ++ [:: h])%list os' k (xp i) = comp_var p0 kf x liks hs os k (xp i).
  by move=> Lk; rewrite /comp_var /comp_cov /comp_kernel Ed // Ec.
have M : xmean kf mf t' xp i = xmean kf mf t xp i.
  rewrite A1 A2 LK /mixture_mean [rsum _ K.+1]/= Sz Rmult_0_l Rplus_0_r; apply: rsum_ext => k Lk; by rewrite Sh // Em.
split=> //; rewrite B1 B2 -A1 -A2 M LK; congr (_ - _)%coqR.
rewrite /mixture_second [rsum _ K.+1]/= Sz Rmult_0_l Rplus_0_r; apply: rsum_ext => k Lk; by rewrite Sh // Em // Ev.
Qed.
End Mixture.
Print Assumptions mixture_relabelled.
Print Assumptions mixture_rescaled.
Print Assumptions mixture_widened.

(** example: the GGMP of [mixture_end_to_end_ex] with its two components exchanged, with its weights doubled, and with a third component *)
Definition ex_ops' : list xop := [:: XHps 1 [:: R0]; XWeights [:: 3%coqR; R1]].
Definition ex_ops2 : list xop := (ex_ops ++ [:: XWeights (List.map (Rmult 2) [:: R1; 3%coqR])])%list.
Definition ex_ops3 : list xop := [:: XHps 2 [:: R1]; XHps 0 [:: R0]; XWeights [:: R1; 3%coqR; R0]].
Notation ex_mf := (fun _ : nat => Some (@constant_mean R)).
Notation ex_m t := (x_mean linl ex_mf R0 t (fun _ : 'I_1 => R1) ord0).
Example mixture_sym_ex mode it est : exact_mode mode ->
  (exists t0 t, with_mx (@init_gps R) mode it est [:: R1] (List.rev ex_liks) [:: [:: R0]; [:: R0]] = Some t0 /\ with_mx (@x_run R) mode it est t0 ex_ops' = Some t /\ ex_m t = (19 / 4)%coqR) /\
  (exists t0 t, with_mx (@init_gps R) mode it est [:: R1] ex_liks [:: [:: R0]; [:: R0]] = Some t0 /\ with_mx (@x_run R) mode it est t0 ex_ops2 = Some t /\ ex_m t = (19 / 4)%coqR) /\
  (exists t0 t, with_mx (@init_gps R) mode it est [:: R1] (ex_liks ++ [:: Lik [:: 5%coqR] [:: R1] R0])%list [:: [:: R0]; [:: R0]; [:: R0]] = Some t0 /\
     with_mx (@x_run R) mode it est t0 ex_ops3 = Some t /\ ex_m t = (19 / 4)%coqR).
Proof.
move=> EM; have [CC [CI [CL CU]]] := contracts_possible (lnabs : R_rcfType -> R_zmodType).
have [t0 [t [I0 [X0 [E0 _]]]]] := mixture_end_to_end_ex it est EM.
have [S1 [_ S3]] := @mixture_succeeds R R0 linl ex_mf (fun _ => R0) _ _ _ _ _ _ it est (fun n => 'M[R]_n) (fun n A => A) idR_sol (@my_logdet R_rcfType R_zmodType lnabs) mode CC CI CL linl_valid.
have N0 n h : List.In h (List.repeat [:: R0] n) -> h <> [::] by move=> Hh; rewrite (List.repeat_spec _ _ _ Hh).
have U : (forall a, List.In a [:: R1; 3%coqR] -> 0 <= a)%coqR /\ (0 < lsum [:: R1; 3%coqR])%coqR by split; [move=> a [<-|[<-|[]]]; lra|rewrite /=; lra].
have run_all liks hs u0 : with_mx (@init_gps R) mode it est [:: R1] liks hs = Some u0 -> forall os,
    (forall o, List.In o os -> match o with XHps k _ => (k < length liks)%coq_nat | XWeights w => length w = length liks end) -> exists u, with_mx (@x_run R) mode it est u0 os = Some u.
  move=> J0 os Ho; suff: forall r p u, with_mx (@x_run R) mode it est u0 p = Some u -> (forall o, List.In o r -> List.In o os) -> exists u', with_mx (@x_run R) mode it est u r = Some u'.
    by move/(_ os [::] u0 erefl); apply.
  elim=> [|o r IH] p u Hp Hr; first by exists u.
  have [|u' Eu] := S3 _ _ _ _ p u o J0 Hp; first by exact: (Ho o (Hr o (or_introl erefl))).
  have [|u2 Eu2] := IH (p ++ [:: o])%list u' _ (fun o' Ho' => Hr o' (or_intror Ho')); last by exists u2; rewrite /= Eu.
  have : forall p' v, with_mx (@x_run R) mode it est v p' = Some u -> with_mx (@x_run R) mode it est v (p' ++ [:: o])%list = Some u'.
    by elim=> [|o' p' IH'] v /=; [case=> ->; rewrite Eu|case: (x_next _ _ _ _ _ _ _ _ _ _ _ _ _ _ v o') => [v'|] //; exact: IH'].
  by apply.
split; [|split].
- have [c|u0 J0] := S1 [:: R1] (List.rev ex_liks) [:: [:: R0]; [:: R0]] (le_n _) (N0 2%nat).
    by case=> [<-|[<-|[]]]; do 2 split=> //; move=> v [<-|[]]; exact: Rlt_0_1.
  have [|u Xu] := run_all _ _ _ J0 ex_ops'; first by move=> o [<-|[<-|[]]] /=; lia.
  exists u0, u; split=> //; split=> //; rewrite -E0.
  have [||||M _] := @mixture_relabelled R R0 (fun _ => R0) _ _ _ _ _ _ it est (fun n => 'M[R]_n) (fun n A => A) idR_sol (@my_logdet R_rcfType R_zmodType lnabs) mode CC CI CL CU linl ex_mf (Nat.sub 1)
    _ _ _ _ _ _ _ _ _ _ _ linl_valid _ _ _ _ I0 X0 J0 Xu EM U 1%nat (fun _ => R1) 0 ord0; last exact: M.
  + by change (length ex_liks) with 2%nat; split=> [k|j k]; lia.
  + by split=> //; split=> // -[|[|k]] //= Lk; exfalso; lia.
  + by split=> //; split=> // -[|[|k]] //= Lk; exfalso; lia.
  + apply: List.Forall2_cons; first by rewrite /=; split; [lia|].
    by apply: List.Forall2_cons => //; split=> //; split=> // -[|[|k]] //= Lk; exfalso; lia.
- have [|u Xu] := run_all _ _ _ I0 ex_ops2; first by move=> o [<-|[<-|[<-|[]]]] /=; lia.
  exists t0, u; split=> //; split=> //; rewrite -E0.
  by have [M _] := @mixture_rescaled R R0 (fun _ => R0) _ _ _ _ _ _ it est (fun n => 'M[R]_n) (fun n A => A) idR_sol (@my_logdet R_rcfType R_zmodType lnabs) mode CC CI CL CU linl ex_mf _ _ _ _ _ _ _ _ linl_valid I0 X0 Rlt_0_2 Xu EM U 1%nat (fun _ => R1) 0 ord0.
- have [c|u0 J0] := S1 [:: R1] (ex_liks ++ [:: Lik [:: 5%coqR] [:: R1] R0])%list [:: [:: R0]; [:: R0]; [:: R0]] (le_n _) (N0 3%nat).
    by case=> [<-|[<-|[<-|[]]]]; do 2 split=> //; move=> v [<-|[]]; exact: Rlt_0_1.
  have [|u Xu] := run_all _ _ _ J0 ex_ops3; first by move=> o [<-|[<-|[<-|[]]]] /=; lia.
  exists u0, u; split=> //; split=> //; rewrite -E0.
  have [|M _] := @mixture_widened R R0 (fun _ => R0) _ _ _ _ _ _ it est (fun n => 'M[R]_n) (fun n A => A) idR_sol (@my_logdet R_rcfType R_zmodType lnabs) mode CC CI CL CU linl ex_mf _ _ [:: [:: R0]; [:: R0]] _ (Lik [:: 5%coqR] [:: R1] R0) [:: R0] _ _ _ _ _ linl_valid I0 X0 erefl erefl _ J0 Xu EM U 1%nat (fun _ => R1) 0 ord0; last exact: M.
  apply: w_extra; apply: w_hps; first by rewrite /=; lia.
  by apply: (w_weights 2 [:: R1; 3%coqR]) => //; exact: w_none.
Qed.
