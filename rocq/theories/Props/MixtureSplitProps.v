(** Writing one component of a GGMP as two does not change its predictions: C209. *)
From Coq Require Import Reals Lra List ZArith Lia.
From mathcomp Require Import all_ssreflect all_algebra.
From Verif Require Import Model.Prelude Model.GPState Model.Likelihood Model.Solvers Model.Posterior Model.LifeCycle Model.GGMPDensity Model.MixtureInit Model.MixtureGP.
From Verif Require Import Proofs.RealMx Spec.Sums Spec.CholSpec Spec.SolversSpec Spec.GPStateSpec Spec.LifeCycleSpec Spec.KernelSpec Spec.LikelihoodSpec Spec.PosteriorSpec Spec.MultiGPSpec.
From Verif Require Import Spec.GGMPDensitySpec Spec.MixtureInitSpec Spec.MixtureGPSpec Spec.MixtureSplitSpec Props.LifeCycleProps Props.GGMPDensityProps Props.MixtureInitProps Props.MixtureGPProps.
From Verif Require Import Proofs.CholP Proofs.SolversP Proofs.PosteriorEx Props.SolversProps.
Set Implicit Arguments.
Unset Strict Implicit.
Unset Printing Implicit Defensive.
Import Order.TTheory GRing.Theory Num.Theory.
Local Open Scope ring_scope.

Lemma rsum_but_one K j (f g : nat -> R) b : (j < K)%coq_nat -> (forall k, (k < K)%coq_nat -> k <> j -> g k = f k) -> (g j + b = f j)%coqR -> (rsum g K + b = rsum f K)%coqR.
Proof.
elim: K => [|K IH] Lj E Ej; first by lia.
rewrite /=; have [e|Ne] := Nat.eq_dec j K.
  rewrite -e.
  have -> : rsum g j = rsum f j by apply: rsum_ext => k Lk; apply: E; lia.
  by rewrite -Ej; ring.
by rewrite -IH ?(E K) //; [ring|lia|lia|move=> k Lk; apply: E; lia].
Qed.

Section Mixture.
Variable P : Type.
Variables (p0 : P) (defnoise : list R -> R).
Variable cho_factor np_inv : forall n, 'M[R]_n -> option 'M[R]_n.
Variable LUt : nat -> Type.
Variable splu : forall n, 'M[R]_n -> option (LUt n).
Variable lu_solve : forall n k, LUt n -> 'M[R]_(n, k) -> 'M[R]_(n, k).
Variable lu_diag : forall n, LUt n -> 'rV[R]_n.
Variable iterate : smode -> forall n k, 'M[R]_n -> 'M[R]_(n, k) -> 'M[R]_(n, k).
Variable estimate : nat -> forall n, 'M[R]_n -> R * option R.
Variable Obj : nat -> Type.
Variable c_factor : forall n, 'M[R]_n -> Obj n.
Variable c_solve : forall n k, Obj n -> 'M[R]_(n, k) -> 'M[R]_(n, k).
Variable c_logdet : forall n, Obj n -> R.
Variable mode : smode.
Hypothesis CC : @chol_contract R_rcfType cho_factor.
Hypothesis CI : @inv_contract R_rcfType np_inv.
Hypothesis CL : @lu_contract R_rcfType LUt splu lu_solve lu_diag.
Hypothesis CU : @custom_contract R_rcfType R_zmodType lnabs Obj c_factor c_solve c_logdet.

Notation valid kf := (forall k h, valid_covariance (fun a b => kf k a b h)).
Notation initgps kf mf := (init_gps kf mf defnoise cho_factor np_inv splu lu_solve lu_diag iterate estimate c_factor c_solve c_logdet mode).
Notation xrun kf mf := (x_run kf mf defnoise cho_factor np_inv splu lu_solve lu_diag iterate estimate c_factor c_solve c_logdet mode).
Notation xmean kf mf := (x_mean kf mf p0).
Notation xvar kf mf := (x_var kf mf lu_solve iterate c_solve mode p0).
Notation kernels := (nat -> P -> P -> list R -> R).
Notation means := (nat -> option (P -> list R -> R)).
Notation nonneg w := (forall a, List.In a w -> 0 <= a)%coqR.

Lemma last_hps_split K j os os' : (j < K)%coq_nat -> split_history K j os os' -> forall k h, (k <= K)%coq_nat -> last_hps k h os' = last_hps (origin K j k) h os.
Proof.
move=> Lj; elim=> [//|i g l l' Li Ni _ IH|g l l' _ IH|w w' l l' _ _ IH] k h Lk; rewrite /last_hps /= -?/(last_hps _ _ _) IH //; congr last_hps; rewrite /origin;
  case: (Nat.eqb_spec k K) => [e|Ne].
- by case: (Nat.eqb_spec i k) => [|_]; [lia|case: (Nat.eqb_spec i j) => //; lia].
- by [].
- case: (Nat.eqb_spec K k) => [_|]; last by lia.
  by rewrite Nat.eqb_refl.
- by case: (Nat.eqb_spec K k) => [|_]; [lia|].
Qed.
Lemma last_weights_split K j os os' : split_history K j os os' -> forall w w', shared K j w w' -> shared K j (last_weights w os) (last_weights w' os').
Proof. by elim=> [//|i g l l' _ _ _ IH|g l l' _ IH|v v' l l' Sv _ IH] w w' Sw; apply: IH. Qed.
Lemma lsum_shared K j w w' : (j < K)%coq_nat -> shared K j w w' -> lsum w' = lsum w.
Proof. by move=> Lj [L [L' [E Es]]]; rewrite !lsum_nth L L' /=; apply: (rsum_but_one Lj). Qed.

(** C209: component j of the first GGMP is written as the components j and K of the second *)
Theorem mixture_split : forall (kf kf' : kernels) (mf mf' : means) j x liks liks' hs hs' os os' t0 t t0' t', valid kf ->
  let K := length liks in (j < K)%coq_nat ->
  (forall k, (k <= K)%coq_nat -> kf' k = kf (origin K j k) /\ mf' k = mf (origin K j k)) -> valid kf' ->
  same_origin K j [::] (List.map lk_mean liks) (List.map lk_mean liks') -> same_origin K j [::] (List.map lk_var liks) (List.map lk_var liks') ->
  shared K j (List.map lk_weight liks) (List.map lk_weight liks') -> same_origin K j [::] hs hs' -> split_history K j os os' ->
  initgps kf mf x liks hs = Some t0 -> xrun kf mf t0 os = Some t -> initgps kf' mf' x liks' hs' = Some t0' -> xrun kf' mf' t0' os' = Some t' ->
  exact_mode mode -> let w' := last_weights (List.map lk_weight liks') os' in nonneg w' -> (0 < lsum w')%coqR ->
  forall q (xp : 'I_q -> P) garbage i, xmean kf' mf' t' xp i = xmean kf mf t xp i /\ xvar kf' mf' t' xp garbage i = xvar kf mf t xp garbage i.
Proof.
move=> kf kf' mf mf' j x liks liks' hs hs' os os' t0 t t0' t' VK K Lj Ek VK' [_ [L' Sm]] [_ [_ Sv]] Sw [_ [_ Sh]] Sp I1 X1 I2 X2 EM w' Wp' Ws' q xp garbage i.
rewrite List.map_length in L'.
have Dw := last_weights_split Sp Sw; rewrite -/w' in Dw; set w := last_weights (List.map lk_weight liks) os in Dw; have Es := lsum_shared Lj Dw.
case: (Dw) => Lw [Lw' [Ew Ej]].
have Wn k : (k <= K)%coq_nat -> (0 <= List.nth k w' R0)%coqR by move=> Lk; apply: Wp'; apply: List.nth_In; rewrite Lw'; lia.
have Wp : nonneg w.
  move=> a Ha; have [k [Hk <-]] := @List.In_nth _ _ _ R0 Ha; rewrite Lw in Hk.
  case: (Nat.eq_dec k j) => [->|Ne]; last by rewrite -Ew //; apply: Wn; lia.
  by rewrite -Ej; have := Wn j; have := Wn K (le_n _); move=> A B; have := B ltac:(lia); lra.
have Ws : (0 < lsum w)%coqR by rewrite -Es.
have [_ Q1] := mixture_end_to_end p0 CC CI CL CU VK I1 X1 EM; have [_ Q2] := mixture_end_to_end p0 CC CI CL CU VK' I2 X2 EM.
have [A1 [B1 _]] := Q1 Wp Ws q xp garbage i; have [A2 [B2 _]] := Q2 Wp' Ws' q xp garbage i.
have Emn k : (k <= K)%coq_nat -> lk_mean (comp liks' k) = lk_mean (comp liks (origin K j k)).
  by move=> Lk; rewrite /comp -!(List.map_nth lk_mean); exact: Sm.
have Evr k : (k <= K)%coq_nat -> lk_var (comp liks' k) = lk_var (comp liks (origin K j k)).
  by move=> Lk; rewrite /comp -!(List.map_nth lk_var); exact: Sv.
have Ed k : (k <= K)%coq_nat -> comp_data x liks' hs' os' k = comp_data x liks hs os (origin K j k).
  by move=> Lk; rewrite /comp_data Emn // Evr // Sh // (last_hps_split Lj Sp).
have Em k : (k <= K)%coq_nat -> comp_mean p0 kf' mf' x liks' hs' os' k (xp i) = comp_mean p0 kf mf x liks hs os (origin K j k) (xp i).
  by move=> Lk; have [e1 e2] := Ek k Lk; rewrite /comp_mean /comp_cov /comp_kernel /comp_prior Ed // Emn // Evr // e1 e2.
have Ev k : (k <= K)%coq_nat -> comp_var p0 kf' x liks' hs' os' k (xp i) = comp_var p0 kf x liks hs os (origin K j k) (xp i).
  by move=> Lk; have [e1 e2] := Ek k Lk; rewrite /comp_var /comp_cov /comp_kernel Ed // Evr // e1.
have Oo k : (k < K)%coq_nat -> origin K j k = k by move=> Lk; rewrite /origin; case: Nat.eqb_spec => //; lia.
have OK : origin K j K = j by rewrite /origin Nat.eqb_refl.
have sums F : (rsum (fun k => List.nth k w' R0 / lsum w' * F (origin K j k)) K.+1 = rsum (fun k => List.nth k w R0 / lsum w * F k) K)%coqR.
  rewrite Es [LHS]/=; apply: (rsum_but_one Lj) => [k Lk Ne|]; first by rewrite Ew // Oo.
  by rewrite Oo // OK -Ej; field; lra.
have M : xmean kf' mf' t' xp i = xmean kf mf t xp i.
  rewrite A1 A2 L' /mixture_mean -(sums (fun k => comp_mean p0 kf mf x liks hs os k (xp i))); apply: rsum_ext => k Lk; rewrite Em //; lia.
split=> //; rewrite B1 B2 -A1 -A2 M L'; congr (_ - _)%coqR.
rewrite /mixture_second -(sums (fun k => (comp_var p0 kf x liks hs os k (xp i) + comp_mean p0 kf mf x liks hs os k (xp i) * comp_mean p0 kf mf x liks hs os k (xp i))%coqR)).
apply: rsum_ext => k Lk; rewrite Em ?Ev //; lia.
Qed.
End Mixture.
Print Assumptions mixture_split.

(** example: the second component of [mixture_end_to_end_ex], of weight 3, written as two of the weights 1 and 2 *)
Definition ex_liks_split : list lik := [:: Lik [:: 2%coqR] [:: R1] R1; Lik [:: 6%coqR] [:: R1] (1/4)%coqR; Lik [:: 6%coqR] [:: R1] (3/4)%coqR].
Definition ex_ops_split : list xop := [:: XHps 0 [:: R0]; XWeights [:: R1; R1; 2%coqR]].
Notation ex_mf := (fun _ : nat => Some (@constant_mean R)).
Example mixture_split_ex mode it est : exact_mode mode ->
  exists t0 t, with_mx (@init_gps R) mode it est [:: R1] ex_liks_split [:: [:: R0]; [:: R0]; [:: R0]] = Some t0 /\ with_mx (@x_run R) mode it est t0 ex_ops_split = Some t /\
    x_mean linl ex_mf R0 t (fun _ : 'I_1 => R1) ord0 = (19 / 4)%coqR.
Proof.
move=> EM; have [CC [CI [CL CU]]] := contracts_possible (lnabs : R_rcfType -> R_zmodType).
have [t0 [t [I0 [X0 [E0 _]]]]] := mixture_end_to_end_ex it est EM.
have [S1 [_ S3]] := @mixture_succeeds R R0 linl ex_mf (fun _ => R0) _ _ _ _ _ _ it est (fun n => 'M[R]_n) (fun n A => A) idR_sol (@my_logdet R_rcfType R_zmodType lnabs) mode CC CI CL linl_valid.
have [||c|u0 J0] := S1 [:: R1] ex_liks_split [:: [:: R0]; [:: R0]; [:: R0]]; first by rewrite /=; lia.
- by move=> h [<-|[<-|[<-|[]]]].
- by case=> [<-|[<-|[<-|[]]]]; do 2 split=> //; move=> v [<-|[]]; exact: Rlt_0_1.
have [|u1 E1] := S3 _ _ _ _ [::] u0 (XHps 0 [:: R0]) J0 erefl; first by rewrite /=; lia.
have X1 : with_mx (@x_run R) mode it est u0 [:: XHps 0 [:: R0]] = Some u1 by rewrite /x_run E1.
have [|u2 E2] := S3 _ _ _ _ [:: XHps 0 [:: R0]] u1 (XWeights [:: R1; R1; 2%coqR]) J0 X1; first by [].
have X2 : with_mx (@x_run R) mode it est u0 ex_ops_split = Some u2 by rewrite /ex_ops_split /x_run E1 E2.
exists u0, u2; split=> //; split=> //; rewrite -E0.
have [|||||||||M _] := @mixture_split R R0 (fun _ => R0) _ _ _ _ _ _ it est (fun n => 'M[R]_n) (fun n A => A) idR_sol (@my_logdet R_rcfType R_zmodType lnabs) mode CC CI CL CU linl linl ex_mf ex_mf 1%nat
    _ _ _ _ _ _ _ _ _ _ _ linl_valid _ _ linl_valid _ _ _ _ _ I0 X0 J0 X2 EM _ _ 1%nat (fun _ => R1) 0 ord0; last exact: M.
- by rewrite /=; lia.
- by [].
- by split=> //; split=> // -[|[|[|k]]] //= Lk; exfalso; lia.
- by split=> //; split=> // -[|[|[|k]]] //= Lk; exfalso; lia.
- split=> //; split=> //; split=> [[|[|k]] //= Lk|/=]; [exfalso; lia|by field].
- by split=> //; split=> // -[|[|[|k]]] //= Lk; exfalso; lia.
- apply: sp_other => //; first by rewrite /=; lia.
  apply: sp_weights; last exact: sp_none.
  by split=> //; split=> //; split=> [[|[|k]] //= Lk|/=]; [exfalso; lia|ring].
- by move=> a /= [<-|[<-|[<-|[]]]]; lra.
- by rewrite /=; lra.
Qed.
