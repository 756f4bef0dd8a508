(** Histories of the whole object. *)
From Coq Require Import Reals List ZArith.
From mathcomp Require Import all_ssreflect all_algebra.
From Verif Require Import Model.Prelude Model.GPState Model.Likelihood Model.Solvers Model.Posterior Model.LifeCycle.
From Verif Require Import Proofs.RealMx Spec.CholSpec Spec.SolversSpec Spec.GPStateSpec Spec.LifeCycleSpec.
From Verif Require Import Proofs.GPStateP Proofs.LifeEntryP Proofs.CholP Proofs.PosDef Proofs.SolversP Proofs.PosteriorP.
Set Implicit Arguments.
Unset Strict Implicit.
Unset Printing Implicit Defensive.
Import Order.TTheory GRing.Theory Num.Theory.
Local Open Scope ring_scope.

Lemma lnabs_log : log_like (lnabs : R_rcfType -> R_zmodType).
Proof.
move=> a b /eqP a0 /eqP b0; rewrite /lnabs -[(a * b)%R]/(Rmult a b) Rabs_mult ln_mult //; exact: Rabs_pos_lt.
Qed.

Section Life.
Variables P H : Type.
Variables (p0 : P) (k : P -> P -> H -> R) (mu : option (P -> H -> R)) (nz : noise_choice P H) (favg defnoise : list R -> R).
Variable cho_factor np_inv : forall n, 'M[R]_n -> option 'M[R]_n.
Variable LUt : nat -> Type.
Variable splu : forall n, 'M[R]_n -> option (LUt n).
Variable lu_solve : forall n k, LUt n -> 'M[R]_(n, k) -> 'M[R]_(n, k).
Variable lu_diag : forall n, LUt n -> 'rV[R]_n.
Variable iterate : smode -> forall n k, 'M[R]_n -> 'M[R]_(n, k) -> 'M[R]_(n, k).
Variable estimate : nat -> forall n, 'M[R]_n -> R * option R.
Variable Obj : nat -> Type.
Variable c_factor : forall n, 'M[R]_n -> Obj n.
Variable c_solve : forall n k, Obj n -> 'M[R]_(n, k) -> 'M[R]_(n, k).
Variable c_logdet : forall n, Obj n -> R.
Variable mode : smode.
Hypothesis CC : @chol_contract R_rcfType cho_factor.
Hypothesis CI : @inv_contract R_rcfType np_inv.
Hypothesis CL : @lu_contract R_rcfType LUt splu lu_solve lu_diag.
Hypothesis CU : @custom_contract R_rcfType R_zmodType lnabs Obj c_factor c_solve c_logdet.
Hypothesis KS : forall x y h, k x y h = k y x h.
Hypothesis NS : symmetric_noise nz.

Notation reach := (@reached R_rcfType R_zmodType lnabs cho_factor np_inv LUt splu lu_solve lu_diag iterate estimate Obj c_factor c_solve c_logdet mode 1).
Notation lbuild := (l_build k mu nz favg defnoise cho_factor np_inv splu lu_solve lu_diag iterate estimate c_factor c_solve c_logdet mode).
Notation lstep := (l_step k mu nz favg defnoise cho_factor np_inv splu lu_solve lu_diag iterate estimate c_factor c_solve c_logdet mode).
Notation lsteps := (l_steps k mu nz favg defnoise cho_factor np_inv splu lu_solve lu_diag iterate estimate c_factor c_solve c_logdet mode).
Notation lifet := (life P H LUt Obj).
Notation GInv := (Inv (kernel_call k) (mean_call mu) favg defnoise (noise_call nz)).
Definition entry_of (d : @dataset P R H) (i j : nat) : R :=
  (k (List.nth i (ds_x d) p0) (List.nth j (ds_x d) p0) (ds_h d) + noise_entry p0 nz defnoise d i j)%R.
Notation entry := entry_of.
Definition gds (s : @gp P R H) : @dataset P R H := DS (xd s) (yd s) (nvar s) (hp s).
Definition lined (s : @gp P R H) : Prop := nz = @Measured P H -> length (nvar s) = length (xd s).

Definition LInv (t : lifet) : Prop :=
  GInv (l_gp t) /\ lined (l_gp t) /\
  exists KV : nat -> nat -> R, agree (R:=R_rcfType) (length (xd (l_gp t))) KV (entry (stored t)) /\ reach KV (resid (l_gp t)) (l_kv t).

Lemma ksym : symmetric_kernel (kernel_call k). Proof. by exists k. Qed.
Lemma mpt : match mean_call mu with None => True | Some f => pointwise_mean f end.
Proof. by rewrite /mean_call; case: mu => [f|] //=; exists f. Qed.
Lemma entry_sym (d : @dataset P R H) i j : entry d i j = entry d j i.
Proof.
congr (_ + _); first exact: KS.
move: NS; rewrite /noise_entry /symmetric_noise; case: nz => [_|_|nu _|nu S]; last exact: S.
all: by rewrite Nat.eqb_sym; case: Nat.eqb_spec => // ->.
Qed.

(** K + V of a consistent state *)
Lemma kv_of s : GInv s -> lined s -> exists KV, addKV R0 Rplus (pK s) (pV s) = Some KV /\
  agree (R:=R_rcfType) (length (xd s)) (mget R0 KV) (entry (gds s)) /\ symmetric (lead (R:=R_rcfType) (mget R0 KV) (length (xd s))).
Proof.
move=> [I1 [I2 I3]] L; have [kv E] := kv_formed k nz favg defnoise (xd s) (yd s) (nvar s) (hp s) L.
exists kv; rewrite I2 I3; split=> //.
have A : agree (R:=R_rcfType) (length (xd s)) (mget R0 kv) (entry (gds s)).
  by move=> i j /ssrnat.ltP Hi /ssrnat.ltP Hj; exact: (kv_entry p0 k nz favg defnoise _ _ _ _ _ _ _ L E Hi Hj).
by split=> //; apply/matrixP=> i j; rewrite !mxE !A //; exact: entry_sym.
Qed.

Lemma sym_of_agree n f (d : @dataset P R H) : agree (R:=R_rcfType) n f (entry d) -> symmetric (lead (R:=R_rcfType) f n).
Proof. by move=> A; apply/matrixP=> i j; rewrite !mxE !A //; exact: entry_sym. Qed.

Lemma set_from_inv s mm t : GInv s -> lined s ->
  set_from cho_factor np_inv splu lu_solve lu_diag iterate estimate c_factor c_solve c_logdet mode s mm = Some t -> LInv t /\ l_gp t = s.
Proof.
move=> I L; have [KV [E [A S]]] := kv_of I L; rewrite /set_from /install E.
case Ek : (kv_set _ _ _ _ _ _ _ _ _ _ _ _ _ _ _) => [v|] //= [<-]; split=> //; split=> //=; split=> //.
by exists (mget R0 KV); split=> //; exact: r_set S Ek.
Qed.

Lemma entry_kept (t : lifet) s x y nv i j : lined (l_gp t) -> ~ moving_noise nz (GAppend true x y nv) ->
  ds_of s = ds_step (ds_of (l_gp t)) (GAppend true x y nv) ->
  (i < length (xd (l_gp t)))%nat -> (j < length (xd (l_gp t)))%nat -> entry (gds s) i j = entry (stored t) i j.
Proof.
move=> L Mv D /ssrnat.ltP Hi /ssrnat.ltP Hj.
have -> : gds s = ds_step (stored t) (GAppend true x y nv) by exact: D.
rewrite /entry_of /= !app_nth1 //; congr (_ + _).
by apply: (entry_app p0 nz defnoise (stored t)) => // e; case: Mv; rewrite /moving_noise e.
Qed.

Lemma step_ok t o t' : LInv t -> (nz = @Measured P H -> aligned o) -> ~ moving_noise nz o -> lstep t o = Some t' ->
  LInv t' /\ stored t' = ds_step (stored t) o.
Proof.
move=> [I [L [KV0 [A0 R0']]]] Al Mv; rewrite /l_step /g_step.
case Eg : (gstep _ _ _ _ _ _ _ _ _ _) => [s|] //.
have I' := step_inv _ _ _ _ _ _ _ _ ksym mpt _ _ _ I Eg; have D := step_ds _ _ _ _ _ _ _ _ _ _ _ Eg.
have L' : lined s.
  move=> e; have := Al e; have := L e; move: D; rewrite /ds_of; case: (o) => [r x y nv|x y nv|h] /= [-> _ -> _] //.
  by rewrite !app_length => -> ->.
have K r : set_from cho_factor np_inv splu lu_solve lu_diag iterate estimate c_factor c_solve c_logdet mode s r = Some t' -> LInv t' /\ stored t' = ds_step (stored t) o.
  by move=> /(set_from_inv I' L') [Lt Et]; split=> //; rewrite /stored Et.
case: o Al Mv Eg D K => [[] x y nv|x y nv|h] Al Mv Eg D K; try exact: K.
have [KV [E [A S]]] := kv_of I' L'; rewrite /append_from /install E.
case Ek : (kv_append _ _ _ _ _ _ _ _ _ _ _ _ _ _ _) => [v|] //= [<-]; split; last exact: D.
split=> //=; split=> //; exists (mget R0 KV); split=> //; apply: (r_append (R0') S _ Ek) => le i j Hi Hj.
rewrite A ?(leq_trans Hi) ?(leq_trans Hj) // A0 //.
exact: (entry_kept L Mv D Hi Hj).
Qed.

Lemma steps_ok os : forall t t', LInv t -> (nz = @Measured P H -> forall o, In o os -> aligned o) ->
  (forall o, In o os -> ~ moving_noise nz o) -> lsteps t os = Some t' -> LInv t' /\ stored t' = history (stored t) os.
Proof.
elim: os => [|o os IH] t t' I Al Mv; first by move=> [<-].
rewrite /=; case E : (lstep t o) => [t1|] //.
have Al0 : nz = @Measured P H -> aligned o by move=> e; apply: Al e _ _; left.
have Mv0 : ~ moving_noise nz o by apply: Mv; left.
have [I1 S1] := step_ok I Al0 Mv0 E => Es.
have Al1 : nz = @Measured P H -> forall o, In o os -> aligned o by move=> e a Ha; apply: Al e _ _; right.
have Mv1 o' : In o' os -> ~ moving_noise nz o' by move=> Ha; apply: Mv; right.
have [I' S'] := IH _ _ I1 Al1 Mv1 Es; split=> //.
by rewrite S' S1.
Qed.

Lemma build_inv x y nv h t : (nz = @Measured P H -> length nv = length x) -> lbuild x y nv h = Some t ->
  LInv t /\ stored t = DS x y nv h.
Proof.
move=> L; rewrite /l_build /g_build; case E : (build _ _ _ _ _ _ _ _ _ _ _ _) => [s|] //.
have [I [_ [e1 [e2 [e3 e4]]]]] := build_ok _ _ _ _ _ _ _ _ _ _ _ _ _ E.
move=> /(set_from_inv I) [|Lt Et]; first by rewrite /lined e1 e3.
by rewrite /stored Et e1 e2 e3 e4.
Qed.

Lemma set_from_total s mm : GInv s -> lined s -> accepts (R:=R_rcfType) mode (\matrix_(i, j) entry (gds s) i j : 'M[R]_(length (xd s))) ->
  exists t, set_from cho_factor np_inv splu lu_solve lu_diag iterate estimate c_factor c_solve c_logdet mode s mm = Some t.
Proof.
move=> I L Ac; have [KV [E [A S]]] := kv_of I L; rewrite /set_from /install E.
have [St _] := state_accept_l lnabs iterate estimate c_factor c_solve c_logdet CC CI CL mode (resid s) S.
have [|v ->] := (St mm).2; last by eexists.
by rewrite (_ : lead _ _ = \matrix_(i, j) entry (gds s) i j) //; apply/matrixP=> i j; rewrite !mxE A.
Qed.
Lemma build_total x y nv h : (nz = @Measured P H -> length nv = length x) ->
  accepts (R:=R_rcfType) mode (\matrix_(i, j) entry (DS x y nv h) i j : 'M[R]_(length x)) -> exists t, lbuild x y nv h = Some t.
Proof.
move=> L Ac; rewrite /l_build /g_build; have [kv E] := kv_formed k nz favg defnoise x y nv h L.
case Eb : (build _ _ _ _ _ _ _ _ _ _ _ _) => [s|]; last by move: Eb; rewrite /build /GPState.refresh /= E.
have [I [_ [e1 [e2 [e3 e4]]]]] := build_ok _ _ _ _ _ _ _ _ _ _ _ _ _ Eb.
by apply: set_from_total => //; [rewrite /lined e1 e3|move: Ac; rewrite /gds -e1 -e2 -e3 -e4].
Qed.
Lemma step_total t o : LInv t -> (nz = @Measured P H -> aligned o) -> ~ moving_noise nz o ->
  accepts (R:=R_rcfType) mode (\matrix_(i, j) entry (ds_step (stored t) o) i j : 'M[R]_(length (ds_x (ds_step (stored t) o)))) ->
  exists t', lstep t o = Some t'.
Proof.
move=> [I [L [KV0 [A0 R0']]]] Al Mv Ac; rewrite /l_step /g_step.
have [s Eg] : exists s, gstep R0 Rplus (kernel_call k) (mean_call mu) favg defnoise (noise_call nz) false (l_gp t) o = Some s.
  have [I1 [I2 I3]] := I; case: o Al {Mv Ac} => [r x y nv|x y nv|h] Al /=.
  - rewrite /gp_append /GPState.refresh /=.
    have -> : block (pK (l_gp t)) (kernel_call k (xd (l_gp t)) x (hp (l_gp t)))
       (transpose R0 (length x) (kernel_call k (xd (l_gp t)) x (hp (l_gp t)))) (kernel_call k x x (hp (l_gp t)))
       = kernel_call k (xd (l_gp t) ++ x)%list (xd (l_gp t) ++ x)%list (hp (l_gp t)).
      by rewrite I2; apply: (ent_block R0 (fun a b => k a b (hp (l_gp t)))) => a b; exact: KS.
    have [|kv ->] := kv_formed k nz favg defnoise (xd (l_gp t) ++ x)%list (yd (l_gp t) ++ y)%list (nvar (l_gp t) ++ nv)%list (hp (l_gp t)); last by eexists.
    by move=> e; rewrite !app_length (L e) (Al e).
  - rewrite /gp_overwrite /GPState.refresh /=.
    by have [kv ->] := kv_formed k nz favg defnoise x y nv (hp (l_gp t)) Al; eexists.
  rewrite /gp_set_hps /GPState.refresh /=.
  by have [kv ->] := kv_formed k nz favg defnoise (xd (l_gp t)) (yd (l_gp t)) (nvar (l_gp t)) h L; eexists.
rewrite Eg; have I' := step_inv _ _ _ _ _ _ _ _ ksym mpt _ _ _ I Eg; have D := step_ds _ _ _ _ _ _ _ _ _ _ _ Eg.
have L' : lined s.
  move=> e; have := Al e; have := L e; move: D; rewrite /ds_of; case: (o) => [r x y nv|x y nv|h] /= [-> _ -> _] //.
  by rewrite !app_length => -> ->.
have Ac' : accepts (R:=R_rcfType) mode (\matrix_(i, j) entry (gds s) i j : 'M[R]_(length (xd s))).
  by move: Ac; have <- : gds s = ds_step (stored t) o by exact: D.
have K r : exists t', set_from cho_factor np_inv splu lu_solve lu_diag iterate estimate c_factor c_solve c_logdet mode s r = Some t'.
  exact: set_from_total.
case: o Al Mv Eg D {Ac} => [[] x y nv|x y nv|h] Al Mv Eg D; try exact: K.
have [KV [E [A S]]] := kv_of I' L'; rewrite /append_from /install E.
have [_ Ap] := state_accept_l lnabs iterate estimate c_factor c_solve c_logdet CC CI CL mode (resid s) S.
have [||v ->] := (Ap _ _ _ _ R0' _).2; last by eexists.
  move=> le i j Hi Hj; rewrite A ?(leq_trans Hi) ?(leq_trans Hj) // A0 //.
  exact: (entry_kept L Mv D Hi Hj).
by rewrite (_ : lead _ _ = \matrix_(i, j) entry (gds s) i j) //; apply/matrixP=> i j; rewrite !mxE A.
Qed.

(** the solver state in an exact mode *)
Lemma kv_exact t : LInv t -> exact_mode mode -> let A : 'M[R]_(length (xd (l_gp t))) := \matrix_(i, j) entry (stored t) i j in
  (mode = Custom -> A \in unitmx) ->
  [/\ A \in unitmx, v_KVinvY (l_kv t) = invmx A *m resid (l_gp t), v_logdet (l_kv t) = lnabs `|\det A|,
      forall m (b : 'M[R]_(_, m)), solve lu_solve iterate c_solve mode (v_factor (l_kv t)) b = invmx A *m b &
      stored_inverse t = None \/ stored_inverse t = Some (invmx A)].
Proof.
move=> [I [L [KV [Ag Rc]]]] EM A Cu; have EA : lead (R:=R_rcfType) KV _ = A by apply/matrixP=> i j; rewrite !mxE Ag.
have [U [S1 [S2 S3]]] := state_exact_l lnabs_log CC CI CL CU Rc EM (fun e => etrans (congr1 (fun M => M \in unitmx) EA) (Cu e)).
rewrite EA in U S1 S2 S3; split=> //.
- by move: S1; rewrite /solves => <-; rewrite mulKmx.
- by move=> m b; have := S3 m b; rewrite /solves => {2}<-; rewrite mulKmx.
have [_ [Hf _]] := reached_holds CC CI CL Rc; rewrite EA in Hf.
have IV (B : 'M[R]_(length (xd (l_gp t)))) : A *m B = 1%:M -> B = invmx A by move=> e; rewrite -[B](mulKmx U) e mulmx1.
rewrite /stored_inverse; case: (v_factor (l_kv t)) Hf => [M|M B|M B|M|F|o] Hf; try by left.
  by right; congr Some; apply: IV; case: (mode) Hf => // -[].
by right; congr Some; apply: IV; case: (mode) Hf => // -[].
Qed.
End Life.
