(** A GP under gp2Scale follows the one without it. *)
From Coq Require Import Reals Lra List ZArith Lia.
From mathcomp Require Import all_ssreflect all_algebra.
From Verif Require Import Model.Prelude Model.GPState Model.Likelihood Model.Solvers Model.Posterior Model.Gp2Scale Model.LifeCycle Model.LargeGP.
From Verif Require Import Proofs.RealMx Spec.CholSpec Spec.SolversSpec Spec.GPStateSpec Spec.Gp2ScaleSpec Spec.LifeCycleSpec Spec.LargeGPSpec.
From Verif Require Import Proofs.GPStateP Proofs.LifeEntryP Proofs.Gp2ScaleHistP Proofs.LifeCycleP Proofs.LargeListP.
Set Implicit Arguments.
Unset Strict Implicit.
Unset Printing Implicit Defensive.
Import Order.TTheory GRing.Theory Num.Theory.
Local Open Scope ring_scope.

Section Large.
Variables P H : Type.
Variables (p0 : P) (k : P -> P -> H -> R) (kernel : list P -> list P -> H -> res cexn (@kout R)).
Variables (batch : Z) (dist : distribution) (isz : R -> bool).
Variables (mu : option (P -> H -> R)) (nz : noise_choice P H) (favg defnoise : list R -> R).
Variable cho_factor np_inv : forall n, 'M[R]_n -> option 'M[R]_n.
Variable LUt : nat -> Type.
Variable splu : forall n, 'M[R]_n -> option (LUt n).
Variable lu_solve : forall n k, LUt n -> 'M[R]_(n, k) -> 'M[R]_(n, k).
Variable lu_diag : forall n, LUt n -> 'rV[R]_n.
Variable iterate : smode -> forall n k, 'M[R]_n -> 'M[R]_(n, k) -> 'M[R]_(n, k).
Variable estimate : nat -> forall n, 'M[R]_n -> R * option R.
Variable Obj : nat -> Type.
Variable c_factor : forall n, 'M[R]_n -> Obj n.
Variable c_solve : forall n k, Obj n -> 'M[R]_(n, k) -> 'M[R]_(n, k).
Variable c_logdet : forall n, Obj n -> R.
Variable mode : smode.
Hypothesis Hz : forall v, isz v = true <-> v = R0.
Hypothesis Hk : kernel_is R0 Rplus kernel k.
Hypothesis KS : forall x y h, k x y h = k y x h.

Notation lbuild := (l_build k mu nz favg defnoise cho_factor np_inv splu lu_solve lu_diag iterate estimate c_factor c_solve c_logdet mode).
Notation lstep := (l_step k mu nz favg defnoise cho_factor np_inv splu lu_solve lu_diag iterate estimate c_factor c_solve c_logdet mode).
Notation lsteps := (l_steps k mu nz favg defnoise cho_factor np_inv splu lu_solve lu_diag iterate estimate c_factor c_solve c_logdet mode).
Notation gstart := (g_start kernel batch dist isz mu nz favg defnoise cho_factor np_inv splu lu_solve lu_diag iterate estimate c_factor c_solve c_logdet mode).
Notation gnext := (g_next kernel batch dist isz mu nz favg defnoise cho_factor np_inv splu lu_solve lu_diag iterate estimate c_factor c_solve c_logdet mode).
Notation grun := (g_run kernel batch dist isz mu nz favg defnoise cho_factor np_inv splu lu_solve lu_diag iterate estimate c_factor c_solve c_logdet mode).
Notation setf := (set_from cho_factor np_inv splu lu_solve lu_diag iterate estimate c_factor c_solve c_logdet mode).
Notation appf := (append_from cho_factor np_inv splu lu_solve lu_diag iterate estimate c_factor c_solve c_logdet mode).
Notation GInv := (Inv (kernel_call k) (mean_call mu) favg defnoise (noise_call nz)).
Notation larget := (large P H LUt Obj).

(** the cluster's covariance belongs to the data and hyperparameters of the object, and the derived state is that of them *)
Definition BInv (t : larget) : Prop :=
  good R0 Rplus k (g_p t) (xd (l_gp (g_life t))) (hp (l_gp (g_life t))) /\ GInv (l_gp (g_life t)).

Lemma gp_of_set (s : @gp P R H) mm (l : life P H LUt Obj) : setf s mm = Some l -> l_gp l = s.
Proof. by rewrite /set_from /install; case: (addKV _ _ _ _) => // KV; case: (kv_set _ _ _ _ _ _ _ _ _ _ _ _ _ _ _) => //= v [<-]. Qed.
Lemma gp_of_append (t : life P H LUt Obj) (s : @gp P R H) (l : life P H LUt Obj) : appf t s = Some l -> l_gp l = s.
Proof. by rewrite /append_from /install; case: (addKV _ _ _ _) => // KV; case: (kv_append _ _ _ _ _ _ _ _ _ _ _ _ _ _ _) => //= v [<-]. Qed.

Lemma any_on o : any_cluster o -> on_cluster (@prior_op P H o). Proof. by case: o. Qed.
Lemma points_eq o : Gp2ScaleSpec.points (@prior_op P H o) = new_points o. Proof. by case: o. Qed.

Lemma start_life c x y nv h (t : larget) : lossy c -> (Z.of_nat (length x) < 2 ^ 63)%Z -> gstart c x y nv h = Some t ->
  lbuild x y nv h = Some (g_life t) /\ BInv t /\ xd (l_gp (g_life t)) = x.
Proof.
move=> Hl B; rewrite /g_start; case E : (pinit _ _ _ _ _ _ _) => [p [[]|]] //.
have [G ->] := @start_same P H k kernel batch dist isz mu nz favg defnoise Hz Hk KS c x h p y nv Hl B E.
rewrite /l_build; case Eb : (g_build _ _ _ _ _ _ _ _ _) => [s|] //; case Es : (setf _ _) => [l|] //= [<-] /=.
have [I [_ [e1 [e2 [e3 e4]]]]] := build_ok _ _ _ _ _ _ _ _ _ _ _ _ _ Eb.
have El := gp_of_set Es; split=> //; split; last by rewrite El.
by split; rewrite /= El ?e1 ?e4.
Qed.

Lemma next_life (t : larget) o t' : BInv t -> countable (xd (l_gp (g_life t))) [:: o] -> any_cluster o -> gnext t o = Some t' ->
  lstep (g_life t) (request o) = Some (g_life t') /\ BInv t' /\
  le (length (xd (l_gp (g_life t')))) (Nat.add (length (xd (l_gp (g_life t)))) (new_points o)).
Proof.
move=> [G I] Hc Ho; rewrite /g_next; case E : (pstep _ _ _ _ _ _) => [p [[]|]] //.
have Hf : few (xd (l_gp (g_life t))) [:: prior_op o] by move: Hc; rewrite /countable /few /= points_eq.
have [-> G'] := @next_same P H k kernel batch dist isz mu nz favg defnoise Hz Hk KS (g_p t) (l_gp (g_life t)) o p G I Hf (any_on Ho) E.
rewrite /l_step; case Eg : (g_step _ _ _ _ _ _ _) G' => [s|] // /(_ _ erefl) G'.
have I' := step_inv _ _ _ _ _ _ _ _ (ksym KS) (mpt mu) _ _ _ I Eg.
have D := step_ds _ _ _ _ _ _ _ _ _ _ _ Eg.
have Hx : le (length (xd s)) (Nat.add (length (xd (l_gp (g_life t)))) (new_points o)).
  by move: D; rewrite /ds_of; case: (o) => [r x y nv cB cD|x y nv c|h c] /= [-> _ _ _]; rewrite ?app_length; lia.
have K (l : life P H LUt Obj) : l_gp l = s -> BInv (Large p l) /\ le (length (xd (l_gp l))) (Nat.add (length (xd (l_gp (g_life t)))) (new_points o)).
  by move=> e; split; [split; rewrite /= e|rewrite e].
case: o {Hc Ho Hf E Eg D Hx} K => [[] x y nv cB cD|x y nv c|h c] K /=.
all: first [case Es : (appf _ _) => [l|] //= [<-] /=; split=> //; apply: K; exact: gp_of_append Es
           |case Es : (setf _ _) => [l|] //= [<-] /=; split=> //; apply: K; exact: gp_of_set Es].
Qed.

Lemma run_life os : forall t t', BInv t -> countable (xd (l_gp (g_life t))) os -> (forall o, In o os -> any_cluster o) ->
  grun t os = Some t' ->
  lsteps (g_life t) (List.map request os) = Some (g_life t') /\ BInv t' /\
  le (length (xd (l_gp (g_life t')))) (Nat.add (length (xd (l_gp (g_life t)))) (list_sum (List.map (new_points (P:=P) (H:=H)) os))).
Proof.
elim: os => [|o os IH] t t' I Hc Ho /=.
  by move=> [<-]; split=> //; split=> //; lia.
case E : (gnext t o) => [t1|] // Er; rewrite /countable in Hc; cbn [List.map list_sum List.fold_right] in Hc.
have Hc1 : countable (xd (l_gp (g_life t))) [:: o] by rewrite /countable; cbn in Hc |- *; lia.
have [-> [I1 Hx]] := next_life I Hc1 (Ho _ (or_introl erefl)) E.
have Hc2 : countable (xd (l_gp (g_life t1))) os by rewrite /countable; fold (list_sum (List.map (new_points (P:=P) (H:=H)) os)) in Hc; lia.
have [L [B Hn]] := IH t1 t' I1 Hc2 (fun o' Io => Ho o' (or_intror Io)) Er.
by split=> //; split=> //; lia.
Qed.

Section Total.
Hypothesis Kt : forall xs ys h, exists o, kernel xs ys h = Ok o.
Lemma good_any o : good_cluster o -> any_cluster (P:=P) (H:=H) o.
Proof. by case: o => [r x y nv cB cD [a b]|x y nv c a|h c a] /=; try split; exact: faithful_lossy. Qed.
Lemma start_total c x y nv h l : faithful c -> (Z.of_nat (length x) < 2 ^ 63)%Z -> lbuild x y nv h = Some l ->
  exists t, gstart c x y nv h = Some t.
Proof.
move=> Hf B; rewrite /l_build /g_start.
have [p E] := @init_total P H k kernel batch dist isz Hz Hk KS Kt c x h Hf B; rewrite E.
have [_ ->] := @start_same P H k kernel batch dist isz mu nz favg defnoise Hz Hk KS c x h p y nv (@faithful_lossy c Hf) B E.
by case: (g_build _ _ _ _ _ _ _ _ _) => // s ->; eexists.
Qed.
Lemma next_total (t : larget) o l : BInv t -> countable (xd (l_gp (g_life t))) [:: o] -> good_cluster o -> lstep (g_life t) (request o) = Some l ->
  exists t', gnext t o = Some t'.
Proof.
move=> [G I] Hc Ho; rewrite /l_step /g_next.
have Hf : few (xd (l_gp (g_life t))) [:: prior_op o] by move: Hc; rewrite /countable /few /= points_eq.
have [p E] := @pstep_total P H k kernel batch dist isz Hz Hk KS Kt (g_p t) _ _ o G Hf Ho; rewrite E.
have [-> _] := @next_same P H k kernel batch dist isz mu nz favg defnoise Hz Hk KS (g_p t) (l_gp (g_life t)) o p G I Hf (any_on (good_any Ho)) E.
by case: (g_step _ _ _ _ _ _ _) => // s; case: (o) => [[] x y nv cB cD|x y nv c|h c] /= ->; eexists.
Qed.
End Total.

Notation crosst := (cross kernel batch dist isz).
Notation ownt := (own kernel).
Notation pts xp := (fun i : 'I_(length xp) => List.nth i xp p0).

Lemma cross_is (t : larget) c (xp : list P) K : BInv t -> lossy c -> (Z.of_nat (length (xd (l_gp (g_life t)))) < 2 ^ 63)%Z -> (Z.of_nat (length xp) < 2 ^ 63)%Z ->
  crosst t c xp = Some K -> K = kmat (kern_now k (g_life t)) (x_at p0 (t:=g_life t)) (pts xp).
Proof.
move=> [G _] Hl B1 B2; rewrite /cross; case E : (gp2scale_cov _ _ _ _ _ _ _ _ _ _ _ _) => [n [ev [M|]]] // [<-].
have EA := @cross_array P H k kernel batch dist isz Hz Hk (g_p t) _ _ c _ xp n ev M G Hl B1 B2 E.
apply/matrixP=> i j; rewrite !mxE EA /kernel_call.
by rewrite (mget_ent R0 (fun a b => k a b (hp (l_gp (g_life t)))) _ _ i j p0) //; apply/ssrnat.ltP.
Qed.
Lemma own_is (t : larget) (xp : list P) K : ownt t xp = Some K -> K = kmat (kern_now k (g_life t)) (pts xp) (pts xp).
Proof.
rewrite /own; case E : (kernel _ _ _) => [o|] //.
have EA := @own_array P H k kernel Hk xp _ o E.
have -> : match o with KDense _ rows => Some (as_mx (length xp) (length xp) rows) | KSparse m => Some (as_mx _ _ (toarray m)) end
  = Some (as_mx (length xp) (length xp) match o with KDense _ rows => rows | KSparse m => toarray m end) by case: (o).
by move=> [<-]; apply/matrixP=> i j; rewrite !mxE (EA i j p0) //; apply/ssrnat.ltP.
Qed.
Lemma cross_total (t : larget) c (xp : list P) : (forall xs ys h, exists o, kernel xs ys h = Ok o) ->
  BInv t -> faithful c -> (Z.of_nat (length (xd (l_gp (g_life t)))) < 2 ^ 63)%Z -> (Z.of_nat (length xp) < 2 ^ 63)%Z ->
  exists K, crosst t c xp = Some K.
Proof.
move=> Kt [[_ [_ [G3 _]]] _] Hf B1 B2; rewrite /cross.
have F1 f : Some (pfut (g_p t)) = Some f -> fdata f = xd (l_gp (g_life t)) by move=> [<-].
have F2 f : None = Some f -> fdata f = xp by [].
have Hs : false = true -> xd (l_gp (g_life t)) = xp by [].
have [n [ev [K ->]]] := @cov_total P H k kernel batch dist isz Hz Hk KS Kt c (pnext (g_p t)) _ xp (hp (l_gp (g_life t))) false _ None Hf B1 B2 Hs F1 F2.
by eexists.
Qed.
End Large.
