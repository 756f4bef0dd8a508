(** Properties of the marginal likelihood and its gradient: C40, C73, C74. *)
From Coq Require Import Reals Lra FunctionalExtensionality.
From mathcomp Require Import all_ssreflect all_algebra.
From Verif Require Import Proofs.RealMx Proofs.MxCalc Model.Likelihood Spec.LikelihoodSpec Proofs.LikelihoodP Proofs.LikelihoodEx.
Set Implicit Arguments.
Unset Strict Implicit.
Unset Printing Implicit Defensive.
Import Order.TTheory GRing.Theory Num.Theory.
Local Open Scope ring_scope.

(** C73 *)
Theorem likelihood_is_gaussian : forall n c p (g : model n p) (y : 'M[R]_(n, c)) (h : 'rV[R]_p), (0 < c)%N ->
  log_likelihood g y h = (- (c%:R^-1 * \sum_j neg_log_gauss (col j y) (meanf g h) (kern g h + noise_mx (noisef g h))))%R.
Proof.
by move=> n c p g y h c0; rewrite -(likelihood_gauss g y h c0) /neg_log_likelihood opprK.
Qed.
Print Assumptions likelihood_is_gaussian.

(** one observation a with mean m and variance s *)
Lemma gauss11 (a m s : R) : s != 0 ->
  neg_log_gauss (const_mx a : 'cV[R]_1) (const_mx m) (const_mx s) = (Rdiv 1 2 * ((a - m) * (a - m) / s + ln s + ln (2 * PI)))%coqR.
Proof.
move=> sN; rewrite /neg_log_gauss.
have C : (const_mx s : 'M[R]_1) = s%:M by apply/matrixP=> i j; rewrite !ord1 !mxE.
have -> : invmx (const_mx s : 'M[R]_1) = const_mx s^-1.
  rewrite C; have -> : (const_mx s^-1 : 'M[R]_1) = s^-1%:M by apply/matrixP=> i j; rewrite !ord1 !mxE.
  exact: invmx_scalar.
rewrite det_mx11 mxE mxE big_ord1 mxE big_ord1 !mxE.
have -> : (1 / 2%:R : R) = Rdiv 1 2 by rewrite rinvE ?pnatr_eq0 // r2E mul1r /Rdiv Rmult_1_l.
rewrite rinvE // rnatE r2E; toR; rewrite /Rdiv /=; field; exact/eqP.
Qed.

(** C40 *)
(** [a]: derivative through the mean alone, [b]: derivative through kernel and noise alone *)
Theorem likelihood_gradient_partial : forall n c p (g : model n p) (y : 'M[R]_(n, c)) (h : 'rV[R]_p) (i : 'I_p) (j : 'I_c) a b,
  (forall k, partial_at (fun h' => meanf g h' k 0) h i (dmean g h i k 0)) ->
  (forall k l, partial_at (fun h' => kern g h' k l) h i (dkern g h i k l)) ->
  (forall k l, partial_at (fun h' => noise_mx (noisef g h') k l) h i (noise_mx (dnoise g h i) k l)) ->
  let S h' := kern g h' + noise_mx (noisef g h') in
  0 < \det (S h) -> symmetric (S h) ->
  partial_at (fun h' => neg_log_gauss (col j y) (meanf g h') (S h)) h i a ->
  partial_at (fun h' => neg_log_gauss (col j y) (meanf g h) (S h')) h i b ->
  partial_at (fun h' => neg_log_gauss (col j y) (meanf g h') (S h')) h i (neg_log_likelihood_gradient g y h j 0 i)
  <-> (a = 0 \/ b = 0).
Proof.
move=> n c p g y h i j a b Cm Ck Cn S P sS Pa Pb.
have [a' [b' [_ [_ [A B D E]]]]] := gradient_parts y j (And3 Cm Ck Cn) P sS.
have -> : a = a' by apply: dpl_uniq Pa A.
have -> : b = b' by apply: dpl_uniq Pb B.
rewrite E; split=> [Q|].
  have e := dpl_uniq Q D; case: (eqVneq a' 0) e=> [->|_]; first by left.
  by rewrite add0r => e; right; apply/eqP; rewrite -(inj_eq (addrI a')) addr0 -e.
case=> Z; rewrite Z in D *; first by rewrite eqxx; apply: (dpl_eq D)=> //; rewrite addrC.
by rewrite if_same add0r; apply: (dpl_eq D)=> //; rewrite addr0.
Qed.
Print Assumptions likelihood_gradient_partial.
(** ... in particular it is right when a hyperparameter enters the mean or the covariance but not both, for the single column [j] *)
Corollary likelihood_gradient_disjoint : forall n p (g : model n p) (y : 'cV[R]_n) (h : 'rV[R]_p) (i : 'I_p),
  (forall k, partial_at (fun h' => meanf g h' k 0) h i (dmean g h i k 0)) ->
  (forall k l, partial_at (fun h' => kern g h' k l) h i (dkern g h i k l)) ->
  (forall k l, partial_at (fun h' => noise_mx (noisef g h') k l) h i (noise_mx (dnoise g h i) k l)) ->
  0 < \det (kern g h + noise_mx (noisef g h)) -> symmetric (kern g h + noise_mx (noisef g h)) ->
  dmean g h i = 0 \/ dkern g h i + noise_mx (dnoise g h i) = 0 ->
  partial_at (fun h' => (- log_likelihood g y h')%R) h i (neg_log_likelihood_gradient g y h 0 0 i).
Proof.
move=> n p g y h i Cm Ck Cn P sS Z.
have [a [b [Z1 [Z2 [A B D E]]]]] := gradient_parts (c := 1) y 0 (And3 Cm Ck Cn) P sS.
have F h' : neg_log_gauss (col 0 y) (meanf g h') (KV g h') = - log_likelihood g y h'.
  by rewrite likelihood_is_gaussian // big_ord1 invr1 mul1r opprK.
apply: (dpl_eq D)=> [t|]; first exact: F.
rewrite E; case: Z=> [/Z1->|/Z2->]; first by rewrite eqxx addrC.
by rewrite if_same addr0 add0r.
Qed.
Print Assumptions likelihood_gradient_disjoint.

(** a hyperparameter that is both the mean and the variance of one observation *)
Definition shared : model 1 1 :=
  Model (fun h => const_mx (h 0 0)) (fun _ => NDiag 0) (fun h => const_mx (h 0 0))
        (fun _ _ => const_mx 1) (fun _ _ => NDiag 0) (fun _ _ => const_mx 1).
(** the same with mean zero *)
Definition scale_only : model 1 1 :=
  Model (fun h => const_mx (h 0 0)) (fun _ => NDiag 0) (fun h => 0)
        (fun _ _ => const_mx 1) (fun _ _ => NDiag 0) (fun _ _ => 0).

Lemma with0 (h : 'rV[R]_1) (t : R) : (with_hp h 0 t) 0 0 = t. Proof. by rewrite mxE. Qed.
Lemma noise0 n : noise_mx (NDiag (0 : 'cV[R]_n)) = 0. Proof. by rewrite /= trmx0 linear0. Qed.
Lemma scale_contracts (g : model 1 1) (h : 'rV[R]_1) i : g = shared \/ g = scale_only ->
  [/\ forall k, partial_at (fun h' => meanf g h' k 0) h i (dmean g h i k 0),
      forall k l, partial_at (fun h' => kern g h' k l) h i (dkern g h i k l) &
      forall k l, partial_at (fun h' => noise_mx (noisef g h') k l) h i (noise_mx (dnoise g h i) k l)].
Proof.
rewrite (ord1 i).
have I k l : partial_at (fun h' : 'rV[R]_1 => (const_mx (h' 0 0) : 'M[R]_1) k l) h 0 ((const_mx 1 : 'M[R]_1) k l).
  by rewrite /partial_at; apply: (dpl_eq (dpl_id (h 0 0))); [move=> t; rewrite !mxE | rewrite mxE].
have Z k l : partial_at (fun h' : 'rV[R]_1 => (0 : 'M[R]_1) k l) h 0 ((0 : 'M[R]_1) k l).
  by rewrite /partial_at; apply: (dpl_eq (dpl_const 0 (h 0 0))); [move=> t; rewrite !mxE | rewrite mxE].
have N k l : partial_at (fun h' : 'rV[R]_1 => noise_mx (NDiag (0 : 'cV[R]_1)) k l) h 0 (noise_mx (NDiag (0 : 'cV[R]_1)) k l).
  by apply: (dpl_eq (Z k l)); [move=> t|]; rewrite noise0.
by case=> ->; split=> [k|k l|k l]; [exact: (I k 0)|exact: I|exact: N|exact: (Z k 0)|exact: I|exact: N].
Qed.
Lemma scale_KV (g : model 1 1) (h : 'rV[R]_1) : g = shared \/ g = scale_only -> KV g h = const_mx (h 0 0).
Proof. by case=> ->; rewrite /KV noise0 addr0. Qed.
Lemma scale_pos (g : model 1 1) (h : 'rV[R]_1) : g = shared \/ g = scale_only -> 0 < h 0 0 -> 0 < \det (KV g h) /\ symmetric (KV g h).
Proof. by move=> G P; rewrite scale_KV // det_mx11 mxE; split=> // i j; rewrite !mxE. Qed.


Lemma gauss_dm (a m : R) : dpl (fun t => neg_log_gauss (const_mx a : 'cV[R]_1) (const_mx t) (const_mx 1)) m (m - a)%coqR.
Proof.
apply: (dpl_eq (g1_mean a 1%coqR m R1_neq_R0)); last by field.
by move=> t; rewrite gauss11 //; exact: oner_neq0.
Qed.
Lemma gauss_ds (a m : R) :
  dpl (fun t => neg_log_gauss (const_mx a : 'cV[R]_1) (const_mx m) (const_mx t)) 1 (1 / 2 - (a - m) * (a - m) / 2)%coqR.
Proof.
apply: (@dpl_local (fun t => g1 a m t) _ _ _ R1 Rlt_0_1).
  by move=> t /Rabs_def2 T; rewrite gauss11 //; apply/eqP; rewrite r0E; lra.
by apply: (dpl_eq (g1_var a m 1%coqR Rlt_0_1))=> //; field.
Qed.

(** C40 fails: for such a hyperparameter at value 1 and the observation 3, the derivative is -7/2, the gradient -2 *)
Theorem likelihood_gradient_refuted : exists (g : model 1 1) (y h : 'M[R]_1),
  [/\ forall h' i, [/\ forall k, partial_at (fun h' => meanf g h' k 0) h' i (dmean g h' i k 0),
      forall k l, partial_at (fun h' => kern g h' k l) h' i (dkern g h' i k l) &
      forall k l, partial_at (fun h' => noise_mx (noisef g h') k l) h' i (noise_mx (dnoise g h' i) k l)],
      0 < \det (kern g h + noise_mx (noisef g h)), symmetric (kern g h + noise_mx (noisef g h)) &
      exists2 l, partial_at (fun h' => (- log_likelihood g y h')%R) h 0 l & l <> neg_log_likelihood_gradient g y h 0 0 0].
Proof.
pose h : 'M[R]_1 := const_mx 1; pose y : 'M[R]_1 := const_mx 3%coqR.
have G : shared = shared \/ shared = scale_only by left.
have h1 : h 0 0 = 1 by rewrite mxE.
have [P sS] := @scale_pos shared h G (eq_ind_r (fun z => 0 < z) ltr01 h1).
exists shared, y, h; split=> //; first by move=> h' i; apply: scale_contracts.
have [a [b [_ [_ [A B D E]]]]] := gradient_parts (c := 1) y 0 (scale_contracts h 0 G) P sS.
have F h' : neg_log_gauss (col 0 y) (meanf shared h') (KV shared h') = - log_likelihood shared y h'.
  by rewrite likelihood_is_gaussian // big_ord1 invr1 mul1r opprK.
have cy : col 0 y = const_mx 3%coqR by apply/colP=> k; rewrite !mxE.
have Ea : a = Ropp 2%coqR.
  apply: (dpl_uniq A); rewrite h1; apply: (dpl_eq (gauss_dm 3%coqR 1%coqR)); last by lra.
  by move=> t; rewrite cy scale_KV // h1 /= with0.
have Eb : b = Ropp (3 / 2)%coqR.
  apply: (dpl_uniq B); rewrite h1; apply: (dpl_eq (gauss_ds 3%coqR 1%coqR)); last by lra.
  by move=> t; rewrite cy scale_KV // with0 /= h1.
exists (a + b)%R; first by apply: (dpl_eq D)=> // t; exact: F.
rewrite E; have -> : (a == 0) = false by rewrite Ea; apply/eqP; rewrite r0E; lra.
by rewrite add0r Ea Eb; toR; lra.
Qed.
Print Assumptions likelihood_gradient_refuted.

(** ... and for two columns of observations the objective averages over both, the gradient uses the first *)
Theorem likelihood_gradient_columns_refuted : exists (g : model 1 1) (y : 'M[R]_(1, 2)) (h : 'rV[R]_1),
  [/\ forall h' i, [/\ forall k, partial_at (fun h' => meanf g h' k 0) h' i (dmean g h' i k 0),
      forall k l, partial_at (fun h' => kern g h' k l) h' i (dkern g h' i k l) &
      forall k l, partial_at (fun h' => noise_mx (noisef g h') k l) h' i (noise_mx (dnoise g h' i) k l)],
      0 < \det (kern g h + noise_mx (noisef g h)), symmetric (kern g h + noise_mx (noisef g h)), dmean g h 0 = 0 &
      exists2 l, partial_at (fun h' => (- log_likelihood g y h')%R) h 0 l & l <> neg_log_likelihood_gradient g y h 0 0 0].
Proof.
pose h : 'rV[R]_1 := const_mx 1; pose y : 'M[R]_(1, 2) := \matrix_(i, j) (if j == 0 then 0%coqR else 2%coqR).
have G : scale_only = shared \/ scale_only = scale_only by right.
have h1 : h 0 0 = 1 by rewrite mxE.
have [P sS] := @scale_pos scale_only h G (eq_ind_r (fun z => 0 < z) ltr01 h1).
exists scale_only, y, h; split=> //; first by move=> h' i; apply: scale_contracts.
have cy j : col j y = const_mx (if j == 0 then 0%coqR else 2%coqR) by apply/colP=> k; rewrite !mxE.
have D j : partial_at (fun h' => neg_log_gauss (col j y) (meanf scale_only h') (KV scale_only h')) h 0
    (1 / 2 - (if (j == 0)%R then 0 else 4) / 2)%coqR.
  rewrite /partial_at h1; apply: (dpl_eq (gauss_ds (if (j == 0)%R then 0 else 2)%coqR 0%coqR)); last by case: (j == 0); lra.
  by move=> t; rewrite cy scale_KV // with0 /=; congr neg_log_gauss; apply/colP=> k; rewrite !mxE.
have [a [b [Z [_ [_ B D' E]]]]] := gradient_parts (c := 2) y 0 (scale_contracts h 0 G) P sS.
have := dpl_uniq D' (D 0); rewrite eqxx (Z erefl) add0r => Eb.
rewrite E (Z erefl) eqxx addr0 Eb.
exists (2%:R^-1 * ((1 / 2 - 0 / 2)%coqR + (1 / 2 - 4 / 2)%coqR))%R; last first.
  by rewrite rinvE ?pnatr_eq0 // r2E; toR; lra.
have o1 : lift ord0 ord0 = 1 :> 'I_2 by apply/val_inj.
have F h' : - log_likelihood scale_only y h' =
  (2%:R^-1 * (neg_log_gauss (col 0 y) (meanf scale_only h') (KV scale_only h') + neg_log_gauss (col 1 y) (meanf scale_only h') (KV scale_only h')))%R.
  by rewrite (likelihood_is_gaussian scale_only y h' (isT : (0 < 2)%N)) opprK big_ord_recl big_ord1 o1.
apply: (dpl_eq (dplZ 2%:R^-1 (dplD (D 0) (D 1))) (fun t => esym (F _))); reflexivity.
Qed.
Print Assumptions likelihood_gradient_columns_refuted.

(** example beside [likelihood_is_gaussian] and [likelihood_gradient_disjoint]: one observation 2 with prior variance 1,
    the negative log likelihood is (4 + ln 2pi)/2 and its derivative in the variance -3/2 *)
Example likelihood_ex : let h : 'rV[R]_1 := const_mx 1 in let y : 'M[R]_1 := const_mx 2%coqR in
  (log_likelihood scale_only y h = - (1 / 2 * (4 + ln (2 * PI))))%coqR /\ neg_log_likelihood_gradient scale_only y h 0 0 0 = (- (3 / 2))%coqR.
Proof.
move=> h y; have G : scale_only = shared \/ scale_only = scale_only by right.
have h1 : h 0 0 = 1 by rewrite mxE.
have cy : col 0 y = const_mx 2%coqR by apply/colP=> k; rewrite !mxE.
have m0 h' : meanf scale_only h' = const_mx 0 by apply/colP=> k; rewrite !mxE.
split.
  rewrite likelihood_is_gaussian // big_ord1 invr1 mul1r -/(KV scale_only h) scale_KV // h1 cy m0 gauss11 ?oner_neq0 // ln_1.
  by toR; field.
have [P sS] := @scale_pos scale_only h G (eq_ind_r (fun z => 0 < z) ltr01 h1).
have [C1 C2 C3] := scale_contracts h 0 G.
have D := @likelihood_gradient_disjoint 1 1 scale_only y h 0 C1 C2 C3 P sS (or_introl erefl).
apply: (dpl_uniq D); rewrite h1; apply: (dpl_eq (gauss_ds 2%coqR 0%coqR)); last by lra.
by move=> t; rewrite likelihood_is_gaussian // big_ord1 invr1 mul1r opprK -/(KV scale_only _) scale_KV // with0 cy m0.
Qed.

(** C74 *)
Theorem likelihood_hessian_partial : forall p (grad : 'rV[R]_p -> 'rV[R]_p) (eps : R) (h : 'rV[R]_p),
  exists H, neg_log_likelihood_hessian grad eps (Some h) = Some H /\
  [/\ symmetric H &
    forall i j : 'I_p, (i <= j)%N -> H i j = ((grad (with_hp h i (h 0 i + eps)%R) 0 j - grad h 0 j) / eps)%R].
Proof.
move=> p grad eps h; eexists; split; first reflexivity.
set d2 := \matrix_(_, _) _.
have G (A : 'M[R]_p) i j : (A + A^T - diag_mx (\row_i A i i)) i j = if i == j then A i i else A i j + A j i.
  by rewrite !mxE; case: (eqVneq i j)=> [<-|_]; rewrite ?mulr1n ?addrK // mulr0n subr0.
have W i : h + eps *: delta_mx 0 i = with_hp h i (h 0 i + eps)%R.
  by apply/rowP=> j; rewrite !mxE eqxx /= eq_sym; case: (eqVneq i j)=> [->|_]; rewrite ?mulr1 ?mulr0 ?addr0.
split=> i j; rewrite ?G.
  by rewrite (eq_sym j i); case: (eqVneq i j)=> [->//|_]; rewrite addrC.
move=> L; case: (eqVneq i j)=> [<-|ne]; first by rewrite mxE leqnn W.
rewrite mxE L W [X in _ + X]mxE; case: ifP=> [L'|_]; last by rewrite addr0.
by case/eqP: ne; apply/val_inj/eqP; rewrite eqn_leq L L'.
Qed.
Print Assumptions likelihood_hessian_partial.
(** the documented default [hyperparameters=None] ends in a TypeError *)
Theorem likelihood_hessian_refuted : forall p (grad : 'rV[R]_p -> 'rV[R]_p) (eps : R),
  neg_log_likelihood_hessian grad eps None = None.
Proof. by []. Qed.
Print Assumptions likelihood_hessian_refuted.
(** the Hessian of h0 h1 + h1^2: gradient (h1, h0 + 2 h1); the differences are exact *)
Example hessian_ex : let grad := fun h : 'rV[R]_2 => \row_j (if j == 0 then h 0 1 else h 0 0 + 2%:R * h 0 1) in
  forall h, exists H, neg_log_likelihood_hessian grad 1 (Some h) = Some H /\ [/\ H 0 0 = 0, H 0 1 = 1, H 1 0 = 1 & H 1 1 = 2%:R].
Proof.
move=> grad h; have [H [E [S D]]] := likelihood_hessian_partial grad 1 h.
exists H; split=> //; rewrite (S 1 0) !D // !mxE /= !divr1.
have K (a b c : R) : a + c + b - (a + b) = c by rewrite [a + c + b]addrAC [_ - _]addrC addKr.
have K' (a b : R) : a + 2%:R * (b + 1) - (a + 2%:R * b) = 2%:R by rewrite mulrDr mulr1 addrA [_ - _]addrC addKr.
split; first exact: subrr.
- exact: K.
- exact: K.
exact: K'.
Qed.
