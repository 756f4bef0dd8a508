(** Proofs about the distance between Gaussian components. *)
From mathcomp Require Import all_ssreflect all_algebra.
From Verif Require Import Model.CholUpdate Spec.CholSpec Proofs.PosDef Proofs.CholP Model.GaussW2 Spec.GaussW2Spec.
Set Implicit Arguments.
Unset Strict Implicit.
Unset Printing Implicit Defensive.
Import Order.TTheory GRing.Theory Num.Theory.
Local Open Scope ring_scope.

Section Basics.
Variable R : rcfType.
Lemma eps_gt0 : 0 < eps R. Proof. by rewrite invr_gt0 exprn_gt0 ?ltr0n. Qed.
Lemma eps_le1 : eps R <= 1. Proof. by rewrite invf_le1 ?exprn_gt0 ?ltr0n // exprn_ege1 // ler1n. Qed.
Lemma sym_psdE n (A : 'M[R]_n) : A^T = A -> sym_psd A = A.
Proof. by move=> s; rewrite /sym_psd s -mulr2n -scaler_nat scalerA mulVf ?pnatr_eq0 // scale1r. Qed.
Lemma sym_psd_sym n (A : 'M[R]_n) : (sym_psd A)^T = sym_psd A.
Proof. by rewrite /sym_psd linearZ /= linearD /= trmxK addrC. Qed.
Lemma orthoL n (V : 'M[R]_n) : V *m V^T = 1%:M -> V^T *m V = 1%:M.
Proof. by move=> h; apply: mulmx1C. Qed.

(** the squared Frobenius norm *)
Definition fro m n (Z : 'M[R]_(m, n)) : R := \tr (Z^T *m Z).
Lemma froE m n (Z : 'M[R]_(m, n)) : fro Z = \sum_j \sum_i Z i j ^+ 2.
Proof. by apply: eq_bigr => j _; rewrite !mxE; apply: eq_bigr => i _; rewrite !mxE expr2. Qed.
Lemma fro_ge0 m n (Z : 'M[R]_(m, n)) : 0 <= fro Z.
Proof. by rewrite froE; apply: sumr_ge0 => j _; apply: sumr_ge0 => i _; apply: sqr_ge0. Qed.
Lemma fro_eq0 m n (Z : 'M[R]_(m, n)) : fro Z = 0 -> Z = 0.
Proof.
rewrite froE => h; apply/matrixP => i j; rewrite mxE.
have h1 : \sum_i Z i j ^+ 2 = 0.
  by apply: (psumr_eq0P _ h) => // k _; apply: sumr_ge0 => l _; apply: sqr_ge0.
have /eqP : Z i j ^+ 2 = 0 by apply: (psumr_eq0P _ h1) => // k _; apply: sqr_ge0.
by rewrite sqrf_eq0 => /eqP.
Qed.
Lemma fro_add m n (Z W : 'M[R]_(m, n)) : fro (Z + W) = fro Z + 2%:R * \tr (Z^T *m W) + fro W.
Proof.
rewrite /fro [(Z + W)^T]linearD /= mulmxDl !mulmxDr !mxtraceD.
have -> : \tr (W^T *m Z) = \tr (Z^T *m W) by rewrite -mxtrace_tr trmx_mul trmxK.
by rewrite mulrDl mul1r !addrA.
Qed.
Lemma fro_scale m n (c : R) (Z : 'M[R]_(m, n)) : fro (c *: Z) = c ^+ 2 * fro Z.
Proof. by rewrite /fro [(c *: Z)^T]linearZ /= -scalemxAl -scalemxAr scalerA mxtraceZ expr2. Qed.
Lemma fro_cs m n (Z W : 'M[R]_(m, n)) : \tr (Z^T *m W) ^+ 2 <= fro Z * fro W.
Proof.
set g := \tr _. have [w0|w0] := eqVneq (fro W) 0.
  by rewrite w0 mulr0 /g (fro_eq0 w0) mulmx0 mxtrace0 expr0n.
have wp : 0 < fro W by rewrite lt_neqAle eq_sym w0 fro_ge0.
pose t := g / fro W; have tw : t * fro W = g by rewrite /t mulfVK.
have := fro_ge0 (Z + (- t) *: W).
rewrite fro_add fro_scale -scalemxAr mxtraceZ -/g sqrrN expr2 -mulrA tw mulNr mulrN mulrDl mul1r opprD addrA addrNK subr_ge0 => h.
have -> : g ^+ 2 = t * g * fro W by rewrite mulrAC tw expr2.
by rewrite ler_pmul2r.
Qed.
Lemma fro_triangle m n (Z W : 'M[R]_(m, n)) : Num.sqrt (fro (Z + W)) <= Num.sqrt (fro Z) + Num.sqrt (fro W).
Proof.
rewrite -(@ler_pexpn2r _ 2) ?nnegrE ?addr_ge0 ?sqrtr_ge0 // sqr_sqrtr ?fro_ge0 //.
rewrite sqrrD !sqr_sqrtr ?fro_ge0 // fro_add ler_add2r ler_add2l mulr_natl.
rewrite ler_muln2r /= -sqrtrM ?fro_ge0 //.
apply: le_trans (ler_norm _) _; rewrite -sqrtr_sqr ler_wsqrtr //; exact: fro_cs.
Qed.
End Basics.

Section Calculus.
Variables (R : rcfType) (n : nat).
Implicit Types (A B N : 'M[R]_n) (e : 'M[R]_n -> 'rV[R]_n * 'M[R]_n) (f : R -> R).
(** a function of a symmetric matrix *)
Definition fc f e A : 'M[R]_n := (e A).2 *m diag_mx (map_mx f (e A).1) *m (e A).2^T.
Definition root (v : R) : R := Num.sqrt (Num.max v (eps R)).
Lemma sqrtm_fc e A : sqrtm_psd e A = fc root e (sym_psd A).
Proof. by rewrite /sqrtm_psd /fc; case: (e _) => d V /=; rewrite -map_mx_comp. Qed.
Lemma fc_sym f e A : (fc f e A)^T = fc f e A.
Proof. by rewrite /fc !trmx_mul trmxK tr_diag_mx mulmxA. Qed.

Lemma diag_comm f (c d : 'rV[R]_n) (W : 'M[R]_n) : diag_mx c *m W = W *m diag_mx d -> diag_mx (map_mx f c) *m W = W *m diag_mx (map_mx f d).
Proof.
move=> cW; apply/matrixP => i j; move/matrixP/(_ i j): cW; rewrite !mul_diag_mx !mul_mx_diag !mxE => h.
have [->|w0] := eqVneq (W i j) 0; first by rewrite mulr0 mul0r.
have -> : c 0 i = d 0 j by apply: (mulIf w0); rewrite h mulrC.
by rewrite mulrC.
Qed.
(** functions of two matrices are intertwined by whatever intertwines the matrices *)
Lemma intertwine f e1 e2 A B N : eigh_contract e1 -> eigh_contract e2 -> A^T = A -> B^T = B -> B *m N = N *m A ->
  fc f e2 B *m N = N *m fc f e1 A.
Proof.
move=> c1 c2 sA sB h; rewrite /fc; have [oV eA] := c1 A sA; have [oU eB] := c2 B sB.
set V := (e1 A).2 in oV eA *; set d := (e1 A).1 in eA *; set U := (e2 B).2 in oU eB *; set c := (e2 B).1 in eB *.
have oV' := orthoL oV; have oU' := orthoL oU.
pose W := U^T *m N *m V.
have cW : diag_mx c *m W = W *m diag_mx d.
  have -> : diag_mx c *m W = U^T *m (B *m N) *m V by rewrite [in RHS]eB !mulmxA oU' mul1mx.
  by rewrite h [in LHS]eA /W !mulmxA -[_ *m V^T *m V]mulmxA oV' mulmx1.
have fW := diag_comm f cW.
transitivity (U *m (diag_mx (map_mx f c) *m W) *m V^T).
  by rewrite /W !mulmxA -[in RHS]mulmxA oV mulmx1.
by rewrite fW /W !mulmxA oU mul1mx.
Qed.

Variable e : 'M[R]_n -> 'rV[R]_n * 'M[R]_n.
Hypothesis ce : eigh_contract e.
Lemma quad_entry (X A : 'M[R]_n) i : ((col i X)^T *m A *m col i X) 0 0 = (X^T *m A *m X) i i.
Proof.
by rewrite !mxE; apply: eq_bigr => j _; rewrite !mxE; congr (_ * _); apply: eq_bigr => k _; rewrite !mxE.
Qed.
Lemma eig_at_least (c : R) A i : at_least c A -> c <= (e A).1 0 i.
Proof.
move=> [sA h]; have [oV eA] := ce sA; have oV' := orthoL oV.
have := h (col i (e A).2); rewrite quad_entry [X in _ *m X *m _]eA.
have -> : ((col i (e A).2)^T *m col i (e A).2) 0 0 = 1.
  by have := quad_entry (e A).2 1%:M i; rewrite !mulmx1 oV' => ->; rewrite mxE eqxx.
by rewrite !mulmxA oV' mul1mx -mulmxA oV' mulmx1 !mxE eqxx mulr1n mulr1.
Qed.
Lemma sqrtm_ok A : at_least (eps R) A -> let S := sqrtm_psd e A in [/\ S^T = S, S *m S = A & posdef S].
Proof.
move=> h S; have [sA _] := h; rewrite /S sqrtm_fc sym_psdE //; have [oV eA] := ce sA; have oV' := orthoL oV.
split; first exact: fc_sym.
- rewrite [RHS]eA /fc !mulmxA; congr (_ *m _); rewrite -[_ *m _^T *m _]mulmxA oV' mulmx1 -!mulmxA; congr (_ *m _).
  rewrite mulmx_diag; congr diag_mx; apply/rowP => j; rewrite !mxE /root.
  have g := eig_at_least j h; rewrite (max_idPl g) -expr2 sqr_sqrtr //; exact: le_trans (ltW (eps_gt0 R)) g.
- rewrite /fc -{1}[(e A).2]trmxK; apply: posdef_cong; last first.
    by rewrite unitmx_tr; case: (mulmx1_unit oV).
  apply: posdef_diagmx => i; rewrite mxE /root sqrtr_gt0; apply: lt_le_trans (eps_gt0 R) _.
  by rewrite le_maxr lexx orbT.
Qed.
Lemma trace_fc f A : A^T = A -> \tr (fc f e A) = \sum_i f ((e A).1 0 i).
Proof.
move=> sA; have [oV _] := ce sA; rewrite /fc mxtrace_mulC mulmxA (orthoL oV) mul1mx.
by apply: eq_bigr => i _; rewrite !mxE eqxx mulr1n.
Qed.
End Calculus.

Section Coupling.
Variables (R : rcfType) (n : nat) (e : 'M[R]_n -> 'rV[R]_n * 'M[R]_n).
Hypothesis ce : eigh_contract e.
Implicit Types (A B C : 'M[R]_n) (ma mb : 'cV[R]_n).
Definition micro : R := (10%:R ^+ 6)^-1.
Lemma micro_gt0 : 0 < micro. Proof. by rewrite invr_gt0 exprn_gt0 ?ltr0n. Qed.
Lemma micro_sq : micro * micro = eps R. Proof. by rewrite /micro -invfM -exprD. Qed.
Lemma micro_le1 : micro <= 1. Proof. by rewrite invf_le1 ?exprn_gt0 ?ltr0n // exprn_ege1 // ler1n. Qed.
Lemma eps_micro : eps R <= micro.
Proof. by rewrite -micro_sq ler_pimulr ?micro_le1 // ltW // micro_gt0. Qed.
Lemma at_least_le (c d : R) A : d <= c -> at_least c A -> at_least d A.
Proof.
by move=> dc [s h]; split=> // x; apply: le_trans (h x); apply: ler_wpmul2r => //; apply: quad_ge0.
Qed.
Lemma at_least_psd (c : R) A : 0 <= c -> at_least c A -> psd A.
Proof. by move=> c0 [_ h] x; apply: le_trans (h x); apply: mulr_ge0 => //; apply: quad_ge0. Qed.
Lemma at_least_posdef (c : R) A : 0 < c -> at_least c A -> posdef A.
Proof. by move=> c0 [_ h] x x0; apply: lt_le_trans (h x); apply: mulr_gt0 => //; apply: quad_gt0. Qed.
Lemma mid_at_least (c d : R) A B S : 0 <= d -> at_least c A -> at_least d B -> S^T = S -> S *m S = A -> at_least (d * c) (S *m B *m S).
Proof.
move=> d0 [sA hA] [sB hB] sS SS; split; first by rewrite !trmx_mul sB sS mulmxA.
move=> x; have h := hB (S *m x); rewrite !trmx_mul sS !mulmxA -[x^T *m S *m S]mulmxA SS in h.
rewrite !mulmxA; apply: le_trans h; rewrite -mulrA; apply: ler_wpmul2l => //; exact: hA.
Qed.

(** two covariances whose variances are large enough *)
Variables (A B : 'M[R]_n).
Hypotheses (hA : at_least micro A) (hB : at_least micro B).
Let S := sqrtm_psd e A.
Let M := sqrtm_psd e (S *m B *m S).
(** the optimal map *)
Definition omap : 'M[R]_n := invmx S *m M *m invmx S.
Let sA : A^T = A. Proof. by case: hA. Qed.
Let sB : B^T = B. Proof. by case: hB. Qed.
Lemma S_ok : [/\ S^T = S, S *m S = A & posdef S].
Proof. exact: (sqrtm_ok ce (at_least_le eps_micro hA)). Qed.
Lemma M_ok : [/\ M^T = M, M *m M = S *m B *m S & posdef M].
Proof.
have [sS SS _] := S_ok; apply: (sqrtm_ok ce); rewrite -micro_sq.
exact: (mid_at_least (ltW micro_gt0) hA hB sS SS).
Qed.
Lemma S_unit : S \in unitmx. Proof. by have [s _ p] := S_ok; apply: posdef_unit. Qed.
Lemma M_unit : M \in unitmx. Proof. by have [s _ p] := M_ok; apply: posdef_unit. Qed.
Lemma w2_value ma mb : gaussian_w2_squared e ma A mb B = \sum_i (ma i 0 - mb i 0) ^+ 2 + Num.max (\tr (A + B - 2%:R *: M)) 0.
Proof.
rewrite /gaussian_w2_squared !sym_psdE //; last by have [sS _ _] := S_ok; rewrite !trmx_mul sB [(sqrtm_psd e A)^T]sS mulmxA.
by congr (_ + _); rewrite quad_sq; apply: eq_bigr => i _; rewrite !mxE.
Qed.
Lemma omap_sym : omap^T = omap.
Proof. by have [sS _ _] := S_ok; have [sM _ _] := M_ok; rewrite /omap !trmx_mul !trmx_inv sS sM mulmxA. Qed.
Lemma omap_push : omap *m A *m omap = B.
Proof.
have [_ SS _] := S_ok; have [_ MM _] := M_ok; rewrite /omap -SS !mulmxA.
rewrite -[_ *m invmx S *m S]mulmxA mulVmx ?S_unit // mulmx1.
rewrite -[_ *m S *m invmx S]mulmxA mulmxV ?S_unit // mulmx1 -[_ *m M *m M]mulmxA MM !mulmxA mulVmx ?S_unit // mul1mx.
by rewrite -mulmxA mulmxV ?S_unit // mulmx1.
Qed.
Lemma tr_omap : \tr (A *m omap) = \tr M.
Proof.
have [_ SS _] := S_ok; rewrite /omap -SS !mulmxA -[_ *m S *m invmx S]mulmxA mulmxV ?S_unit // mulmx1.
by rewrite mxtrace_mulC mulmxA mulVmx ?S_unit // mul1mx.
Qed.
Lemma cov_fro : \tr (A + B - 2%:R *: M) = fro (S *m (1%:M - omap)).
Proof.
have [sS SS _] := S_ok; rewrite /fro trmx_mul sS.
have -> : (1%:M - omap)^T = 1%:M - omap by rewrite linearB /= trmx1 omap_sym.
rewrite mulmxA -[_ *m S *m S]mulmxA SS mulmxBl mul1mx mulmxBr mulmx1 mulmxBl omap_push.
have -> : \tr (A + B - 2%:R *: M) = \tr A + \tr B - 2%:R * \tr M by rewrite -mxtraceZ !linearD /= linearN.
rewrite !linearB /= [\tr (omap *m A)]mxtrace_mulC tr_omap mulrDl mul1r opprD !opprB.
by rewrite addrACA.
Qed.
Lemma coupling_bound C : coupling A B C -> \tr C <= \tr M.
Proof.
move=> h; have [sS SS _] := S_ok; have [sM MM pM] := M_ok.
have [L0 [dL LL]] := chol_exists sM pM; have uL := tril_unit dL; set L := tril L0 in LL uL.
pose X := invmx S *m L; pose Y := S *m (invmx L)^T.
have YX : Y *m X^T = 1%:M.
  rewrite /X /Y trmx_mul !mulmxA -[_ *m _^T *m L^T]mulmxA -trmx_mul mulmxV // trmx1 mulmx1 trmx_inv sS mulmxV //; exact: S_unit.
have XY : X *m Y^T = 1%:M by rewrite -[X]trmxK -trmx_mul YX trmx1.
have XX : X *m X^T = omap by rewrite /X /omap -LL trmx_mul trmx_inv sS !mulmxA.
have tA : \tr (A *m (X *m X^T)) = \tr M by rewrite XX tr_omap.
have iM : (invmx L)^T *m invmx L *m M = 1%:M.
  by rewrite -LL !mulmxA -[_ *m invmx L *m L]mulmxA mulVmx // mulmx1 -trmx_mul mulmxV // trmx1.
have tB : \tr (B *m (Y *m Y^T)) = \tr M.
  rewrite /Y trmx_mul trmxK sS !mulmxA mxtrace_mulC !mulmxA -MM -!mulmxA mxtrace_mulC -!mulmxA.
  by rewrite mxtrace_mulC !mulmxA iM mul1mx.
clearbody X Y; have := psd_cong (col_mx X (- Y)) h => q.
have : 0 <= \tr ((col_mx X (- Y))^T *m block_mx A C C^T B *m col_mx X (- Y)).
  by apply: sumr_ge0 => i _; exact: psd_diag.
rewrite tr_col_mx mul_row_block mul_row_col [(- Y)^T]linearN /= !mulNmx !mulmxN !mulmxDl !mulNmx opprD opprK.
rewrite !mxtraceD !linearN /=.
have -> : \tr (X^T *m A *m X) = \tr M by rewrite mxtrace_mulC !mulmxA mxtrace_mulC tA.
have -> : \tr (Y^T *m B *m Y) = \tr M by rewrite mxtrace_mulC !mulmxA mxtrace_mulC tB.
have -> : \tr (Y^T *m C^T *m X) = \tr C by rewrite -mxtrace_tr !trmx_mul !trmxK mulmxA mxtrace_mulC !mulmxA YX mul1mx.
have -> : \tr (X^T *m C *m Y) = \tr C by rewrite mxtrace_mulC !mulmxA YX mul1mx.
rewrite [- _ + _]addrC addrACA -opprD subr_ge0 -!mulr2n ler_muln2r /= => k; exact: k.
Qed.
Lemma coupling_map (T : 'M[R]_n) : coupling A (T^T *m A *m T) (A *m T).
Proof.
have -> : coupling A (T^T *m A *m T) (A *m T) = psd ((row_mx 1%:M T)^T *m A *m row_mx 1%:M T).
  by rewrite /coupling block_mxEv tr_row_mx trmx1 mul_col_mx mul1mx mul_col_mx !mul_mx_row !mulmx1 trmx_mul sA.
by apply: psd_cong; apply: at_least_psd hA; apply: ltW; exact: micro_gt0.
Qed.
Lemma expectedE C ma mb : expected_sq ma A mb B C = \sum_i (ma i 0 - mb i 0) ^+ 2 + \tr (A + B - 2%:R *: C).
Proof. by congr (_ + _); apply: eq_bigr => i _; rewrite !mxE. Qed.
Lemma w2_exact ma mb : gaussian_w2_squared e ma A mb B = \sum_i (ma i 0 - mb i 0) ^+ 2 + fro (S *m (1%:M - omap)).
Proof. by rewrite w2_value cov_fro (max_idPl _) // fro_ge0. Qed.
Lemma w2_attained ma mb : coupling A B (A *m omap) /\ gaussian_w2_squared e ma A mb B = expected_sq ma A mb B (A *m omap).
Proof.
split; first by have := coupling_map omap; rewrite omap_sym omap_push.
by rewrite expectedE w2_exact -cov_fro !linearD /= !linearN /= !mxtraceZ tr_omap.
Qed.
Lemma w2_least ma mb C : coupling A B C -> gaussian_w2_squared e ma A mb B <= expected_sq ma A mb B C.
Proof.
move=> /coupling_bound h; rewrite expectedE w2_exact -cov_fro !linearD /= !linearN /= !mxtraceZ.
by rewrite !ler_add2l ler_opp2 ler_pmul2l ?ltr0n.
Qed.
Lemma w2_zero ma mb : gaussian_w2_squared e ma A mb B = 0 -> ma = mb /\ A = B.
Proof.
rewrite w2_exact => /eqP; rewrite paddr_eq0 ?fro_ge0 ?sumr_ge0 // => [/andP [/eqP m0 /eqP f0]|i _]; last exact: sqr_ge0.
split.
  apply/matrixP => i j; rewrite ord1; apply/eqP; rewrite -subr_eq0 -sqrf_eq0; apply/eqP.
  by apply: (psumr_eq0P _ m0) => // k _; exact: sqr_ge0.
have t1 : omap = 1%:M.
  have := fro_eq0 f0 => /(congr1 (mulmx (invmx S))); rewrite mulmxA mulVmx ?S_unit // mul1mx mulmx0 => /eqP.
  by rewrite subr_eq0 => /eqP.
by have := omap_push; rewrite t1 mul1mx mulmx1.
Qed.
End Coupling.

Section Metric.
Variables (R : rcfType) (n : nat).
Implicit Types (A B C Q : 'M[R]_n) (ma mb mc : 'cV[R]_n) (e : 'M[R]_n -> 'rV[R]_n * 'M[R]_n).
Lemma sqrtm_indep e1 e2 A : eigh_contract e1 -> eigh_contract e2 -> sqrtm_psd e1 A = sqrtm_psd e2 A.
Proof.
move=> c1 c2; rewrite !sqrtm_fc; have := @intertwine _ _ (@root R) e1 e2 (sym_psd A) (sym_psd A) 1%:M c1 c2 (sym_psd_sym A) (sym_psd_sym A).
by rewrite mul1mx !mulmx1 mul1mx => ->.
Qed.
Lemma w2_indep e1 e2 ma A mb B : eigh_contract e1 -> eigh_contract e2 -> gaussian_w2_squared e1 ma A mb B = gaussian_w2_squared e2 ma A mb B.
Proof. by move=> c1 c2; rewrite /gaussian_w2_squared !(sqrtm_indep _ c1 c2). Qed.

Variable e : 'M[R]_n -> 'rV[R]_n * 'M[R]_n.
Hypothesis ce : eigh_contract e.
Lemma w2_nonneg ma A mb B : \sum_i (ma i 0 - mb i 0) ^+ 2 <= gaussian_w2_squared e ma A mb B.
Proof.
rewrite /gaussian_w2_squared quad_sq.
have -> : \sum_i (ma - mb) i 0 ^+ 2 = \sum_i (ma i 0 - mb i 0) ^+ 2 by apply: eq_bigr => i _; rewrite !mxE.
by rewrite ler_addl le_maxr lexx orbT.
Qed.
(** a function of a matrix given by another decomposition *)
Lemma fc_any f A (V : 'M[R]_n) (d : 'rV[R]_n) : V *m V^T = 1%:M -> A = V *m diag_mx d *m V^T -> fc f e A = V *m diag_mx (map_mx f d) *m V^T.
Proof.
move=> oV eA; have sA : A^T = A by rewrite eA !trmx_mul trmxK tr_diag_mx mulmxA.
pose e' (X : 'M[R]_n) := if X == A then (d, V) else e X.
have c' : eigh_contract e'.
  by move=> X sX; rewrite /e'; case: eqP => [->|_]; [split|exact: ce].
have := @intertwine _ _ f e e' A A 1%:M ce c' sA sA; rewrite mul1mx !mulmx1 mul1mx => <- //.
by rewrite /fc /e' eqxx.
Qed.
Lemma w2_self ma A : gaussian_w2_squared e ma A ma A = 0.
Proof.
rewrite /gaussian_w2_squared subrr trmx0 mul0mx mxE add0r; set A' := sym_psd A.
have sA : A'^T = A' := sym_psd_sym A; have [oV eA] := ce sA; have oV' := orthoL oV.
set V := (e A').2 in oV eA oV'; set d := (e A').1 in eA.
have eS : sqrtm_psd e A' = V *m diag_mx (map_mx (@root R) d) *m V^T by rewrite sqrtm_fc sym_psdE.
pose g (v : R) := root v * v * root v.
have eM : sqrtm_psd e A' *m A' *m sqrtm_psd e A' = V *m diag_mx (map_mx g d) *m V^T.
  rewrite eS [X in _ *m X *m _]eA !mulmxA -[_ *m V^T *m V]mulmxA oV' mulmx1 -[_ *m V^T *m V]mulmxA oV' mulmx1.
  congr (_ *m _); rewrite -!mulmxA; congr (_ *m _); rewrite !mulmx_diag; congr diag_mx; apply/rowP => j.
  by rewrite !mxE mulrA.
have sM : (sqrtm_psd e A' *m A' *m sqrtm_psd e A')^T = sqrtm_psd e A' *m A' *m sqrtm_psd e A'.
  by rewrite eM !trmx_mul trmxK tr_diag_mx mulmxA.
rewrite [sym_psd (_ *m _ *m _)]sym_psdE // sqrtm_fc sym_psdE // (fc_any _ oV eM).
apply/max_idPr; rewrite linearD /= linearN /= mxtraceZ linearD /= subr_le0 -mulr2n -[_ *+ 2]mulr_natl ler_pmul2l ?ltr0n //.
have -> : \tr A' = \sum_i d 0 i.
  by rewrite eA mxtrace_mulC mulmxA oV' mul1mx; apply: eq_bigr => i _; rewrite !mxE eqxx mulr1n.
rewrite mxtrace_mulC mulmxA oV' mul1mx; apply: ler_sum => i _; rewrite !mxE eqxx mulr1n /root /g.
have [d0|d0] := leP (d 0 i) 0; first by apply: le_trans d0 (sqrtr_ge0 _).
rewrite -{1}(ger0_norm (ltW d0)) -sqrtr_sqr; apply: ler_wsqrtr; rewrite le_maxr; apply/orP; left.
have r0 : 0 <= Num.max (d 0 i) (eps R) by rewrite le_maxr ltW.
rewrite mulrAC -expr2 sqr_sqrtr // expr2; apply: ler_wpmul2r; first exact: ltW.
by rewrite le_maxr lexx.
Qed.
Lemma w2_symm ma A mb B : at_least (eps R) A -> at_least (eps R) B -> gaussian_w2_squared e ma A mb B = gaussian_w2_squared e mb B ma A.
Proof.
move=> hA hB; have [sA _] := hA; have [sB _] := hB; have [sSa SSa pSa] := sqrtm_ok ce hA; have [sSb SSb pSb] := sqrtm_ok ce hB.
rewrite /gaussian_w2_squared !(sym_psdE sA) !(sym_psdE sB).
set Sa := sqrtm_psd e A in sSa SSa pSa *; set Sb := sqrtm_psd e B in sSb SSb pSb *.
have s1 : (Sa *m B *m Sa)^T = Sa *m B *m Sa by rewrite !trmx_mul sB sSa mulmxA.
have s2 : (Sb *m A *m Sb)^T = Sb *m A *m Sb by rewrite !trmx_mul sA sSb mulmxA.
congr (_ + Num.max _ _).
  by rewrite !quad_sq; apply: eq_bigr => i _; rewrite !mxE -sqrrN opprB.
rewrite !(sym_psdE s1) !(sym_psdE s2) !sqrtm_fc (sym_psdE s1) (sym_psdE s2) [A + B]addrC !linearB /= !mxtraceZ; congr (_ - _ * _).
have uN : Sb *m Sa \in unitmx by rewrite unitmx_mul !posdef_unit.
have h : Sb *m A *m Sb *m (Sb *m Sa) = Sb *m Sa *m (Sa *m B *m Sa) by rewrite -SSa -SSb !mulmxA.
have := intertwine (@root R) ce ce s1 s2 h => k.
have -> : fc (@root R) e (Sb *m A *m Sb) = Sb *m Sa *m fc (@root R) e (Sa *m B *m Sa) *m invmx (Sb *m Sa) by rewrite -k mulmxK.
by rewrite [RHS]mxtrace_mulC mulKmx.
Qed.
Lemma w2_rotate Q (t ma mb : 'cV[R]_n) A B : Q *m Q^T = 1%:M ->
  gaussian_w2_squared e (Q *m ma + t) (Q *m A *m Q^T) (Q *m mb + t) (Q *m B *m Q^T) = gaussian_w2_squared e ma A mb B.
Proof.
move=> oQ; have oQ' := orthoL oQ.
have sy X : sym_psd (Q *m X *m Q^T) = Q *m sym_psd X *m Q^T.
  by rewrite /sym_psd !trmx_mul trmxK -scalemxAr -scalemxAl mulmxDr mulmxDl mulmxA.
have sq X : sqrtm_psd e (Q *m X *m Q^T) = Q *m sqrtm_psd e X *m Q^T.
  rewrite !sqrtm_fc sy; have h : Q *m sym_psd X *m Q^T *m Q = Q *m sym_psd X by rewrite -mulmxA oQ' mulmx1.
  have s2 : (Q *m sym_psd X *m Q^T)^T = Q *m sym_psd X *m Q^T by rewrite !trmx_mul trmxK sym_psd_sym mulmxA.
  have := intertwine (@root R) ce ce (sym_psd_sym X) s2 h => <-; by rewrite -[RHS]mulmxA oQ mulmx1.
rewrite /gaussian_w2_squared !sy !sq.
have -> : Q *m ma + t - (Q *m mb + t) = Q *m (ma - mb) by rewrite opprD addrACA subrr addr0 mulmxBr.
congr (_ + Num.max _ _); first by rewrite trmx_mul mulmxA -[_ *m Q^T *m Q]mulmxA oQ' mulmx1.
have mid X Y : Q *m X *m Q^T *m (Q *m Y *m Q^T) *m (Q *m X *m Q^T) = Q *m (X *m Y *m X) *m Q^T.
  by rewrite !mulmxA -[_ *m Q^T *m Q]mulmxA oQ' mulmx1 -[_ *m Q^T *m Q]mulmxA oQ' mulmx1.
rewrite mid sy sq -mulmxDl -mulmxDr scalemxAl scalemxAr -mulmxBl -mulmxBr.
by rewrite mxtrace_mulC mulmxA oQ' mul1mx.
Qed.
Lemma fro_row m p q (X : 'M[R]_(m, p)) (Y : 'M[R]_(m, q)) : fro (row_mx X Y) = fro X + fro Y.
Proof. by rewrite /fro tr_row_mx mul_col_row mxtrace_block. Qed.
Lemma fro_col (x : 'cV[R]_n) : fro x = \sum_i x i 0 ^+ 2.
Proof. by rewrite froE big_ord1. Qed.
Lemma w2_triangle ma A mb B mc C : at_least (micro R) A -> at_least (micro R) B -> at_least (micro R) C ->
  Num.sqrt (gaussian_w2_squared e ma A mc C) <= Num.sqrt (gaussian_w2_squared e ma A mb B) + Num.sqrt (gaussian_w2_squared e mb B mc C).
Proof.
move=> hA hB hC; have [sA _] := hA.
have ex ma' A' mb' B' : at_least (micro R) A' -> at_least (micro R) B' -> exists S T : 'M[R]_n,
    [/\ S^T = S, S *m S = A', T^T = T, T *m A' *m T = B' & gaussian_w2_squared e ma' A' mb' B' = \sum_i (ma' i 0 - mb' i 0) ^+ 2 + fro (S *m (1%:M - T))].
  move=> h1 h2; exists (sqrtm_psd e A'), (omap e A' B'); have [s1 s2 _] := S_ok ce h1.
  by rewrite (omap_sym ce h1 h2) (omap_push ce h1 h2) (w2_exact ce h1 h2).
have [S [T1 [sS SS t1 p1 x1]]] := ex ma A mb B hA hB; have [Sb [T2 [sSb SSb t2 p2 x2]]] := ex mb B mc C hB hC.
pose Z1 := row_mx (ma - mb) (S *m (1%:M - T1)); pose Z2 := row_mx (mb - mc) (S *m T1 *m (1%:M - T2)).
have f1 : gaussian_w2_squared e ma A mb B = fro Z1.
  rewrite x1 /Z1 fro_row fro_col; congr (_ + _); by apply: eq_bigr => i _; rewrite !mxE.
have f2 : gaussian_w2_squared e mb B mc C = fro Z2.
  rewrite x2 /Z2 fro_row fro_col; congr (_ + _); first by apply: eq_bigr => i _; rewrite !mxE.
  rewrite /fro !trmx_mul sSb sS t1 !mulmxA -[_ *m Sb *m Sb]mulmxA SSb.
  by rewrite -[_ *m S *m S]mulmxA SS -[_ *m T1 *m A]mulmxA -[_ *m (T1 *m A) *m T1]mulmxA p1.
have f3 : gaussian_w2_squared e ma A mc C <= fro (Z1 + Z2).
  have cpl : coupling A C (A *m (T1 *m T2)).
    have := coupling_map hA (T1 *m T2); rewrite trmx_mul t1 t2 !mulmxA -[T2 *m T1 *m A]mulmxA -[T2 *m (T1 *m A) *m T1]mulmxA p1 p2.
    by rewrite -!mulmxA.
  apply: le_trans (w2_least ce hA hC ma mc cpl) _.
  rewrite /Z1 /Z2 add_row_mx fro_row fro_col expectedE.
  have -> : \tr (A + C - 2%:R *: (A *m (T1 *m T2))) = \tr A + \tr C - 2%:R * \tr (A *m (T1 *m T2)) by rewrite !linearD /= linearN /= mxtraceZ.
  have -> : \sum_i (ma - mb + (mb - mc)) i 0 ^+ 2 = \sum_i (ma i 0 - mc i 0) ^+ 2.
    by apply: eq_bigr => i _; rewrite !mxE addrA subrK.
  rewrite ler_add2l -[S *m T1 *m _]mulmxA -mulmxDr mulmxBr mulmx1 addrA subrK /fro trmx_mul sS !mulmxA.
  rewrite -[_ *m S *m S]mulmxA SS.
  have -> : (1%:M - T1 *m T2)^T = 1%:M - T2 *m T1 by rewrite linearB /= trmx1 trmx_mul t1 t2.
  rewrite mulmxBl mul1mx !mulmxBr !mulmx1 !mulmxBl.
  have -> : T2 *m T1 *m A *m (T1 *m T2) = C by rewrite !mulmxA -[T2 *m T1 *m A]mulmxA -[T2 *m (T1 *m A) *m T1]mulmxA p1 p2.
  have tt : \tr (T2 *m T1 *m A) = \tr (A *m (T1 *m T2)) by rewrite -mxtrace_tr !trmx_mul t1 t2 sA.
  rewrite !linearB /= tt mulrDl mul1r opprD addrACA opprB mulmxA; exact: lexx.
rewrite f1 f2; apply: le_trans (fro_triangle Z1 Z2); exact: ler_wsqrtr.
Qed.
End Metric.
