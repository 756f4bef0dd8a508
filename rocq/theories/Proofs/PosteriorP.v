From Coq Require Import Reals ZArith Lra Lia.
From mathcomp Require Import all_ssreflect all_algebra.
From Verif Require Import Proofs.RealMx Proofs.MxCalc Model.CholUpdate Spec.CholSpec Proofs.CholP Proofs.PosDef.
From Verif Require Import Model.Likelihood Spec.LikelihoodSpec Proofs.LikelihoodP Model.Posterior Spec.PosteriorSpec.
Set Implicit Arguments.
Unset Strict Implicit.
Unset Printing Implicit Defensive.
Import Order.TTheory GRing.Theory Num.Theory.
Local Open Scope ring_scope.

(** * the chunked product *)
Section Chunks.
Variables (n q : nat) (B : 'M[R]_n) (solve : forall m, 'M[R]_(n, m) -> 'M[R]_(n, m)).
Hypothesis solveE : forall m (A : 'M[R]_(n, m)), solve A = B *m A.
Variable k : 'M[R]_(n, q).
Let body step product start :=
  let e := minn (start + step) q in set_slice product start e (k^T *m solve (slice k start e)).
Lemma bodyE step product s i (j : 'I_q) :
  body step product s i j = if (s <= j)%N && (j < s + step)%N then (k^T *m B *m k) i j else product i j.
Proof.
rewrite /body mxE leq_min ltn_ord andbT; case: ifP=> // /andP [L1 L2].
have J : (j < minn (s + step) q)%N by rewrite leq_min L2 ltn_ord.
have lt : (j - s < minn (s + step) q - s)%N.
  by rewrite ltn_sub2r // (leq_ltn_trans L1).
rewrite (insubT (fun x => x < _)%N lt) solveE mulmxA mxE [RHS]mxE; apply: eq_bigr=> l _; congr (_ * _).
by rewrite mxE /= subnKC // valK.
Qed.
Lemma foldl_body step l g i (j : 'I_q) :
  foldl (body step) g l i j = if has (fun s => (s <= j)%N && (j < s + step)%N) l then (k^T *m B *m k) i j else g i j.
Proof.
elim: l g=> [|s l IH] g //=; rewrite IH bodyE.
by case: (has _ l); rewrite ?orbT ?orbF.
Qed.
Lemma cross_solve_l chunk gp2 batch g : cross_solve_product solve chunk gp2 batch g k = k^T *m B *m k.
Proof.
rewrite /cross_solve_product; set step := Z.to_nat _.
have s0 : (0 < step)%N by rewrite /step; apply/ssrnat.ltP; lia.
apply/matrixP=> i j; rewrite (foldl_body step) ifT //; apply/hasP; exists (j %/ step * step)%N.
  rewrite mem_filter (leq_ltn_trans (leq_trunc_div _ _)) //=.
  apply: (map_f (fun i => i * step)%N); rewrite mem_iota add0n /=.
  exact: leq_ltn_trans (leq_div _ _) (ltn_ord j).
by rewrite leq_trunc_div /= {1}(divn_eq j step) ltn_add2l ltn_pmod.
Qed.
End Chunks.

(** * Gram matrices of valid covariance functions *)
From Verif Require Import Spec.KernelSpec.
Lemma sum_listE (T : Type) (f : T -> R) (l : seq T) : sum_list (map f l) = \sum_(x <- l) f x.
Proof. by elim: l=> [|a l IH]; rewrite ?big_nil // big_cons -IH. Qed.
Lemma gram_sym X (k : X -> X -> R) m n (x : 'I_m -> X) (x' : 'I_n -> X) : valid_covariance k -> (gram k x x')^T = gram k x' x.
Proof. by case=> S _; apply/matrixP=> i j; rewrite !mxE S. Qed.
Lemma gram_psd X (k : X -> X -> R) n (x : 'I_n -> X) : valid_covariance k -> psd (gram k x x).
Proof.
case=> _ P w; have := P [seq (w i 0, x i) | i <- index_enum (ordinal_finType n)]; move/RleP; congr (is_true (_ <= _)).
rewrite /quad_form sum_listE big_map /= [RHS]mxE.
rewrite [RHS](eq_bigr (fun j => \sum_i w i 0 * w j 0 * k (x i) (x j))) /=; last first.
  by move=> j _; rewrite mxE mulr_suml; apply: eq_bigr=> i _; rewrite !mxE mulrAC.
by rewrite exchange_big /=; apply: eq_bigr=> i _; rewrite sum_listE big_map.
Qed.
(** the Gram matrix of two families together *)
Lemma gram_block X (k : X -> X -> R) m n (x : 'I_m -> X) (x' : 'I_n -> X) : valid_covariance k ->
  psd (block_mx (gram k x x) (gram k x x') (gram k x x')^T (gram k x' x')).
Proof.
move=> Vk; pose z (i : 'I_(m + n)) := match split i with inl a => x a | inr b => x' b end.
suff -> : block_mx (gram k x x) (gram k x x') (gram k x x')^T (gram k x' x') = gram k z z by apply: gram_psd.
rewrite gram_sym //; apply/matrixP=> i j; rewrite [RHS]mxE /z.
case: (split_ordP i)=> a ->; case: (split_ordP j)=> b ->.
- by rewrite block_mxEul mxE.
- by rewrite block_mxEur mxE.
- by rewrite block_mxEdl mxE.
- by rewrite block_mxEdr mxE.
Qed.
Lemma psd_blockdiag m n (A : 'M[R]_m) (B : 'M[R]_n) : psd A -> psd B -> psd (block_mx A 0 0 B).
Proof.
move=> PA PB z; rewrite -[z]vsubmxK tr_col_mx mul_row_block mul_row_col !mulmx0 addr0 add0r mxE.
by apply: addr_ge0.
Qed.
Lemma posdef_blockdiag m n (A : 'M[R]_m) (B : 'M[R]_n) : posdef A -> posdef B -> posdef (block_mx A 0 0 B).
Proof.
move=> PA PB z N; rewrite -[z]vsubmxK tr_col_mx mul_row_block mul_row_col !mulmx0 addr0 add0r mxE.
case: (eqVneq (usubmx z) 0)=> [Z|NZ]; last by rewrite ltr_paddr ?PA //; apply: posdef_psd.
rewrite Z mulmx0 mxE add0r; apply: PB; apply: contra N=> /eqP Z2.
by rewrite -[z]vsubmxK Z Z2 col_mx0.
Qed.
Lemma psd0 n : psd (0 : 'M[R]_n). Proof. by move=> x; rewrite mulmx0 mul0mx mxE. Qed.
Lemma posdef_scalar n (a : R) : 0 < a -> posdef (a%:M : 'M[R]_n).
Proof. by move=> P; rewrite -diag_const_mx; apply: posdef_diagmx=> i; rewrite mxE. Qed.

(** * the conditional distribution *)
Section Cond.
Variables (n p : nat) (A : 'M[R]_n) (b : 'M[R]_(n, p)) (d : 'M[R]_p).
Let S := d - b^T *m invmx A *m b.
Hypothesis SA : A^T = A.
Hypothesis dA : 0 < \det A.
Hypothesis dS : 0 < \det S.
Lemma quad_cond (r1 : 'cV[R]_n) (r2 : 'cV[R]_p) :
  let e := r2 - b^T *m invmx A *m r1 in let r := col_mx r1 r2 in
  r^T *m invmx (block_mx A b b^T d) *m r = r1^T *m invmx A *m r1 + e^T *m invmx S *m e.
Proof.
move=> e r; set J := block_mx _ _ _ _.
have UA : A \in unitmx by rewrite unitmxE unitfE gt_eqF.
have US : S \in unitmx by rewrite unitmxE unitfE gt_eqF.
have UJ : J \in unitmx by rewrite unitmxE det_schur // unitrM -!unitmxE UA US.
pose w := col_mx (invmx A *m r1 - invmx A *m b *m (invmx S *m e)) (invmx S *m e).
have Jw : J *m w = r.
  rewrite mul_block_col mulmxBr !mulmxA mulmxV // !mul1mx; congr col_mx; first by rewrite subrK.
  rewrite mulmxBr !mulmxA.
  have -> : d *m invmx S *m e = e + b^T *m invmx A *m b *m invmx S *m e.
    have dE : d = S + b^T *m invmx A *m b by rewrite subrK.
    by rewrite {1}dE (mulmxDl S) mulmxV // mulmxDl mul1mx.
  by rewrite addrA [_ - _ + _]addrAC addrNK /e addrC subrK.
have -> : r^T *m invmx J *m r = r^T *m w by rewrite -{2}Jw -mulmxA mulKmx.
have eT : e^T = r2^T - r1^T *m invmx A *m b by rewrite [LHS]raddfB /= !trmx_mul trmx_inv trmxK SA mulmxA.
clearbody e; rewrite /w /r tr_col_mx mul_row_col mulmxBr eT !mulmxBl !mulmxA -addrA; congr (_ + _); exact: addrC.
Qed.
Lemma log_gauss_cond (y m : 'cV[R]_n) (f m' : 'cV[R]_p) :
  log_gauss (col_mx y f) (col_mx m m') (block_mx A b b^T d)
  = log_gauss y m A + log_gauss f (m' + b^T *m (invmx A *m (y - m))) S.
Proof.
rewrite /log_gauss /neg_log_gauss -opprD; congr (- _).
rewrite opp_col_mx add_col_mx quad_cond det_schur; last by rewrite unitmxE unitfE gt_eqF.
rewrite (_ : f - (m' + _) = f - m' - b^T *m invmx A *m (y - m)); last by rewrite opprD addrA mulmxA.
rewrite ln_mult; [|exact/RltP|exact/RltP].
rewrite -mulrDr; congr (_ * _); rewrite mxE natrD mulrDl.
by rewrite [X in X + _]addrACA addrACA.
Qed.
End Cond.

(** * Kullback-Leibler divergence *)
Lemma ln_le1 (x : R) : 0 < x -> ln x <= x - 1.
Proof.
move=> /RltP x0; apply/RleP; toR.
case: (Req_dec (ln x) 0)=> [E|N]; last by have := exp_ineq1 _ N; rewrite exp_ln //; lra.
have : x = 1%coqR by apply: ln_inv=> //; [lra|rewrite ln_1].
by move=> ->; rewrite ln_1; lra.
Qed.
Lemma ln_eq1 (x : R) : 0 < x -> ln x = x - 1 -> x = 1.
Proof.
move=> /RltP x0; toR=> E.
case: (Req_dec (ln x) 0)=> [Z|N]; first by rewrite Z in E; lra.
by have := exp_ineq1 _ N; rewrite exp_ln //; lra.
Qed.
Lemma ln_prod (I : Type) (r : seq I) (f : I -> R) : (forall i, 0 < f i) -> ln (\prod_(i <- r) f i)%R = \sum_(i <- r) ln (f i).
Proof.
move=> P; elim: r=> [|a r IH]; rewrite ?big_nil ?big_cons; first exact: ln_1.
rewrite -IH ln_mult //; apply/RltP; [exact: P|exact: prodr_gt0].
Qed.
Section KLcore.
Variables (n : nat) (M : 'M[R]_n).
Hypothesis SM : M^T = M.
Hypothesis PM : posdef M.
Lemma kl_core : ln (\det M) <= \tr M - n%:R /\ (ln (\det M) = \tr M - n%:R -> M = 1%:M).
Proof.
have [L C] := chol_exists SM PM; have [Ld LM] := C.
have D : ln (\det M) = \sum_i ln (L i i ^+ 2)%R.
  by rewrite (chol_det C) -prodrXl ln_prod // => i; rewrite exprn_gt0.
have T : \tr M - n%:R = \sum_i ((L i i ^+ 2 - 1) + \sum_(k | k != i) (tril L i k) ^+ 2).
  have -> : (n%:R : R) = \sum_(i < n) 1 by rewrite sumr_const card_ord.
  rewrite -LM /mxtrace -sumrB; apply: eq_bigr=> i _.
  rewrite mxE (bigD1 i) //= addrAC; congr (_ + _ - _); first by rewrite !mxE leqnn expr2.
  by apply: eq_bigr=> k _; rewrite [(tril L)^T _ _]mxE expr2.
have s0 i : 0 <= \sum_(k | k != i) (tril L i k) ^+ 2 by apply: sumr_ge0=> k _; apply: sqr_ge0.
have l0 i : ln (L i i ^+ 2)%R <= L i i ^+ 2 - 1 by apply: ln_le1; rewrite exprn_gt0.
have tE i : ((L i i ^+ 2 - 1) + \sum_(k | k != i) (tril L i k) ^+ 2) - ln (L i i ^+ 2)%R
  = (L i i ^+ 2 - 1 - ln (L i i ^+ 2)%R) + \sum_(k | k != i) (tril L i k) ^+ 2 by apply: addrAC.
have t0 i : 0 <= ((L i i ^+ 2 - 1) + \sum_(k | k != i) (tril L i k) ^+ 2) - ln (L i i ^+ 2)%R.
  by rewrite tE addr_ge0 // subr_ge0.
rewrite D T; split; first by rewrite -subr_ge0 -sumrB sumr_ge0.
move=> /esym/eqP; rewrite -subr_eq0 -sumrB psumr_eq0 // => /allP Z.
have {}Z i : (L i i ^+ 2 = 1) /\ (forall k, k != i -> tril L i k = 0).
  have := Z i (mem_index_enum i); rewrite tE paddr_eq0 ?subr_ge0 // => /andP [/= Z1 Z2].
  split; first by apply: ln_eq1; [rewrite exprn_gt0 | apply/eqP; rewrite eq_sym -subr_eq0].
  move: Z2; rewrite psumr_eq0; last by move=> k _; apply: sqr_ge0.
  by move=> /allP H k ki; have := H k (mem_index_enum k); rewrite ki sqrf_eq0=> /eqP.
have E : tril L = 1%:M.
  apply/matrixP=> i k; rewrite [RHS]mxE; case: (eqVneq i k)=> [<-|ik] /=.
    rewrite mxE leqnn; have [/eqP] := Z i; rewrite sqrf_eq1=> /orP [/eqP//|/eqP N] _.
    by have := Ld i; rewrite N oppr_gt0 ltr10.
  by apply: (Z i).2; rewrite eq_sym.
by rewrite -LM E trmx1 mulmx1.
Qed.
End KLcore.

Lemma logdetE n (A : 'M[R]_n) : 0 < \det A -> logdet A = ln (\det A).
Proof. by move=> /RltP; rewrite r0E=> P; rewrite /logdet Rabs_pos_eq //; lra. Qed.
Section KL.
Variables (q : nat) (mu1 mu2 : 'cV[R]_q) (S1 S2 : 'M[R]_q).
Hypothesis (Sy1 : S1^T = S1) (P1 : posdef S1) (Sy2 : S2^T = S2) (P2 : posdef S2).
Let kld : R := ((\tr (invmx S2 *m S1) - q%:R - (ln (\det S1) - ln (\det S2))) + ((mu2 - mu1)^T *m invmx S2 *m (mu2 - mu1)) 0 0)%R.
Lemma kl_trace : 0 <= \tr (invmx S2 *m S1) - q%:R - (ln (\det S1) - ln (\det S2)) /\
  (\tr (invmx S2 *m S1) - q%:R - (ln (\det S1) - ln (\det S2)) = 0 -> S1 = S2).
Proof.
have [L C] := chol_exists Sy2 P2; have [Ld LM] := C.
have UT := tril_unit Ld; set T := tril L in LM UT.
pose M := invmx T *m S1 *m (invmx T)^T.
have PM : posdef M by have := posdef_cong (B := (invmx T)^T) P1; rewrite trmxK; apply; rewrite unitmx_tr unitmx_inv.
have SM : M^T = M by rewrite /M !trmx_mul Sy1 trmxK mulmxA.
have [K1 K2] := kl_core SM PM.
have I2 : invmx S2 = (invmx T)^T *m invmx T.
  have U2 := posdef_unit Sy2 P2.
  rewrite -[LHS]mulmx1 -[RHS](mulKmx U2); congr (_ *m _).
  by rewrite -LM trmx_inv -!mulmxA mulKVmx ?unitmx_tr // mulmxV.
have E1 : \tr M = \tr (invmx S2 *m S1).
  by rewrite /M I2 mxtrace_mulC mulmxA.
have d1 := posdef_det Sy1 P1; have d2 := posdef_det Sy2 P2.
have E2 : ln (\det M) = ln (\det S1) - ln (\det S2).
  have -> : \det M = \det S1 / \det S2.
    by rewrite /M -LM !det_mulmx !det_tr det_inv invfM [_ * \det S1]mulrC mulrA.
  rewrite rinvE ?gt_eqF // ln_mult ?ln_Rinv //; try exact/RltP.
  by apply: Rinv_0_lt_compat; apply/RltP.
rewrite -E1 -E2 subr_ge0; split=> // /eqP; rewrite subr_eq0=> /eqP/esym/K2 ME.
have -> : S1 = T *m M *m T^T by rewrite /M !mulmxA mulmxV // mul1mx -mulmxA -trmx_mul mulmxV // trmx1 mulmx1.
by rewrite ME mulmx1.
Qed.
Lemma kl_mean : 0 <= ((mu2 - mu1)^T *m invmx S2 *m (mu2 - mu1)) 0 0 /\
  (((mu2 - mu1)^T *m invmx S2 *m (mu2 - mu1)) 0 0 = 0 -> mu1 = mu2).
Proof.
have PI := posdef_inv Sy2 P2; split; first exact: posdef_psd.
move=> Z; case: (eqVneq (mu2 - mu1) 0)=> [/eqP|N]; first by rewrite subr_eq0=> /eqP.
by have := PI _ N; rewrite Z ltxx.
Qed.
Lemma kld_ge0 : 0 <= kld.
Proof. by apply: addr_ge0; [case: kl_trace|case: kl_mean]. Qed.
Lemma kl_divE : kl_div mu1 mu2 S1 S2 = 1 / 2%:R * kld.
Proof.
rewrite /kl_div !logdetE ?posdef_det // trmx_mul trmx_inv Sy2.
have -> : (\tr (invmx S2 *m S1) + ((mu2 - mu1)^T *m invmx S2 *m (mu2 - mu1)) 0 0 - q%:R + (ln (\det S2) - ln (\det S1)) = kld)%R.
  by rewrite /kld opprB [X in X + _ = _]addrAC addrAC.
rewrite Rabs_pos_eq //; apply/RleP; rewrite -r0E; apply: mulr_ge0; last exact: kld_ge0.
by rewrite divr_ge0 ?ler01 ?ler0n.
Qed.
End KL.

(** * mutual information and total correlation *)
Lemma inv_blockdiag n p (A : 'M[R]_n) (B : 'M[R]_p) : A \in unitmx -> B \in unitmx ->
  invmx (block_mx A 0 0 B) = block_mx (invmx A) 0 0 (invmx B).
Proof.
move=> UA UB; have U : block_mx A 0 0 B \in unitmx by rewrite unitmxE det_ublock unitrM -!unitmxE UA.
rewrite -[LHS]mulmx1 -[RHS](mulKmx U); congr (_ *m _).
by rewrite mulmx_block !(mulmx0, mul0mx, addr0, add0r) !mulmxV // -scalar_mx_block.
Qed.
Lemma tr_blockdiag n p (A : 'M[R]_n) (B : 'M[R]_p) E b c F : A \in unitmx -> B \in unitmx ->
  \tr (invmx (block_mx A 0 0 B) *m block_mx E b c F) = \tr (invmx A *m E) + \tr (invmx B *m F).
Proof.
by move=> UA UB; rewrite inv_blockdiag // mulmx_block mxtrace_block !(mul0mx, addr0, add0r).
Qed.
Lemma tr_self n (A : 'M[R]_n) : A \in unitmx -> \tr (invmx A *m A) = n%:R.
Proof. by move=> U; rewrite mulVmx // mxtrace1. Qed.
Definition diag_part n (A : 'M[R]_n) : 'M[R]_n := diag_mx (\row_i A i i).
Lemma tr_diag_part n (A : 'M[R]_n) : (forall i, 0 < A i i) -> \tr (invmx (diag_part A) *m A) = n%:R.
Proof.
move=> P; have U : diag_part A \in unitmx.
  by rewrite unitmxE unitfE det_diag; apply/prodf_neq0=> i _; rewrite mxE gt_eqF.
have -> : invmx (diag_part A) = diag_mx (\row_i (A i i)^-1).
  rewrite -[LHS]mulmx1 -[RHS](mulKmx U); congr (_ *m _).
  rewrite /diag_part mulmx_diag -diag_const_mx; congr diag_mx; apply/rowP=> i; rewrite !mxE mulfV // gt_eqF //.
have -> : (n%:R : R) = \sum_(i < n) 1 by rewrite sumr_const card_ord.
by apply: eq_bigr=> i _; rewrite mul_diag_mx !mxE mulVf // gt_eqF.
Qed.
Section MI.
Variables (n q : nat) (A : 'M[R]_n) (b : 'M[R]_(n, q)) (d : 'M[R]_q).
Let J := block_mx A b b^T d.
Hypothesis (SA : A^T = A) (Sd : d^T = d) (PJ : posdef J).
Let PA := posdef_lead PJ.
Let Pd := posdef_tail PJ.
Let SJ : J^T = J. Proof. by rewrite /J tr_block_mx trmxK SA Sd. Qed.
Let dA := posdef_det SA PA.
Let dd := posdef_det Sd Pd.
Let dJ := posdef_det SJ PJ.
Let UA := posdef_unit SA PA.
Let Ud := posdef_unit Sd Pd.
Lemma entropyE r (S : 'M[R]_r) : 0 < \det S -> entropy S = r%:R * (1 / 2%:R + 1 / 2%:R * ln (2%:R * PI)%R) + 1 / 2%:R * ln (\det S).
Proof. by move=> P; rewrite /entropy logdetE // mulrDr !mul1r mulrA. Qed.
Lemma mi_value : mutual_information J d A = 1 / 2%:R * (ln (\det A) + ln (\det d) - ln (\det J)).
Proof.
rewrite /mutual_information !entropyE // natrD mulrDl.
set a := n%:R * _; set c := q%:R * _; set u := ln _; set v := ln _; set w := ln _.
set h := 1 / _; rewrite [RHS]mulrDr [X in _ = X + _]mulrDr mulrN; clearbody a c u v w h.
have -> : (c + h * u + (a + h * v) - ((a + c) + h * w) = (c + a - (a + c)) + (h * v + h * u - h * w))%R.
  by rewrite opprD [c + _ + _]addrACA addrACA [h * u + _]addrC.
by rewrite [c + a]addrC subrr add0r.
Qed.
Let SD (B : 'M[R]_q) : B^T = B -> (block_mx A 0 0 B)^T = block_mx A 0 0 B.
Proof. by move=> SB; rewrite tr_block_mx !trmx0 SA SB. Qed.
Lemma mi_kl : mutual_information J d A = kl_div 0 0 J (block_mx A 0 0 d).
Proof.
rewrite kl_divE ?SD //; last exact: posdef_blockdiag.
rewrite mi_value; congr (_ * _); rewrite tr_blockdiag // !tr_self // subrr mulmx0 mxE addr0 natrD subrr sub0r opprB.
by rewrite det_ublock ln_mult //; apply/RltP.
Qed.
Let di i : 0 < d i i. Proof. exact: posdef_diag. Qed.
Lemma Pdiag : posdef (diag_part d).
Proof. by apply: posdef_diagmx=> i; rewrite mxE. Qed.
Lemma Sdiag : (diag_part d)^T = diag_part d. Proof. exact: tr_diag_mx. Qed.
Lemma tc_value : kl_div 0 0 J (block_mx A 0 0 (diag_part d)) = 1 / 2%:R * (ln (\det A) + \sum_i ln (d i i) - ln (\det J)).
Proof.
have PD := posdef_blockdiag PA Pdiag.
rewrite kl_divE ?SD ?Sdiag //.
have U : diag_part d \in unitmx by apply: posdef_unit; [exact: Sdiag|exact: Pdiag].
rewrite tr_blockdiag // tr_self // tr_diag_part // subrr mulmx0 mxE addr0 natrD subrr sub0r opprB.
congr (_ * (_ - _)); rewrite det_ublock ln_mult; [|exact/RltP|by apply/RltP/posdef_det; [exact: Sdiag|exact: Pdiag]].
rewrite det_diag ln_prod=> [|i]; last by rewrite mxE.
by congr (_ + _); apply: eq_bigr=> i _; rewrite mxE.
Qed.
Lemma tc_ge_mi : mutual_information J d A <= kl_div 0 0 J (block_mx A 0 0 (diag_part d)).
Proof.
rewrite tc_value mi_value ler_pmul2l; last by rewrite divr_gt0 ?ltr01 ?ltr0n.
rewrite ler_add2r ler_add2l.
have [K _] := kl_trace Sd Pd Sdiag Pdiag.
move: K; rewrite tr_diag_part // subrr sub0r opprB subr_ge0.
by rewrite det_diag ln_prod=> [|i]; [under eq_bigr do rewrite mxE | rewrite mxE].
Qed.
End MI.

(** * the overlap of two Gaussians *)
Section Overlap.
Variables (q : nat) (S1 S2 : 'M[R]_q) (m1 m2 : 'cV[R]_q).
Hypothesis (Sy1 : S1^T = S1) (P1 : posdef S1) (Sy2 : S2^T = S2) (P2 : posdef S2).
Let P := invmx S1. Let Q := invmx S2. Let W := P + Q.
Let U1 := posdef_unit Sy1 P1. Let U2 := posdef_unit Sy2 P2.
Let SP : P^T = P. Proof. by rewrite trmx_inv Sy1. Qed.
Let SQ : Q^T = Q. Proof. by rewrite trmx_inv Sy2. Qed.
Let SW : W^T = W. Proof. by rewrite [LHS]raddfD /= SP SQ. Qed.
Lemma PW : posdef W. Proof. by apply: posdefDl; [exact: posdef_inv|apply: posdef_psd; exact: posdef_inv]. Qed.
Let UW := posdef_unit SW PW.
Let C := invmx W.
Let SC : C^T = C. Proof. by rewrite trmx_inv SW. Qed.
Let PS : posdef (S1 + S2). Proof. by apply: posdefDl=> //; exact: posdef_psd. Qed.
Let SS : (S1 + S2)^T = S1 + S2. Proof. by rewrite [LHS]raddfD /= Sy1 Sy2. Qed.
Let US := posdef_unit SS PS.
Lemma S1WS2 : S1 *m W *m S2 = S1 + S2.
Proof. by rewrite mulmxDr mulmxDl mulmxV // mul1mx -mulmxA mulVmx // mulmx1 addrC. Qed.
Lemma inv_sum : invmx (S1 + S2) = Q *m C *m P.
Proof.
rewrite -[LHS]mulmx1 -[RHS](mulKmx US); congr (_ *m _).
have E : S1 *m W *m S2 *m (Q *m C *m P) = 1%:M.
  by rewrite -!mulmxA (mulmxA S2) mulmxV // mul1mx (mulmxA W) mulmxV // mul1mx mulmxV.
by rewrite S1WS2 in E.
Qed.
Lemma inv_sum' : invmx (S1 + S2) = P *m C *m Q.
Proof.
have T : (P *m C *m Q)^T = Q *m C *m P by rewrite !trmx_mul SP SC SQ mulmxA.
by rewrite -[RHS]trmxK T -inv_sum trmx_inv SS.
Qed.
Lemma PCP : P *m C *m P = P - invmx (S1 + S2).
Proof.
have E : P *m C *m W = P by rewrite mulmxKV.
by rewrite -{3}E [P *m C *m W]mulmxDr inv_sum' addrK.
Qed.
Lemma QCQ : Q *m C *m Q = Q - invmx (S1 + S2).
Proof.
have E : Q *m C *m W = Q by rewrite mulmxKV.
by rewrite -{3}E [Q *m C *m W]mulmxDr -inv_sum addrC addKr.
Qed.
Let qf (A : 'M[R]_q) (u v : 'cV[R]_q) : R := (u^T *m A *m v) 0 0.
Lemma overlap_quad :
  ((m1^T *m P + m2^T *m Q) *m C *m (P *m m1 + Q *m m2)) 0 0 - (qf P m1 m1 + qf Q m2 m2)
  = - qf (invmx (S1 + S2)) (m1 - m2) (m1 - m2).
Proof.
have qfE A u v : (u^T *m A *m v) 0 0 = qf A u v by [].
have e11 : m1^T *m P *m C *m P *m m1 = m1^T *m P *m m1 - m1^T *m invmx (S1 + S2) *m m1.
  by rewrite -!mulmxA (mulmxA C) (mulmxA P) (mulmxA P) PCP mulmxBl mulmxBr.
have e22 : m2^T *m Q *m C *m Q *m m2 = m2^T *m Q *m m2 - m2^T *m invmx (S1 + S2) *m m2.
  by rewrite -!mulmxA (mulmxA C) (mulmxA Q) (mulmxA Q) QCQ mulmxBl mulmxBr.
have e12 : m1^T *m P *m C *m Q *m m2 = m1^T *m invmx (S1 + S2) *m m2 by rewrite inv_sum' !mulmxA.
have e21 : m2^T *m Q *m C *m P *m m1 = m2^T *m invmx (S1 + S2) *m m1 by rewrite inv_sum !mulmxA.
have B (M : 'M[R]_1) N : (M + N) 0 0 = M 0 0 + N 0 0 by rewrite mxE.
have N' (M : 'M[R]_1) : (- M) 0 0 = - M 0 0 by rewrite mxE.
rewrite !mulmxDr !mulmxDl !mulmxA e11 e22 e12 e21 /qf; set I := invmx (S1 + S2).
rewrite [(m1 - m2)^T]raddfB /= mulmxBl mulmxBr !mulmxBl !(B, N').
have K (p r i j k l : R) : (p - i + k + (j + (r - l)) - (p + r) = - (i - k - (j - l)))%coqR by ring.
exact: K.
Qed.
Lemma overlap_log :
  1 / 2%:R * (((m1^T *m P + m2^T *m Q) *m C *m (P *m m1 + Q *m m2)) 0 0 - (qf P m1 m1 + qf Q m2 m2)) + 1 / 2%:R * logdet C
    - (q%:R / 2%:R * ln (2%:R * PI)%R + 1 / 2%:R * (logdet S1 + logdet S2))
  = log_gauss m1 m2 (S1 + S2).
Proof.
have d1 := posdef_det Sy1 P1; have d2 := posdef_det Sy2 P2; have dW := posdef_det SW PW.
have dC : \det C = (\det W)^-1 by rewrite det_inv.
have C0 : 0 < \det C by rewrite dC invr_gt0.
have lC : ln (\det C) = - ln (\det W) by rewrite dC rinvE ?gt_eqF // ln_Rinv //; apply/RltP.
rewrite overlap_quad !logdetE // lC.
have lS : ln (\det (S1 + S2)) = ln (\det S1) + ln (\det W) + ln (\det S2).
  rewrite -S1WS2 !det_mulmx; have M a b : 0 < a -> 0 < b -> ln (a * b)%R = ln a + ln b by move=> *; apply: ln_mult; apply/RltP.
  by rewrite !M // mulr_gt0.
rewrite /log_gauss /neg_log_gauss lS /qf.
set a := (_ *m _ *m _) 0 0; set u := ln _; set v := ln _; set w := ln _; set t := ln _; clearbody a u v w t.
have -> : q%:R / 2%:R = (1 / 2%:R) * q%:R :> R by rewrite mul1r mulrC.
set h := 1 / 2%:R; set z := q%:R; clearbody h z.
clear; move: a u v w t h z; have K (a u v w t h z : R) : (h * - a + h * - u - (h * z * t + h * (v + w)) = - (h * (a + (v + u + w) + z * t)))%coqR by ring.
move=> *; exact: K.
Qed.
Lemma overlap_product (f : 'cV[R]_q) :
  log_gauss f m1 S1 + log_gauss f m2 S2 = log_gauss f (C *m (P *m m1 + Q *m m2)) C + log_gauss m1 m2 (S1 + S2).
Proof.
have d1 := posdef_det Sy1 P1; have d2 := posdef_det Sy2 P2; have dC := posdef_det SC (posdef_inv SW PW).
rewrite -overlap_log !logdetE // /log_gauss /neg_log_gauss.
have CW : invmx C = W by rewrite /C invmxK.
set b := P *m m1 + Q *m m2.
have b' : m1^T *m P + m2^T *m Q = b^T by rewrite [RHS]raddfD /= !trmx_mul SP SQ.
have E1 : ((f - m1)^T *m P *m (f - m1)) 0 0 + ((f - m2)^T *m Q *m (f - m2)) 0 0
    = ((f - C *m b)^T *m invmx C *m (f - C *m b)) 0 0 - ((b^T *m C *m b) 0 0 - (qf P m1 m1 + qf Q m2 m2)).
  have sq (A : 'M[R]_q) (u v : 'cV[R]_q) : A^T = A -> ((u - v)^T *m A *m (u - v)) 0 0 = qf A u u - (qf A u v + qf A u v) + qf A v v.
    move=> SA; have -> : (u - v)^T *m A *m (u - v) = u^T *m A *m u - (u^T *m A *m v + v^T *m A *m u) + v^T *m A *m v.
      by rewrite [(_ - _)^T]raddfB /= !mulmxBl !mulmxBr opprB opprD !addrA [LHS]addrAC -!addrA; congr (_ + _); rewrite [RHS]addrCA.
    have me (a1 a2 a3 a4 : 'M[R]_1) : (a1 - (a2 + a3) + a4) 0 0 = a1 0 0 - (a2 0 0 + a3 0 0) + a4 0 0 by rewrite !mxE.
    rewrite me; congr (_ - (_ + _) + _).
    have -> : v^T *m A *m u = (u^T *m A *m v)^T by rewrite !trmx_mul trmxK SA mulmxA.
    by rewrite mxE.
  rewrite CW !sq //.
  have -> : qf W f f = qf P f f + qf Q f f by rewrite /qf /W mulmxDr mulmxDl mxE.
  have -> : qf W f (C *m b) = qf P f m1 + qf Q f m2.
    by rewrite /qf -!mulmxA (mulmxA W) /C mulmxV // mul1mx /b mulmxDr mxE.
  have -> : qf W (C *m b) (C *m b) = (b^T *m C *m b) 0 0.
    by rewrite /qf trmx_mul SC -!mulmxA (mulmxA W) /C mulmxV // mul1mx.
  move: (qf P f f) (qf Q f f) (qf P f m1) (qf Q f m2) (qf P m1 m1) (qf Q m2 m2) ((b^T *m C *m b) 0 0).
  have K (a1 a2 c d e1 e2 g : R) : (a1 - (c + c) + e1 + (a2 - (d + d) + e2) = a1 + a2 - (c + d + (c + d)) + g - (g - (e1 + e2)))%coqR by ring.
  move=> *; exact: K.
rewrite b' -/P -/Q -/C.
move: E1.
set u1 := ((f - m1)^T *m P *m (f - m1)) 0 0; set u2 := ((f - m2)^T *m Q *m (f - m2)) 0 0; set u3 := ((f - C *m b)^T *m invmx C *m (f - C *m b)) 0 0.
set u4 := ((b^T *m C *m b) 0 0 - _).
set t := ln (2%:R * PI)%R; set l1 := ln (\det S1); set l2 := ln (\det S2); set l3 := ln (\det C); set z := q%:R.
clearbody u1 u2 u3 u4 t l1 l2 l3 z; clear; move: u1 u2 u3 u4 t l1 l2 l3 z; have K (u1 u2 u3 u4 t l1 l2 l3 z h : R) : (u1 + u2 = u3 - u4)%coqR ->
   (- (h * (u1 + l1 + z * t)) + - (h * (u2 + l2 + z * t)) = - (h * (u3 + l3 + z * t)) + (h * u4 + h * l3 - (h * z * t + h * (l1 + l2))))%coqR by move=> E; replace u3 with (u1 + u2 + u4)%coqR by lra; ring.
move=> u1 u2 u3 u4 t l1 l2 l3 z E; have -> : z / 2%:R = 1 / 2%:R * z by rewrite mul1r mulrC.
exact: (K _ _ _ _ _ _ _ _ _ _ E).
Qed.
End Overlap.

(** * the posterior *)
Section Post.
Variables (X : Type) (kern : X -> X -> R) (mean : X -> R) (n : nat) (x_data : 'I_n -> X) (V : noise n).
Hypothesis Vk : valid_covariance kern.
Hypothesis (SV : (noise_mx V)^T = noise_mx V) (PV : posdef (noise_mx V)).
Let A := KVmx kern x_data V.
Lemma KV_sym : A^T = A. Proof. by rewrite [LHS]raddfD /= SV; congr (_ + _); exact: gram_sym. Qed.
Lemma KV_pd : posdef A. Proof. by apply: posdefD=> //; exact: gram_psd. Qed.
Lemma KV_unit : A \in unitmx. Proof. exact: posdef_unit KV_sym KV_pd. Qed.
Variables (q : nat) (x_pred : 'I_q -> X).
Let k := kmat kern x_data x_pred.
Let kk := kmat kern x_pred x_pred.
Definition schur : 'M[R]_q := kk - k^T *m invmx A *m k.
Lemma schur_sym : schur^T = schur.
Proof. by rewrite [LHS]raddfB /= !trmx_mul trmxK trmx_inv KV_sym mulmxA; congr (_ - _); exact: gram_sym. Qed.
Lemma J_psd : psd (block_mx A k k^T kk).
Proof.
have -> : block_mx A k k^T kk = block_mx (gram kern x_data x_data) k k^T kk + block_mx (noise_mx V) 0 0 0.
  by rewrite add_block_mx !addr0.
by apply: psdD; [exact: gram_block | apply: psd_blockdiag; [exact: posdef_psd|exact: psd0]].
Qed.
Lemma schur_ge0 : psd schur.
Proof. by apply: schur_psd; [exact: KV_sym|exact: KV_unit|exact: J_psd]. Qed.
Lemma schur_ii i : schur i i = kk i i - \sum_j \sum_l k j i * invmx A j l * k l i.
Proof.
rewrite [LHS]mxE; congr (_ + _); rewrite [LHS]mxE; congr (- _); rewrite [LHS]mxE exchange_big /=; apply: eq_bigr=> l _.
by rewrite [X in X * _]mxE mulr_suml; apply: eq_bigr=> j _; rewrite [k^T _ _]mxE.
Qed.
Lemma schur_le i : schur i i <= kk i i.
Proof.
have -> : schur i i = kk i i - (k^T *m invmx A *m k) i i by rewrite [LHS]mxE; congr (_ + _); rewrite [LHS]mxE.
rewrite ler_subl_addr ler_addl.
by apply: psd_diag; apply: psd_cong; apply: posdef_psd; exact: posdef_inv KV_sym KV_pd.
Qed.
End Post.
