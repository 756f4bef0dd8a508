From mathcomp Require Import all_ssreflect all_algebra.
From Verif Require Import Model.CholUpdate Spec.CholSpec.
Set Implicit Arguments.
Unset Strict Implicit.
Unset Printing Implicit Defensive.
Import Order.TTheory GRing.Theory Num.Theory.
Local Open Scope ring_scope.

Section Chol.
Variable R : rcfType.

Definition chol n (L A : 'M[R]_n) := (forall i, 0 < L i i) /\ tril L *m (tril L)^T = A.

Lemma is_cholE n (L A : 'M[R]_n) : is_chol L A <-> chol L A.
Proof.
split=> -[Hd H]; split=> //.
- apply/matrixP=> i j; rewrite !mxE H [RHS]big_mkcond /=; apply: eq_bigr=> k _.
  by rewrite !mxE; case: ifP; case: ifP; rewrite ?mul0r ?mulr0.
- move=> i j; rewrite -H !mxE [RHS]big_mkcond /=; apply: eq_bigr=> k _.
  by rewrite !mxE; case: ifP; case: ifP; rewrite ?mul0r ?mulr0.
Qed.

Lemma tril_trig n (L : 'M[R]_n) : is_trig_mx (tril L).
Proof. by apply/is_trig_mxP=> i j lt; rewrite mxE leqNgt lt. Qed.

Lemma det_tril n (L : 'M[R]_n) : \det (tril L) = \prod_i L i i.
Proof. by rewrite (det_trig (tril_trig L)); apply: eq_bigr=> i _; rewrite mxE leqnn. Qed.

Lemma tril_unit n (L : 'M[R]_n) : (forall i, 0 < L i i) -> tril L \in unitmx.
Proof. by move=> H; rewrite unitmxE unitfE det_tril; apply/prodf_neq0=> i _; rewrite gt_eqF. Qed.

Lemma tril_block n (L : 'M[R]_n) (v : 'rV[R]_n) (d : R) :
  tril (block_mx L 0 v d%:M : 'M_(n + 1)) = block_mx (tril L) 0 v d%:M.
Proof.
apply/matrixP=> i j.
case: (split_ordP i) => i' -> ; case: (split_ordP j)=> j' ->.
- by rewrite mxE !block_mxEul mxE.
- by rewrite mxE !block_mxEur mxE; case: ifP.
- by rewrite mxE !block_mxEdl /= ifT // (leq_trans (ltnW (ltn_ord j'))) // leq_addr.
- by rewrite mxE !block_mxEdr /= !ord1 leqnn.
Qed.

Lemma block_chol n (L A : 'M[R]_n) b (c : R) : chol L A ->
  let v := solve_triangular L b in let disc := c - (v^T *m v) 0 0 in
  0 < disc -> chol (block_mx L 0 v^T (Num.sqrt disc)%:M : 'M_(n + 1)) (block_mx A b b^T c%:M).
Proof.
move=> [Hd H] v disc pd; split.
- move=> i; case: (split_ordP i)=> i' ->; first by rewrite block_mxEul.
  by rewrite block_mxEdr mxE eqxx mulr1n sqrtr_gt0.
have U := tril_unit Hd.
rewrite tril_block tr_block_mx mulmx_block !(mulmx0, mul0mx, trmx0, addr0, add0r) H trmxK.
have E : tril L *m v = b by rewrite /v /solve_triangular mulKVmx.
congr block_mx; first exact: E.
- by rewrite -trmx_mul E.
- rewrite tr_scalar_mx -scalar_mxM -expr2 sqr_sqrtr ?ltW //.
  by apply/matrixP=> i j; rewrite !ord1 [LHS]mxE [X in _ + X]mxE [RHS]mxE eqxx !mulr1n /disc addrC subrK.
Qed.

Lemma rank_1_ok n (L A : 'M[R]_n) b c L' : chol L A -> rank_1 L b c = Some L' ->
  chol L' (block_mx A b b^T c%:M).
Proof. by move=> H; rewrite /rank_1; case: ifP=> // /negbT; rewrite -ltNge=> pd [<-]; apply: block_chol. Qed.

Lemma rank_1_total n (L A : 'M[R]_n) b c : chol L A -> posdef (block_mx A b b^T c%:M : 'M_(n + 1)) ->
  exists L', rank_1 L b c = Some L'.
Proof.
move=> [Hd H] PD; rewrite /rank_1; case: ifP=> [le|]; last by eexists.
have U := tril_unit Hd.
pose w : 'cV[R]_n := - (invmx (tril L)^T *m (invmx (tril L) *m b)).
pose x : 'cV[R]_(n + 1) := col_mx w 1%:M.
have xn0 : x != 0.
  apply/eqP=> /matrixP /(_ (rshift n 0) 0); rewrite col_mxEd !mxE /= => /eqP.
  by rewrite oner_eq0.
have Aw : A *m w = - b.
  by rewrite /w mulmxN -H -mulmxA mulKVmx ?unitmx_tr // mulKVmx.
have := PD x xn0.
rewrite /x tr_col_mx trmx1 mul_row_block mul_row_col mul1mx mulmx1 mul1mx.
rewrite mulmxDl -mulmxA Aw mulmxN addrACA addNr add0r.
have -> : b^T *m w = - ((solve_triangular L b)^T *m solve_triangular L b).
  by rewrite /w mulmxN /solve_triangular trmx_mul trmx_inv !mulmxA.
rewrite mxE [X in X + _]mxE [X in _ + X]mxE eqxx mulr1n addrC => gt.
by move: le; rewrite leNgt gt.
Qed.

Lemma dimE n p : dim n p = (n + p)%N.
Proof. by elim: p=> [|p IH] /=; rewrite ?addn0 // IH addn1 addnS. Qed.

Lemma lead_block n p (KV : nat -> nat -> R) :
  (forall i j, (i < n + p.+1)%N -> (j < n + p.+1)%N -> KV i j = KV j i) ->
  lead KV (dim n p + 1) = block_mx (lead KV (dim n p)) (new_col n KV p) (new_col n KV p)^T (KV (n + p)%N (n + p)%N)%:M.
Proof.
move=> S; apply/matrixP=> i j.
have E (r : 'I_(dim n p)) : new_col n KV p r 0 = KV r (n + p)%N.
  rewrite mxE; case: ifP=> [lt|/negbT]; last by rewrite -leqNgt=> ge; rewrite subnKC.
  by apply: S; rewrite addnS ltnS // ltnW // (leq_trans lt) // leq_addr.
case: (split_ordP i) => i' -> ; case: (split_ordP j)=> j' ->.
- by rewrite block_mxEul !mxE.
- rewrite block_mxEur [j']ord1 E mxE /= addn0; congr (KV _ _); exact: dimE.
- rewrite block_mxEdl [i']ord1 [RHS]mxE E mxE /= addn0.
  have := ltn_ord j'; move: (nat_of_ord j')=> r; rewrite dimE=> lt; apply: S.
  + by rewrite addnS.
  + by rewrite addnS ltnS ltnW.
- by rewrite block_mxEdr !ord1 !mxE /= !addn0 dimE.
Qed.

Lemma posdef_lead n p (A : 'M[R]_n) b c (d : 'M[R]_p) : posdef (block_mx A b c d) -> posdef A.
Proof.
move=> PD x xn0; have := PD (col_mx x 0); rewrite tr_col_mx trmx0 mul_row_block mul_row_col.
rewrite !mul0mx !mulmx0 !addr0; apply; apply: contra xn0=> /eqP /matrixP H.
by apply/eqP/matrixP=> i j; have := H (lshift _ i) j; rewrite col_mxEu !mxE.
Qed.

Lemma update_chol_ok n (L : 'M[R]_n) KV : chol L (lead KV n) -> forall p,
  (forall i j, (i < n + p)%N -> (j < n + p)%N -> KV i j = KV j i) ->
  forall L', update_chol L KV p = Some L' -> chol L' (lead KV (dim n p)) /\
    forall (i j : 'I_n) (i' j' : 'I_(dim n p)), i' = i :> nat -> j' = j :> nat -> L' i' j' = L i j.
Proof.
move=> H; elim=> [|p IH] S L' /=.
  move=> [<-]; split=> // i j i' j' Ei Ej; congr (L _ _); exact: val_inj.
case E: update_chol=> [L1|] // E1.
have [|C IL] := IH _ _ E; first by move=> i j Hi Hj; apply: S; rewrite addnS ltnS ltnW.
split; first by rewrite lead_block //; apply: rank_1_ok E1.
move=> i j i' j' Ei Ej; move: E1; rewrite /rank_1; case: ifP=> // _ [<-].
have lti : (i < dim n p)%N by rewrite dimE (leq_trans (ltn_ord i)) // leq_addr.
have ltj : (j < dim n p)%N by rewrite dimE (leq_trans (ltn_ord j)) // leq_addr.
have -> : i' = lshift 1 (Ordinal lti) by apply: val_inj.
have -> : j' = lshift 1 (Ordinal ltj) by apply: val_inj.
by rewrite block_mxEul; apply: IL.
Qed.

Lemma update_chol_total n (L : 'M[R]_n) KV : chol L (lead KV n) -> forall p,
  (forall i j, (i < n + p)%N -> (j < n + p)%N -> KV i j = KV j i) ->
  posdef (lead KV (dim n p)) -> exists L', update_chol L KV p = Some L'.
Proof.
move=> H; elim=> [|p IH] S PD /=; first by exists L.
rewrite lead_block // in PD.
have S' i j : (i < n + p)%N -> (j < n + p)%N -> KV i j = KV j i.
  by move=> Hi Hj; apply: S; rewrite addnS ltnS ltnW.
have [L1 E1] := IH S' (posdef_lead PD).
rewrite E1; have [C _] := update_chol_ok H S' E1.
exact: rank_1_total C PD.
Qed.

Lemma quad_sq n (x : 'cV[R]_n) : (x^T *m x) 0 0 = \sum_i x i 0 ^+ 2.
Proof. by rewrite mxE; apply: eq_bigr=> i _; rewrite mxE expr2. Qed.

Lemma quad_ge0 n (x : 'cV[R]_n) : 0 <= (x^T *m x) 0 0.
Proof. by rewrite quad_sq; apply: sumr_ge0=> i _; apply: sqr_ge0. Qed.

Lemma quad_gt0 n (x : 'cV[R]_n) : x != 0 -> 0 < (x^T *m x) 0 0.
Proof.
move=> xn0; rewrite lt_neqAle quad_ge0 andbT eq_sym quad_sq.
apply: contra xn0; rewrite psumr_eq0; last by move=> i _; apply: sqr_ge0.
move=> /allP H; apply/eqP/matrixP=> i j; rewrite ord1 mxE; apply/eqP.
by rewrite -sqrf_eq0; apply: H; rewrite mem_index_enum.
Qed.

Lemma chol_posdef n (L A : 'M[R]_n) : chol L A -> posdef A.
Proof.
move=> [Hd H] x xn0.
have -> : x^T *m A *m x = ((tril L)^T *m x)^T *m ((tril L)^T *m x).
  by rewrite -H trmx_mul trmxK !mulmxA.
apply: quad_gt0.
apply: contra xn0=> /eqP H0; have := tril_unit Hd; rewrite -unitmx_tr=> U.
by rewrite -[x](mulKmx U) H0 mulmx0.
Qed.

(** uniqueness, by peeling off the first row and column *)
Lemma chol_unique_trig n (S T : 'M[R]_n) : is_trig_mx S -> is_trig_mx T ->
  (forall i, 0 < S i i) -> (forall i, 0 < T i i) -> S *m S^T = T *m T^T -> S = T.
Proof.
elim: n S T=> [|n IH] S T tS tT dS dT E; first by apply/matrixP=> -[].
move: S T tS tT dS dT E; rewrite -[n.+1]/(1 + n)%N=> S T tS tT dS dT E.
have blk (M : 'M[R]_(1 + n)) : is_trig_mx M ->
    M = block_mx (M 0 0)%:M 0 (dlsubmx M) (drsubmx M) /\ is_trig_mx (drsubmx M).
  move=> /is_trig_mxP tM; split; last first.
    by apply/is_trig_mxP=> i j lt; rewrite !mxE; apply: tM; rewrite /= ltn_add2l.
  rewrite -[LHS]submxK; congr block_mx; apply/matrixP=> i j; rewrite !mxE.
  - by rewrite !ord1 eqxx mulr1n; congr (M _ _); apply: val_inj.
  - by apply: tM; rewrite /= ord1.
have [ES tS'] := blk _ tS; have [ET tT'] := blk _ tT.
move: E; rewrite [S]ES [T]ET !tr_block_mx !mulmx_block !(mulmx0, mul0mx, trmx0, addr0, add0r).
move=> /eq_block_mx [E1 _ E3 E4].
have a : S 0 0 = T 0 0.
  apply/eqP; rewrite -(@eqr_expn2 _ 2) ?ltW //; apply/eqP; rewrite !expr2.
  by move: E1; rewrite !tr_scalar_mx -!scalar_mxM=> /matrixP /(_ 0 0); rewrite !mxE eqxx !mulr1n.
have b : dlsubmx S = dlsubmx T.
  move: E3; rewrite !tr_scalar_mx a !mul_mx_scalar; apply: scalerI; exact: lt0r_neq0.
rewrite a b; congr block_mx; apply: IH=> //.
- by move=> i; rewrite !mxE; apply: dS.
- by move=> i; rewrite !mxE; apply: dT.
- by move: E4; rewrite b=> /addrI.
Qed.

Lemma chol_unique n (L M A : 'M[R]_n) : chol L A -> chol M A -> tril L = tril M.
Proof.
move=> [d1 e1] [d2 e2]; apply: chol_unique_trig; rewrite ?tril_trig //.
- by move=> i; rewrite mxE leqnn.
- by move=> i; rewrite mxE leqnn.
- by rewrite e1 e2.
Qed.

Lemma chol_det n (L A : 'M[R]_n) : chol L A -> \det A = (\prod_i L i i) ^+ 2.
Proof. by move=> [_ <-]; rewrite det_mulmx det_tr det_tril expr2. Qed.

Lemma chol_solve_ok n m (L A : 'M[R]_n) (b : 'M[R]_(n, m)) : chol L A -> A *m chol_solve L b = b.
Proof.
move=> [Hd <-]; rewrite /chol_solve -mulmxA mulKVmx ?unitmx_tr ?tril_unit //.
by rewrite mulKVmx ?tril_unit.
Qed.

Lemma chol_unit n (L A : 'M[R]_n) : chol L A -> A \in unitmx.
Proof. by move=> [Hd <-]; rewrite unitmx_mul unitmx_tr tril_unit. Qed.

Lemma inv_from_chol_ok n (L A : 'M[R]_n) : chol L A -> inv_from_chol L = invmx A.
Proof.
move=> H; have U := chol_unit H.
by rewrite -[LHS](mulKmx U) /inv_from_chol chol_solve_ok // mulmx1.
Qed.

Lemma log_like1 (F : fieldType) (G : zmodType) (lg : F -> G) : log_like lg -> lg 1 = 0.
Proof.
move=> H; have := H 1 1 (oner_neq0 _) (oner_neq0 _); rewrite mulr1 => /eqP.
by rewrite -{1}[lg 1]addr0 (inj_eq (addrI _)) eq_sym=> /eqP.
Qed.

Lemma log_like_prod (F : fieldType) (G : zmodType) (lg : F -> G) n (f : 'I_n -> F) : log_like lg ->
  (forall i, f i != 0) -> lg (\prod_i f i) = \sum_i lg (f i).
Proof.
move=> H nz; elim: n f nz=> [|n IH] f nz; first by rewrite !big_ord0 log_like1.
rewrite !big_ord_recl H ?IH // ?nz //; by apply/prodf_neq0=> i _; apply: nz.
Qed.

Lemma chol_logdet_ok (G : zmodType) (lg : R -> G) n (L A : 'M[R]_n) : log_like lg -> chol L A ->
  chol_logdet lg L = lg `|\det A|.
Proof.
move=> H C; rewrite (chol_det C) /chol_logdet; case: C=> Hd _.
have P : 0 < \prod_i L i i by apply: prodr_gt0=> i _.
rewrite ger0_norm ?sqr_ge0 // expr2 H ?lt0r_neq0 // -mulr2n; congr (_ *+ 2).
rewrite log_like_prod //; last by move=> i; rewrite lt0r_neq0.
by apply: eq_bigr=> i _; rewrite gtr0_norm.
Qed.
End Chol.

Section Inv.
Variable F : fieldType.

Lemma det_schur n p (A : 'M[F]_n) b c (d : 'M[F]_p) : A \in unitmx ->
  \det (block_mx A b c d) = \det A * \det (d - c *m invmx A *m b).
Proof.
move=> U.
have -> : block_mx A b c d = block_mx A 0 c 1%:M *m block_mx 1%:M (invmx A *m b) 0 (d - c *m invmx A *m b).
  rewrite mulmx_block !(mulmx0, mul0mx, mulmx1, mul1mx, addr0, add0r) mulKVmx //.
  by rewrite -mulmxA mulmxA addrC subrK.
by rewrite det_mulmx det_lblock det_ublock !det1 mulr1 mul1r.
Qed.

Lemma update_inv_ok n p (A : 'M[F]_n) (k : 'M[F]_(p, n)) (kk : 'M[F]_p) :
  A \in unitmx -> A^T = A -> kk^T = kk -> kk - k *m invmx A *m k^T \in unitmx ->
  let N := block_mx A k^T k kk in
  N \in unitmx /\ update_inv (invmx A) k kk = invmx N.
Proof.
move=> U SA Sk US N.
have UN : N \in unitmx.
  by rewrite unitmxE det_schur // unitrM -!unitmxE U US.
split=> //.
suff E : N *m update_inv (invmx A) k kk = 1%:M by rewrite -[LHS](mulKmx UN) E mulmx1.
rewrite /N /update_inv; set B := invmx A; set S := kk - _; set X := invmx S.
have SB : B^T = B by rewrite /B trmx_inv SA.
have SX : X^T = X.
  by rewrite /X trmx_inv /S linearB /= !trmx_mul trmxK SB Sk mulmxA.
have -> : (- B *m k^T *m X)^T = - X *m k *m B.
  by rewrite !trmx_mul trmxK linearN /= SB SX !mulmxN !mulNmx mulmxA.
have AB : A *m B = 1%:M by rewrite mulmxV.
have SXe : S *m X = 1%:M by rewrite mulmxV.
have kkE : kk = S + k *m B *m k^T by rewrite /S subrK.
rewrite mulmx_block scalar_mx_block; congr block_mx.
- by rewrite mulmxDr AB !mulmxA AB mul1mx !mulmxN !mulNmx addrK.
- by rewrite !mulmxA mulmxN AB !mulNmx mul1mx addNr.
- rewrite kkE mulmxDr !mulmxA mulmxN mulmxDl SXe !mulNmx !mulmxDl mul1mx opprD.
  by rewrite addrACA subrr add0r subrr.
- by rewrite !mulmxA mulmxN !mulNmx {1}kkE mulmxDl SXe addrC addrK.
Qed.

Lemma update_logdet_ok (G : zmodType) (lg : F -> G) n p (A : 'M[F]_n) (k : 'M[F]_(p, n)) (kk : 'M[F]_p) :
  log_like lg -> A \in unitmx -> block_mx A k^T k kk \in unitmx ->
  update_logdet lg (lg (\det A)) (invmx A) k kk = lg (\det (block_mx A k^T k kk)).
Proof.
move=> H U UN; rewrite det_schur // H //; first by rewrite -unitfE -unitmxE.
by move: UN; rewrite unitmxE det_schur // unitrM=> /andP [_]; rewrite unitfE.
Qed.

Lemma schur_unit n p (A : 'M[F]_n) (k : 'M[F]_(p, n)) (kk : 'M[F]_p) :
  A \in unitmx -> (block_mx A k^T k kk \in unitmx) = (kk - k *m invmx A *m k^T \in unitmx).
Proof. by move=> U; rewrite !unitmxE det_schur // unitrM -[X in X && _]unitmxE U. Qed.
End Inv.

Section Main.
Variable R : rcfType.
Lemma chol_update_l n (L : 'M[R]_n) KV p :
  (forall i j, (i < n + p)%N -> (j < n + p)%N -> KV i j = KV j i) ->
  is_chol L (lead KV n) ->
  dim n p = (n + p)%N /\
  (forall L', update_chol L KV p = Some L' ->
     is_chol L' (lead KV (dim n p)) /\
     (forall (i j : 'I_n) (i' j' : 'I_(dim n p)), i' = i :> nat -> j' = j :> nat -> L' i' j' = L i j) /\
     (forall M, is_chol M (lead KV (dim n p)) -> forall i j : 'I_(dim n p), (j <= i)%N -> L' i j = M i j)) /\
  ((exists L', update_chol L KV p = Some L') <-> posdef (lead KV (dim n p))).
Proof.
move=> S /is_cholE C; split; first exact: dimE; split.
- move=> L' E; have [C' P] := update_chol_ok C S E; split; first exact/is_cholE; split=> //.
  move=> M /is_cholE CM i j le; have /matrixP /(_ i j) := chol_unique C' CM.
  by rewrite !mxE le.
- split; last exact: update_chol_total.
  by move=> [L' E]; have [C' P] := update_chol_ok C S E; apply: chol_posdef C'.
Qed.

Lemma chol_logdet_l (G : zmodType) (lg : R -> G) n (L A : 'M[R]_n) : log_like lg -> is_chol L A ->
  chol_logdet lg L = lg `|\det A|.
Proof. by move=> H /is_cholE; apply: chol_logdet_ok. Qed.

Lemma chol_solve_l n m (L A : 'M[R]_n) (b : 'M[R]_(n, m)) : is_chol L A ->
  A *m chol_solve L b = b /\ A \in unitmx /\ inv_from_chol L = invmx A.
Proof. by move=> /is_cholE C; rewrite chol_solve_ok // (chol_unit C) (inv_from_chol_ok C). Qed.
End Main.
