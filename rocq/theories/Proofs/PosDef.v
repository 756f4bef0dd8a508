(** Positive definite and semidefinite matrices over a real closed field: factorization, Schur complements. *)
From mathcomp Require Import all_ssreflect all_algebra.
From Verif Require Import Model.CholUpdate Spec.CholSpec Proofs.CholP.
Set Implicit Arguments.
Unset Strict Implicit.
Unset Printing Implicit Defensive.
Import Order.TTheory GRing.Theory Num.Theory.
Local Open Scope ring_scope.

Section PosDef.
Variable R : rcfType.

Lemma posdef_psd n (A : 'M[R]_n) : posdef A -> psd A.
Proof.
move=> P x; case: (eqVneq x 0)=> [->|N]; last exact: ltW (P x N).
by rewrite mulmx0 mxE.
Qed.
Lemma psdD n (A B : 'M[R]_n) : psd A -> psd B -> psd (A + B).
Proof. by move=> P Q x; rewrite mulmxDr mulmxDl mxE addr_ge0. Qed.
Lemma posdefD n (A B : 'M[R]_n) : psd A -> posdef B -> posdef (A + B).
Proof. by move=> P Q x N; rewrite mulmxDr mulmxDl mxE ltr_paddl // Q. Qed.
Lemma posdefDl n (A B : 'M[R]_n) : posdef A -> psd B -> posdef (A + B).
Proof. by move=> P Q; rewrite addrC; apply: posdefD. Qed.
Lemma psd_diag n (A : 'M[R]_n) i : psd A -> 0 <= A i i.
Proof.
move=> /(_ (delta_mx i 0)); rewrite trmx_delta -rowE -colE.
by rewrite !mxE.
Qed.
Lemma posdef_diag n (A : 'M[R]_n) i : posdef A -> 0 < A i i.
Proof.
move=> /(_ (delta_mx i 0)); rewrite trmx_delta -rowE -colE.
rewrite !mxE; apply; apply/eqP=> /matrixP /(_ i 0); rewrite !mxE !eqxx => /eqP; by rewrite oner_eq0.
Qed.
Lemma psd_diagmx n (d : 'rV[R]_n) : (forall i, 0 <= d 0 i) -> psd (diag_mx d).
Proof.
move=> H x; rewrite mxE; apply: sumr_ge0=> j _; rewrite mul_mx_diag !mxE.
by rewrite mulrAC -expr2 mulr_ge0 // sqr_ge0.
Qed.
Lemma posdef_diagmx n (d : 'rV[R]_n) : (forall i, 0 < d 0 i) -> posdef (diag_mx d).
Proof.
move=> H x N; rewrite lt_neqAle psd_diagmx ?andbT; last by move=> i; apply: ltW.
rewrite eq_sym mxE; apply: contra N; rewrite psumr_eq0; last first.
  by move=> j _; rewrite mul_mx_diag !mxE mulrAC -expr2 mulr_ge0 ?sqr_ge0 // ltW.
move=> /allP E; apply/eqP/matrixP=> i j; rewrite ord1 mxE.
have := E i (mem_index_enum i); rewrite mul_mx_diag !mxE mulrAC -expr2 mulf_eq0 sqrf_eq0 (gt_eqF (H i)) orbF.
by move/eqP.
Qed.
Lemma psd_cong n m (A : 'M[R]_n) (B : 'M[R]_(n, m)) : psd A -> psd (B^T *m A *m B).
Proof. by move=> P x; have := P (B *m x); rewrite trmx_mul !mulmxA. Qed.
Lemma posdef_cong n (A B : 'M[R]_n) : posdef A -> B \in unitmx -> posdef (B^T *m A *m B).
Proof.
move=> P U x N; have := P (B *m x); rewrite trmx_mul !mulmxA; apply.
by apply: contra N=> /eqP E; rewrite -(mulKmx U x) E mulmx0.
Qed.

Lemma chol_exists n (A : 'M[R]_n) : A^T = A -> posdef A -> exists L, chol L A.
Proof.
have : forall m, m = dim 0 n -> forall A : 'M[R]_m, A^T = A -> posdef A -> exists L, chol L A; last first.
  by apply; rewrite dimE.
move=> m -> {}A S P.
pose KV i j := match insub i, insub j with Some i, Some j => A i j | _, _ => 0 end.
have E : lead KV (dim 0 n) = A by apply/matrixP=> i j; rewrite mxE /KV !valK.
have C0 : chol (0 : 'M[R]_0) (lead KV 0) by split=> [[]//|]; apply/matrixP=> [[]].
have SK i j : (i < 0 + n)%N -> (j < 0 + n)%N -> KV i j = KV j i.
  by move=> _ _; rewrite /KV; case: insub=> [u|]; case: insub=> // v; rewrite -{1}S mxE.
have PK : posdef (lead KV (dim 0 n)) by rewrite E.
have [L HL] := update_chol_total C0 SK PK.
by exists L; have [H _] := update_chol_ok C0 SK HL; rewrite E in H.
Qed.
Lemma posdef_det n (A : 'M[R]_n) : A^T = A -> posdef A -> 0 < \det A.
Proof.
move=> S P; have [L C] := chol_exists S P; rewrite (chol_det C) exprn_gt0 //.
by apply: prodr_gt0=> i _; case: C.
Qed.
Lemma posdef_unit n (A : 'M[R]_n) : A^T = A -> posdef A -> A \in unitmx.
Proof. by move=> S P; rewrite unitmxE unitfE gt_eqF ?posdef_det. Qed.
Lemma posdef_inv n (A : 'M[R]_n) : A^T = A -> posdef A -> posdef (invmx A).
Proof.
move=> S P; have U := posdef_unit S P.
have : posdef ((invmx A)^T *m A *m invmx A) by apply: posdef_cong; rewrite ?unitmx_inv.
by rewrite trmx_inv S mulVmx // mul1mx.
Qed.

Section Schur.
Variables (n p : nat) (A : 'M[R]_n) (b : 'M[R]_(n, p)) (d : 'M[R]_p).
Let S := d - b^T *m invmx A *m b.
Hypothesis SA : A^T = A.
Hypothesis U : A \in unitmx.
Lemma schur_quad (z : 'cV[R]_p) : let x := col_mx (- (invmx A *m b *m z)) z in
  x^T *m block_mx A b b^T d *m x = z^T *m S *m z.
Proof.
have T : (- (invmx A *m b *m z))^T = - (z^T *m b^T *m invmx A).
  by rewrite raddfN /= !trmx_mul trmx_inv SA mulmxA.
move=> x; rewrite /x tr_col_mx T mul_row_block mul_row_col.
rewrite !(mulmxN, mulNmx, mulmxDl, mulmxDr, mulmxA) opprD !opprK.
have -> : z^T *m b^T *m invmx A *m A = z^T *m b^T by rewrite mulmxKV.
by rewrite subrr add0r addrC.
Qed.
Lemma schur_psd : psd (block_mx A b b^T d) -> psd S.
Proof. by move=> P z; rewrite -schur_quad. Qed.
Lemma schur_posdef : posdef (block_mx A b b^T d) -> posdef S.
Proof.
move=> P z N; rewrite -schur_quad; apply: P; apply: contra N=> /eqP E.
apply/eqP/matrixP=> i j; have := congr1 (fun M : 'M__ => M (rshift n i) j) E.
by rewrite col_mxEd [in RHS]mxE => ->; rewrite mxE.
Qed.
End Schur.
Lemma posdef_tail n p (A : 'M[R]_n) b c (d : 'M[R]_p) : posdef (block_mx A b c d) -> posdef d.
Proof.
move=> PD x xn0; have := PD (col_mx 0 x); rewrite tr_col_mx trmx0 mul_row_block mul_row_col.
rewrite !mul0mx !mulmx0 !add0r; apply; apply: contra xn0=> /eqP /matrixP H.
by apply/eqP/matrixP=> i j; have := H (rshift _ i) j; rewrite col_mxEd !mxE.
Qed.
End PosDef.
