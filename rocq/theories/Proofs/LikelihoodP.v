From Coq Require Import Reals Lra FunctionalExtensionality.
From mathcomp Require Import all_ssreflect all_algebra.
From Verif Require Import Proofs.RealMx Proofs.MxCalc Model.Likelihood Spec.LikelihoodSpec.
Set Implicit Arguments.
Unset Strict Implicit.
Unset Printing Implicit Defensive.
Import Order.TTheory GRing.Theory Num.Theory.
Local Open Scope ring_scope.

Lemma with_hp_id p (h : 'rV[R]_p) i : with_hp h i (h 0 i) = h.
Proof. by apply/rowP=> j; rewrite mxE; case: eqP=> // ->. Qed.
Lemma mx11 (A : 'M[R]_1) : A 0 0 = \tr A. Proof. by rewrite /mxtrace big_ord1. Qed.
Lemma tr11 (A : 'M[R]_1) : A^T = A. Proof. by apply/matrixP=> i j; rewrite mxE !ord1. Qed.

(** the derivative of the Gaussian negative log density along a path of means and covariances *)
Lemma neg_log_gauss_deriv n (y : 'cV[R]_n) (m : R -> 'cV[R]_n) (S : R -> 'M[R]_n) x dm dS :
  mxd m x dm -> mxd S x dS -> 0 < \det (S x) -> symmetric (S x) ->
  let b := invmx (S x) *m (y - m x) in
  dpl (fun t => neg_log_gauss y (m t) (S t)) x
    (- (dm^T *m b) 0 0 - (1 / 2%:R) * ((b^T *m dS *m b) 0 0 - \tr (invmx (S x) *m dS)))%R.
Proof.
move=> Hm HS P sS b.
have U : S x \in unitmx by rewrite unitmxE unitfE gt_eqF.
have sI : (invmx (S x))^T = invmx (S x).
  by rewrite trmx_inv; congr invmx; apply/matrixP=> i j; rewrite mxE sS.
have Hr : mxd (fun t => y - m t) x (- dm) by apply: (mxd_eq (mxdB (mxd_const y x) Hm))=> //; rewrite sub0r.
have Q := mxdM (mxdM (mxdT Hr) (mxd_inv HS U)) Hr.
have L := dpl_lndet HS P.
have D := dplZ (1 / 2%:R)%R (dplD (dplD (Q 0 0) L) (dpl_const (n%:R * ln (2%:R * PI)%R)%R x)).
apply: (dpl_eq D)=> //.
set T := \tr _; rewrite addr0.
have bT : b^T = (y - m x)^T *m invmx (S x) by rewrite trmx_mul sI.
have E1 : ((- dm)^T *m invmx (S x) *m (y - m x)) 0 0 = - (dm^T *m b) 0 0.
  by rewrite /b linearN /= !mulNmx -mulmxA mxE.
have E2 : ((y - m x)^T *m invmx (S x) *m - dm) 0 0 = - (dm^T *m b) 0 0.
  rewrite -bT mulmxN mxE; congr (- _); by rewrite -(tr11 (b^T *m dm)) trmx_mul trmxK.
have E3 : ((y - m x)^T *m - (invmx (S x) *m dS *m invmx (S x)) *m (y - m x)) 0 0 = - (b^T *m dS *m b) 0 0.
  by rewrite bT /b mulmxN mulNmx mxE !mulmxA.
rewrite mxE mulmxDl mxE E1 E2 E3.
set q := (b^T *m dS *m b) 0 0; set w := (dm^T *m b) 0 0.
have -> : (1 / 2%:R : R) = Rdiv 1 2 by rewrite rinvE ?pnatr_eq0 // r2E.
by toR; field.
Qed.

Section Grad.
Variables (n c p : nat) (g : model n p) (y : 'M[R]_(n, c)) (h : 'rV[R]_p).
Lemma col_y_mean j : col j (y_mean g y h) = col j y - meanf g h.
Proof. by apply/colP=> k; rewrite !mxE. Qed.
Lemma col_KVinvY j : col j (KVinvY g y h) = invmx (KV g h) *m (col j y - meanf g h).
Proof. by rewrite /KVinvY -col_y_mean !colE mulmxA. Qed.

Lemma quad_cols : \sum_i \sum_j y_mean g y h i j * KVinvY g y h i j
  = \sum_j ((col j y - meanf g h)^T *m invmx (KV g h) *m (col j y - meanf g h)) 0 0.
Proof.
rewrite exchange_big /=; apply: eq_bigr=> j _.
rewrite -mulmxA -col_KVinvY -col_y_mean [RHS]mxE; apply: eq_bigr=> k _; congr (_ * _); first by rewrite [RHS]mxE [RHS]mxE.
by rewrite [RHS]mxE.
Qed.
Lemma likelihood_gauss : (0 < c)%N ->
  neg_log_likelihood g y h = c%:R^-1 * \sum_j neg_log_gauss (col j y) (meanf g h) (KV g h).
Proof.
move=> c0; rewrite /neg_log_likelihood /log_likelihood quad_cols.
have E j : neg_log_gauss (col j y) (meanf g h) (KV g h) = (1 / 2%:R) *
    (((col j y - meanf g h)^T *m invmx (KV g h) *m (col j y - meanf g h)) 0 0 + (ln (\det (KV g h)) + n%:R * ln (2%:R * PI)%R)).
  by rewrite /neg_log_gauss addrA.
under [in RHS]eq_bigr do rewrite E.
rewrite -mulr_sumr big_split /= sumr_const card_ord -addrA.
set s := \sum_j _; set q := (_ + _ : R).
have cN : (c%:R : R) != 0 by rewrite pnatr_eq0 -lt0n.
rewrite mulNr opprK mulrCA; congr (_ * _).
by rewrite mulrDr -[q *+ c]mulr_natl mulrA mulVf // mul1r mulrC.
Qed.

Variable (i : 'I_p).
Definition contracts :=
  [/\ forall k, partial_at (fun h' => meanf g h' k 0) h i (dmean g h i k 0),
      forall k l, partial_at (fun h' => kern g h' k l) h i (dkern g h i k l) &
      forall k l, partial_at (fun h' => noise_mx (noisef g h') k l) h i (noise_mx (dnoise g h i) k l)].
Lemma gradient_parts (j : 'I_c) : contracts -> 0 < \det (KV g h) -> symmetric (KV g h) ->
  let f m S := neg_log_gauss (col j y) m S in
  exists a b, (dmean g h i = 0 -> a = 0) /\ (dK_dH g h i = 0 -> b = 0) /\ [/\ partial_at (fun h' => f (meanf g h') (KV g h)) h i a,
    partial_at (fun h' => f (meanf g h) (KV g h')) h i b,
    partial_at (fun h' => f (meanf g h') (KV g h')) h i (a + b)%R &
    neg_log_likelihood_gradient g y h j 0 i = (if a == 0 then b else 0) + a].
Proof.
move=> [Cm Ck Cn] P sS f.
have Hm : mxd (fun t => meanf g (with_hp h i t)) (h 0 i) (dmean g h i) by move=> k l; rewrite !ord1; apply: Cm.
have HS : mxd (fun t => KV g (with_hp h i t)) (h 0 i) (dK_dH g h i).
  by apply: mxdD => k l; [apply: Ck|apply: Cn].
have P' : 0 < \det (KV g (with_hp h i (h 0 i))) by rewrite with_hp_id.
have sS' : symmetric (KV g (with_hp h i (h 0 i))) by rewrite with_hp_id.
have D1 := neg_log_gauss_deriv (col j y) Hm HS P' sS'.
have D2 := neg_log_gauss_deriv (col j y) (x := h 0 i) Hm (mxd_const (KV g h) _) P sS.
have D3 := neg_log_gauss_deriv (col j y) (x := h 0 i) (m := fun _ => meanf g h) (mxd_const _ _) HS P' sS'.
rewrite /= with_hp_id in D1 D2 D3.
set b := invmx (KV g h) *m _ in D1 D2 D3.
exists (- ((dmean g h i)^T *m b) 0 0)%R, (- (1 / 2%:R) * ((b^T *m dK_dH g h i *m b) 0 0 - \tr (invmx (KV g h) *m dK_dH g h i)))%R.
have z0 : (0 : 'M[R]_1) 0 0 = 0 by rewrite mxE.
split; first by move=> ->; rewrite trmx0 mul0mx z0 oppr0.
split; first by move=> ->; rewrite !mulmx0 mul0mx z0 mxtrace0 subrr mulr0.
split.
- apply: (dpl_eq D2)=> //; rewrite !mulmx0 mul0mx mxtrace0 [in LHS](_ : (0 : 'M[R]_1) 0 0 = 0) ?mxE // subrr mulr0 subr0 //.
- apply: (dpl_eq D3)=> //; by rewrite trmx0 mul0mx mxE oppr0 sub0r mulNr.
- apply: (dpl_eq D1)=> //; by rewrite mulNr.
rewrite mxE col_KVinvY -/b.
have -> : (- (dmean g h i)^T *m b) 0 0 = - ((dmean g h i)^T *m b) 0 0 by rewrite mulNmx mxE.
congr ((if _ then - _ * (_ - _) else _) + _).
rewrite [RHS]mxE; apply: eq_bigr=> k _.
rewrite [X in _ = X * _]mxE mulr_suml; apply: eq_bigr=> l _.
have -> : (b *m b^T) k l = b k 0 * b l 0 by rewrite mxE big_ord1 !mxE.
by rewrite [X in _ = X * _ * _]mxE -mulrA [RHS]mulrC -[RHS]mulrA [RHS]mulrC.
Qed.
End Grad.
