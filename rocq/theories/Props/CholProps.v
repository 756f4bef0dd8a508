(** Properties C06-C08: factorization updates. *)
From mathcomp Require Import all_ssreflect all_algebra.
From Verif Require Import Model.CholUpdate Spec.CholSpec Proofs.CholP.
Set Implicit Arguments.
Unset Strict Implicit.
Unset Printing Implicit Defensive.
Import Order.TTheory GRing.Theory Num.Theory.
Local Open Scope ring_scope.

(** C06 *)
Theorem chol_update : forall (R : rcfType) n (L : 'M[R]_n) KV p,
  (forall i j, (i < n + p)%N -> (j < n + p)%N -> KV i j = KV j i) ->
  is_chol L (lead KV n) ->
  dim n p = (n + p)%N /\
  (forall L', update_chol L KV p = Some L' ->
     is_chol L' (lead KV (dim n p)) /\
     (forall (i j : 'I_n) (i' j' : 'I_(dim n p)), i' = i :> nat -> j' = j :> nat -> L' i' j' = L i j) /\
     (forall M, is_chol M (lead KV (dim n p)) -> forall i j : 'I_(dim n p), (j <= i)%N -> L' i j = M i j)) /\
  ((exists L', update_chol L KV p = Some L') <-> posdef (lead KV (dim n p))).
Proof. exact: chol_update_l. Qed.
Print Assumptions chol_update.

(** the factor 2 of the matrix (4), extended to [[4,2,2],[2,5,3],[2,3,6]]; the old factor carries
    nothing above its diagonal, the new matrix is positive definite because it is L L^T with
    L = [[2,0,0],[1,2,0],[1,1,2]] *)
Definition exKV (R : rcfType) (i j : nat) : R :=
  (nth 0 (nth [::] [:: [:: 4; 2; 2]; [:: 2; 5; 3]; [:: 2; 3; 6]] i) j)%N%:R.
Definition exL (R : rcfType) : 'M[R]_3 :=
  \matrix_(i, j) (nth 0 (nth [::] [:: [:: 2; 7; 7]; [:: 1; 2; 7]; [:: 1; 1; 2]] i) j)%N%:R.
Example chol_update_ex (R : rcfType) :
  (forall i j, (i < 1 + 2)%N -> (j < 1 + 2)%N -> exKV R i j = exKV R j i) /\
  is_chol (2%:R%:M : 'M[R]_1) (lead (exKV R) 1) /\
  is_chol (exL R) (lead (exKV R) 3) /\
  (exists L', update_chol (2%:R%:M : 'M[R]_1) (exKV R) 2 = Some L' /\ forall i, L' i i = 2%:R).
Proof.
have S : forall i j, (i < 1 + 2)%N -> (j < 1 + 2)%N -> exKV R i j = exKV R j i.
  by move=> [|[|[|i]]] [|[|[|j]]].
have C1 : is_chol (2%:R%:M : 'M[R]_1) (lead (exKV R) 1).
  split=> [i|i j]; rewrite !ord1 ?mxE ?eqxx ?mulr1n ?ltr0n //.
  by rewrite big_mkcond big_ord_recl big_ord0 /= mxE eqxx mulr1n addr0 -natrM.
have C3 : is_chol (exL R) (lead (exKV R) 3).
  split=> [i|i j].
    by rewrite mxE; case: i=> [[|[|[|i]]] Hi] //=; rewrite ltr0n.
  rewrite mxE big_mkcond !big_ord_recl big_ord0 !mxE /exKV.
  case: i=> [[|[|[|i]]] Hi] //=; case: j=> [[|[|[|j]]] Hj] //=;
    by rewrite -?natrM -?natrD ?addr0 ?add0r -?natrD.
split=> //; split=> //; split=> //.
have [_ [H1 [_ H2]]] := chol_update S C1.
have [|L' E] := H2; first by apply/(@chol_posdef _ _ (exL R))/is_cholE.
exists L'; split=> // i; have [_ [_ U]] := H1 _ E.
rewrite (U (exL R)) // mxE; case: i=> [[|[|[|i]]] Hi] //=.
Qed.

(** C07 *)
Theorem block_inverse_update : forall (F : fieldType) n p (A : 'M[F]_n) (k : 'M[F]_(p, n)) (kk : 'M[F]_p),
  A \in unitmx -> A^T = A -> kk^T = kk ->
  ((block_mx A k^T k kk \in unitmx) = (kk - k *m invmx A *m k^T \in unitmx)) /\
  (block_mx A k^T k kk \in unitmx -> update_inv (invmx A) k kk = invmx (block_mx A k^T k kk)).
Proof.
move=> F n p A k kk U S1 S2; split; first exact: schur_unit.
by rewrite schur_unit // => UN; have [_] := update_inv_ok U S1 S2 UN.
Qed.
Print Assumptions block_inverse_update.

Example block_inverse_update_ex :
  let A : 'M[rat]_1 := 2%:R%:M in let k : 'M[rat]_(1, 1) := 1%:M in let kk : 'M[rat]_1 := 3%:R%:M in
  A \in unitmx /\ A^T = A /\ kk^T = kk /\ block_mx A k^T k kk \in unitmx /\
  update_inv (invmx A) k kk (lshift 1 0) (lshift 1 0) = 3%:R / 5%:R.
Proof.
move=> A k kk.
have UA : A \in unitmx by rewrite unitmxE det_scalar1.
have IA : invmx A = (2%:R^-1)%:M by rewrite invmx_scalar.
have SE : kk - k *m invmx A *m k^T = (5%:R / 2%:R)%:M.
  by rewrite IA trmx1 mulmx1 mul1mx -raddfB /=; congr (_%:M).
split=> //; split; first exact: tr_scalar_mx; split; first exact: tr_scalar_mx.
split; first by rewrite schur_unit // SE unitmxE det_scalar1.
rewrite /update_inv block_mxEul SE trmx1 mulmx1 mulmx1 IA invmx_scalar -!scalar_mxM -raddfD /= mxE eqxx mulr1n.
by apply/eqP.
Qed.

(** C08 *)
Theorem logdet_update : forall (F : fieldType) (G : zmodType) (lg : F -> G) n p (A : 'M[F]_n)
    (k : 'M[F]_(p, n)) (kk : 'M[F]_p),
  log_like lg -> A \in unitmx -> block_mx A k^T k kk \in unitmx ->
  update_logdet lg (lg (\det A)) (invmx A) k kk = lg (\det (block_mx A k^T k kk)).
Proof. exact: update_logdet_ok. Qed.
Print Assumptions logdet_update.

Theorem chol_logdet_is_logdet : forall (R : rcfType) (G : zmodType) (lg : R -> G) n (L A : 'M[R]_n),
  log_like lg -> is_chol L A -> chol_logdet lg L = lg `|\det A|.
Proof. exact: chol_logdet_l. Qed.
Print Assumptions chol_logdet_is_logdet.

(** a logarithm on the rationals: the 2-adic valuation, with values in the integers *)
Definition val2 (q : rat) : int := (logn 2 `|numq q|)%:Z - (logn 2 `|denq q|)%:Z.
Example logdet_update_ex :
  log_like val2 /\
  let A : 'M[rat]_1 := 2%:R%:M in let k : 'M[rat]_(1, 1) := 2%:R%:M in let kk : 'M[rat]_1 := 6%:R%:M in
  A \in unitmx /\ block_mx A k^T k kk \in unitmx /\ update_logdet val2 (val2 (\det A)) (invmx A) k kk = 3%:Z.
Proof.
split.
  move=> a b a0 b0; rewrite /val2.
  have na : numq a != 0 by rewrite numq_eq0. have nb : numq b != 0 by rewrite numq_eq0.
  have E : numq (a * b) * (denq a * denq b) = numq a * numq b * denq (a * b).
    apply/eqP; rewrite -(eqr_int rat_numDomainType) !rmorphM /=.
    rewrite [X in X * (_ * _)]numqE [(numq a)%:~R]numqE [(numq b)%:~R]numqE.
    by apply/eqP; rewrite [a * (denq a)%:~R * _]mulrACA [LHS]mulrAC.
  have nab : numq (a * b) != 0 by rewrite numq_eq0 mulf_neq0.
  have := congr1 (fun z : int => logn 2 `|z|) E.
  rewrite !abszM !lognM ?muln_gt0 ?absz_gt0 ?na ?nb ?nab ?denq_neq0 // => H.
  apply/eqP; rewrite addrACA -opprD -!PoszD subr_eq addrAC eq_sym subr_eq -!PoszD; apply/eqP.
  by congr Posz.
move=> A k kk.
have UA : A \in unitmx by rewrite unitmxE det_scalar1.
have IA : invmx A = (2%:R^-1)%:M by rewrite invmx_scalar.
have SE : kk - k *m invmx A *m k^T = 4%:R%:M.
  by rewrite IA tr_scalar_mx -!scalar_mxM -raddfB /=; congr (_%:M).
split=> //; split; first by rewrite schur_unit // SE unitmxE det_scalar1.
by rewrite /update_logdet SE !det_scalar1.
Qed.

(** Beyond C08: solving with the factor solves the factored system, and the inverse computed from the
    factor is the inverse.  Only the lower triangle of the stored factor is used. *)
Theorem chol_solve_solves : forall (R : rcfType) n m (L A : 'M[R]_n) (b : 'M[R]_(n, m)), is_chol L A ->
  A *m chol_solve L b = b /\ A \in unitmx /\ inv_from_chol L = invmx A.
Proof. exact: chol_solve_l. Qed.
Print Assumptions chol_solve_solves.
