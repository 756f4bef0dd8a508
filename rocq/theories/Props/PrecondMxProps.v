(** Properties C61 and C62: the native preconditioners are usable operators. *)
From mathcomp Require Import all_ssreflect all_algebra.
From Verif Require Import Model.CholUpdate Spec.CholSpec Proofs.CholP Model.PrecondMx Proofs.PrecondMxP.
Set Implicit Arguments.
Unset Strict Implicit.
Unset Printing Implicit Defensive.
Import Order.TTheory GRing.Theory Num.Theory.
Local Open Scope ring_scope.

(** C61: block Jacobi and additive Schwarz.  [blocks] are (size, indices, shift); a block enters the
    operator only after its shifted local matrix was factorized, i.e. is positive definite. *)
Record blk (R : rcfType) n := Blk { bk : nat; bidx : 'I_bk -> 'I_n; bshift : R }.
Definition local_models (R : rcfType) n (A : 'M[R]_n) (blocks : seq (blk R n)) : seq (local R n) :=
  [seq block_of A (bshift b) (@bidx R n b) | b <- blocks].
Definition local_matrix (R : rcfType) n (A : 'M[R]_n) (b : blk R n) : 'M[R]_(bk b) :=
  \matrix_(i, j) A (bidx i) (bidx j) + (bshift b)%:M.

Theorem block_preconditioner_spd : forall (R : rcfType) n (A : 'M[R]_n) (blocks : seq (blk R n)), A^T = A ->
  (forall b, List.In b blocks -> injective (@bidx R n b) /\ posdef (local_matrix A b)) ->
  let M := block_matvec (local_models A blocks) in
  (forall a x y, M (a *: x + y) = a *: M x + M y) /\
  (forall x y, (y^T *m M x) 0 0 = (x^T *m M y) 0 0) /\
  ((forall j : 'I_n, exists b, List.In b blocks /\ exists i : 'I_(bk b), bidx i = j) ->
   forall x, x != 0 -> 0 < (x^T *m M x) 0 0) /\
  (forall bs1 b bs2, blocks = bs1 ++ b :: bs2 ->
     (forall b', List.In b' (bs1 ++ bs2) -> forall (i : 'I_(bk b)) (i' : 'I_(bk b')), bidx i != bidx i') ->
     forall x, local_matrix A b *m (\col_i M x (bidx i) 0) = \col_i x (bidx i) 0).
Proof.
  move=> R n A blocks HA Hb M.
  have Hin m : List.In m (local_models A blocks) -> exists b, List.In b blocks /\ m = block_of A (bshift b) (@bidx R n b).
    by move=> /List.in_map_iff[b [<- H]]; exists b.
  have Hok m : List.In m (local_models A blocks) -> local_ok m.
    move=> /Hin[b [H ->]]. have [Hi Hp] := Hb b H. split=> //. split=> //. rewrite /symm /=. apply/matrixP=> i j.
    rewrite !mxE [in RHS]eq_sym. congr (_ + _). by rewrite -[in LHS]HA mxE.
  have [L1 [L2 L3]] := block_spd_l Hok. split=> //. split=> //. split.
    move=> Hc. apply: L3 => j. have [b [H [i Ei]]] := Hc j. exists (block_of A (bshift b) (@bidx R n b)).
    split; last by exists i. exact: (List.in_map (fun b : blk R n => block_of A (bshift b) (@bidx R n b)) _ _ H).
  move=> bs1 b bs2 E Hd x. move: Hok. rewrite /M /local_models E map_cat /= => Hok.
  apply: (@block_jacobi_l R n _ _ (block_of A (bshift b) (@bidx R n b)) x Hok) => m'.
  rewrite -map_cat => /List.in_map_iff[b' [<- Hb']] i i'. exact: Hd.
Qed.
Print Assumptions block_preconditioner_spd.

(** [[2,1],[1,3]] with one-element blocks: the operator is division by the diagonal *)
Definition ex1 (R : rcfType) (j : 'I_2) : blk R 2 := @Blk R 2 1 (fun _ => j) 0.
Definition exA2 (R : rcfType) : 'M[R]_2 := \matrix_(i, j) (if i == j then (i + 2)%:R else 1).
Example block_preconditioner_ex (R : rcfType) :
  let blocks := [:: ex1 R 0; ex1 R 1] in
  (forall b, List.In b blocks -> injective (@bidx R 2 b) /\ posdef (local_matrix (exA2 R) b)) /\
  block_matvec (local_models (exA2 R) blocks) (\col_j (j + 2)%:R) = \col_j 1.
Proof.
have H : forall b, List.In b [:: ex1 R 0; ex1 R 1] -> injective (@bidx R 2 b) /\ posdef (local_matrix (exA2 R) b).
  move=> b [<-|[<-|[]]]; (split; first by move=> i j _; rewrite !ord1); move=> x Hx;
    (have Hx0 : x 0 0 != 0 by apply: contra Hx => /eqP E; apply/eqP/matrixP => i j; rewrite !ord1 E mxE);
    rewrite mxE big_ord_recl big_ord0 addr0 mxE big_ord_recl big_ord0 addr0 !mxE /= mul0rn addr0 mulrAC;
    by apply: mulr_gt0; rewrite ?ltr0n // -expr2 exprn_even_gt0 //= Hx0.
have HS : (exA2 R)^T = exA2 R by apply/matrixP=> i j; rewrite !mxE eq_sym; case: eqP => [->|].
have [_ [_ [_ HJ]]] := block_preconditioner_spd HS H.
split=> //. apply/matrixP=> j k. rewrite ord1 [RHS]mxE.
have HM (b : 'I_2) bs1 bs2 : [:: ex1 R 0; ex1 R 1] = bs1 ++ ex1 R b :: bs2 ->
  (forall b', List.In b' (bs1 ++ bs2) -> forall (i : 'I_1) (i' : 'I_(bk b')), b != bidx i') ->
  block_matvec (local_models (exA2 R) [:: ex1 R 0; ex1 R 1]) (\col_j (j + 2)%:R) b 0 = 1.
  move=> E Hd. have := HJ bs1 (ex1 R b) bs2 E Hd (\col_j (j + 2)%:R).
  move=> /(congr1 (fun X : 'cV_1 => X 0 0)). rewrite mxE big_ord_recl big_ord0 addr0 !mxE /= eqxx mul0rn addr0.
  rewrite -[RHS]mulr1. apply: mulfI. by rewrite pnatr_eq0 addn2.
case: j => [[|[|j]] Hj] //.
- rewrite (_ : Ordinal Hj = 0); last exact: val_inj. apply: (HM 0 [::] [:: ex1 R 1]) => // b' [<-|[]] i i'. by [].
- rewrite (_ : Ordinal Hj = 1); last exact: val_inj. apply: (HM 1 [:: ex1 R 0] [::]) => // b' [<-|[]] i i'. by [].
Qed.

(** C62: incomplete Cholesky.  [lower i] is row i of the lower triangle of the (shifted) symmetric
    matrix in CSR form without repeated columns. *)
Theorem incomplete_cholesky : forall (R : rcfType) n (lower : nat -> seq (nat * R)) f,
  (forall i, uniq [seq p.1 | p <- lower i]) -> ic0 n lower = Some f ->
  let L := ic_matrix n f in
  (forall i, 0 < L i i) /\ (forall i j : 'I_n, (i < j)%N -> L i j = 0) /\
  (forall i j : 'I_n, (j < i)%N -> (j : nat) \notin [seq p.1 | p <- lower i] -> L i j = 0) /\
  (forall (i j : 'I_n) v, (j <= i)%N -> ((j : nat), v) \in lower i -> (L *m L^T) i j = v) /\
  (forall v, L *m L^T *m ic_apply L v = v) /\
  (forall v w, (w^T *m ic_apply L v) 0 0 = (v^T *m ic_apply L w) 0 0) /\
  (forall v, v != 0 -> 0 < (v^T *m ic_apply L v) 0 0).
Proof.
  move=> R n lower f Hu E L. have [H1 H2 H3 H4] := ic0_l Hu E. have [H5 [H6 H7]] := ic_spd Hu E.
  by do 6 (split=> //).
Qed.
Print Assumptions incomplete_cholesky.

(** the arrow matrix [[4,2,2],[2,5,0],[2,0,5]] (entry (2,1) not stored): the fill-in at (2,1) is dropped *)
Definition exlower (R : rcfType) (i : nat) : seq (nat * R) :=
  nth [::] [:: [:: (0%N, 4%:R)]; [:: (0%N, 2%:R); (1%N, 5%:R)]; [:: (0%N, 2%:R); (2%N, 5%:R)]] i.
Example incomplete_cholesky_ex (R : rcfType) :
  ic0 3 (exlower R) = Some ([:: [::]; [:: (0%N, 1)]; [:: (0%N, 1)]], [:: 2%:R; 2%:R; 2%:R]).
Proof.
have S4 : Num.sqrt (4%:R : R) = 2%:R by rewrite (_ : 4%:R = 2%:R ^+ 2) ?sqrtr_sqr ?ger0_norm ?ler0n // -natrX.
rewrite /= /ic_row /= big_nil subr0 (lern0 R) /= S4 /=.
rewrite /coupling /= !big_nil !subr0 divff ?pnatr_eq0 // !big_cons !big_nil /= !addr0 mulr1.
rewrite (_ : 5%:R - 1 = 4%:R :> R) ?(lern0 R) /= ?S4 //; last by rewrite (natrD _ 4 1) addrK.
rewrite !big_nil !subr0 divff ?pnatr_eq0 // !big_cons !big_nil /= !addr0 mulr1.
by rewrite (_ : 5%:R - 1 = 4%:R :> R) ?(lern0 R) /= ?S4 //; rewrite (natrD _ 4 1) addrK.
Qed.
