(** C215: a block product is the product of the matrix with the block, whichever methods the operator offers. *)
From mathcomp Require Import all_ssreflect all_algebra.
From Verif Require Import Model.LinOp.
Set Implicit Arguments.
Unset Strict Implicit.
Unset Printing Implicit Defensive.
Import GRing.Theory.
Local Open Scope ring_scope.

Section Props.
Variable F : ringType.
Variable n : nat.

Lemma products_all (op : operator F n) cs g : (forall c, c \in cs -> matvec op c = Some (g c)) -> products op cs = Some (map g cs).
Proof.
elim: cs => [|c r IH] //= H. rewrite (H c) ?mem_head // IH // => d D. by apply: H; rewrite in_cons D orbT.
Qed.
Lemma products_none (op : operator F n) cs c : c \in cs -> matvec op c = None -> products op cs = None.
Proof.
elim: cs => [|d r IH] //=. rewrite in_cons => /orP [/eqP <- -> //|I N].
case: (matvec op d) => // p. by rewrite (IH I N).
Qed.
Lemma by_columns_is (op : operator F n) (A : 'M[F]_n) k (X : 'M[F]_(n, k)) :
  (forall j, matvec op (col j X) = Some (A *m col j X)) -> by_columns op X = Some (A *m X).
Proof.
move=> H. rewrite /by_columns (@products_all _ _ (mulmx A)); last by move=> c /mapP [j _ ->].
rewrite /=; congr Some; apply/matrixP => i j. rewrite mxE -map_comp (nth_map j) ?size_enum_ord //= nth_ord_enum.
rewrite !mxE; apply: eq_bigr => l _; by rewrite mxE.
Qed.

(** an operator that stands for a matrix: products with vectors are right, and so is each block product that does not raise *)
Theorem block_product (op : operator F n) (A : 'M[F]_n) :
  (forall v, matvec op v = Some (A *m v)) ->
  (forall f k X Y, matmat op = Some f -> f k X = Some Y -> Y = A *m X) ->
  forall k (X : 'M[F]_(n, k)),
    apply_linear_operator op X = Some (A *m X) /\
    apply_preconditioner (Some op) X = Some (A *m X) /\ apply_preconditioner None X = Some X.
Proof.
move=> V B k X. suff E : apply_linear_operator op X = Some (A *m X) by rewrite /apply_preconditioner E.
rewrite /apply_linear_operator. case: eqP => [Z|_].
  congr Some; apply/matrixP => i j. move: Z => /eqP; rewrite muln_eq0 => /orP [] /eqP Z.
    by move: (ltn_ord i); rewrite {2}Z.
  by move: (ltn_ord j); rewrite {2}Z.
case Em: (matmat op) => [f|]; last exact: by_columns_is.
case Ef: (f k X) => [Y|]; last exact: by_columns_is.
by rewrite (B _ _ _ _ Em Ef).
Qed.

(** a failure is reported exactly if the block is not empty, no block product came back, and some column has no product *)
Theorem block_product_fails (op : operator F n) k (X : 'M[F]_(n, k)) :
  apply_linear_operator op X = None <->
  (0 < n)%N /\ (forall f, matmat op = Some f -> f k X = None) /\ exists j, matvec op (col j X) = None.
Proof.
have C : by_columns op X = None <-> exists j, matvec op (col j X) = None.
  split=> [|[j N]]; last first.
    by rewrite /by_columns (@products_none _ _ (col j X)) //; apply: map_f; rewrite mem_enum.
  move=> E. case: (pickP (fun j => matvec op (col j X) == None)) => [j /eqP ?|A]; first by exists j.
  move: E. rewrite /by_columns (@products_all _ _ (fun c => odflt 0 (matvec op c))) // => c /mapP [j _ ->].
  by move: (A j); case: (matvec op _).
rewrite /apply_linear_operator. case: eqP => [/eqP Z|/eqP Z].
  split=> // [[n0 [_ [j _]]]]. move: Z; rewrite muln_eq0 => /orP [] /eqP Z; first by rewrite Z in n0.
  by move: (ltn_ord j); rewrite {2}Z.
have n0 : (0 < n)%N by move: Z; rewrite muln_eq0 negb_or -!lt0n => /andP [].
case Em: (matmat op) => [f|]; last by rewrite C; split=> [H|[_ [_ H]]] //; split=> //; split.
case Ef: (f k X) => [Y|]; last by rewrite C; split=> [H|[_ [_ H]]] //; split=> //; split=> // g [<-].
by split=> // [[_ [H _]]]; rewrite (H f erefl) in Ef.
Qed.
End Props.
Print Assumptions block_product.
Print Assumptions block_product_fails.

(** a diagonal operator whose block method always raises *)
Example block_product_ex :
  let op := Operator (Some (fun k (_ : 'M[int]_(2, k)) => None)) (fun v : 'cV[int]_2 => Some (3%:M *m v)) in
  apply_linear_operator op (const_mx 2 : 'M[int]_(2, 2)) = Some (const_mx 6).
Proof.
rewrite /=; set op := Operator _ _.
have V v : matvec op v = Some (3%:M *m v) by [].
have B f k X Y : matmat op = Some f -> f k X = Some Y -> Y = 3%:M *m X by case=> <-.
have [-> _] := block_product V B (const_mx 2 : 'M[int]_(2, 2)).
by congr Some; apply/matrixP => i j; rewrite mul_scalar_mx !mxE.
Qed.
(** without a block method and with a product that refuses vectors starting with 0, the second column fails *)
Example block_product_fails_ex :
  let op := Operator None (fun v : 'cV[int]_1 => if v 0 0 == 0 then None else Some v) in
  apply_linear_operator op (\row_j (1 - j%:Z) : 'M[int]_(1, 2)) = None.
Proof.
rewrite /=; apply/block_product_fails; split=> //; split=> //. by exists (lift 0 0); rewrite /= !mxE.
Qed.
