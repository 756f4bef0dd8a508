(** Properties C161, C162: the sparse approximate inverse. *)
From mathcomp Require Import all_ssreflect all_algebra.
From Verif Require Import Model.Spai Spec.SpaiSpec Proofs.SpaiP.
Set Implicit Arguments.
Unset Strict Implicit.
Unset Printing Implicit Defensive.
Import Order.TTheory GRing.Theory Num.Theory.
Local Open Scope ring_scope.

(** C161: a step never increases the residual, for any matrix; for a symmetric positive definite matrix every number of steps
    succeeds, gives a symmetric matrix that commutes with A, and the residual decreases at least geometrically, so that the
    result tends to the inverse. *)
Theorem spai_converges :
  (forall (R : realFieldType) n (A M M' : 'M[R]_n) est k m, spai A est k = Some M -> spai A est (k + m) = Some M' -> residual A M' <= residual A M) /\
  (forall (R : realFieldType) n (A : 'M[R]_n) c C est, A^T = A -> well_posed A c C ->
    ((0 < n)%N -> 0 <= 1 - c ^+ 2 / C < 1) /\ A \in unitmx /\
    forall m, exists M, spai A est m = Some M /\ M^T = M /\ A *m M = M *m A /\
      residual A M <= (1 - c ^+ 2 / C) ^+ m * residual A ((2%:R / est) *: A) /\
      c ^+ 2 * sqnorm (invmx A - M) <= residual A M).
Proof.
split=> [R n A M M' est k m|R n A c C est AT W].
  by rewrite /spai loop_cat => -> /=; apply: loop_decrease.
split; last first.
  split; first exact: wp_unit W.
  move=> m; have [M E L] := loop_rate W m (spai_start A est); exists M; split=> //.
  have [MT MC] : friendly A M by apply: friendly_loop E => //; apply: friendly_start.
  by split=> //; split=> //; split=> //; apply: inverse_distance W M.
move=> n0; have [c0 _] := W.
have c2 : 0 < c ^+ 2 by rewrite exprn_gt0.
have N1 : 0 < dot (1%:M : 'M[R]_n) 1%:M by rewrite /dot trmx1 mul1mx mxtrace1 ltr0n.
have L : c ^+ 2 <= C by rewrite -(ler_pmul2r N1); apply: le_trans (wp_sq W _) (wp_up W _).
have Cpos := lt_le_trans c2 L.
by rewrite subr_ge0 ler_pdivr_mulr // mul1r L /= ltr_subl_addr ltr_addl divr_gt0.
Qed.
Print Assumptions spai_converges.

(** C162, what is true: the start is positive definite, and so is every result whose residual is below (c^2 / C)^2. *)
Theorem spai_positive_partial : forall (R : realFieldType) n (A : 'M[R]_n) c C est, well_posed A c C -> 0 < est ->
  (forall x, x != 0 -> exists2 M, spai A est 0 = Some M & 0 < qform M x) /\
  (forall m M, spai A est m = Some M -> residual A M * C ^+ 2 < c ^+ 4 -> forall x, x != 0 -> 0 < qform M x).
Proof.
move=> R n A c C est W e0; split=> [x x0|m M _ close x x0]; last exact: (positive_when_close W close x0).
exists (spai_start A est) => //; have [c0 [low _]] := W.
have p : 0 < qform A x by apply: lt_le_trans (low x); rewrite mulr_gt0 // sqlen_gt0.
have -> : qform (spai_start A est) x = 2%:R / est * qform A x.
  rewrite /qform big_distrr; apply: eq_bigr => i _; rewrite big_distrr; apply: eq_bigr => j _.
  by rewrite mxE /= mulrCA !mulrA.
by rewrite mulr_gt0 // divr_gt0 // ltr0n.
Qed.
Print Assumptions spai_positive_partial.

(** diagonal matrices: ten ones and a five *)
Definition ex_d : 'rV[rat]_11 := \row_j (if (j < 10)%N then 1 else 5%:R).
Definition ex_A : 'M[rat]_11 := diag_mx ex_d.
Lemma sum11 (u v : rat) : \sum_(j < 11) (if (j < 10)%N then u else v) = u *+ 10 + v.
Proof.
rewrite big_ord_recr /=; congr (_ + _).
by rewrite (eq_bigr (fun _ => u)) ?sumr_const ?card_ord // => i _; rewrite ltn_ord.
Qed.
Lemma dot_diag (d e : 'rV[rat]_11) : dot (diag_mx d) (diag_mx e) = \sum_j d 0 j * e 0 j.
Proof. by rewrite /dot tr_diag_mx mulmx_diag mxtrace_diag; apply: eq_bigr => j _; rewrite mxE. Qed.
Definition two (u v : rat) : 'rV[rat]_11 := \row_j (if (j < 10)%N then u else v).
Lemma two_mul u v u' v' : diag_mx (two u v) *m diag_mx (two u' v') = diag_mx (two (u * u') (v * v')).
Proof. by rewrite mulmx_diag; congr diag_mx; apply/matrixP => i j; rewrite !mxE; case: ifP. Qed.
Lemma two_lin a u v u' v' : diag_mx (two u v) + a *: diag_mx (two u' v') = diag_mx (two (u + a * u') (v + a * v')).
Proof. by apply/matrixP => i j; rewrite !mxE; case: ifP => _; case: (i == j); rewrite ?mulr1n ?mulr0n ?mulr0 ?addr0. Qed.
Lemma two_scale a u v : a *: diag_mx (two u v) = diag_mx (two (a * u) (a * v)).
Proof. by apply/matrixP => i j; rewrite !mxE; case: ifP => _; case: (i == j); rewrite ?mulr1n ?mulr0n ?mulr0. Qed.
Lemma two_dot u v u' v' : dot (diag_mx (two u v)) (diag_mx (two u' v')) = (u * u') *+ 10 + v * v'.
Proof. by rewrite dot_diag -sum11; apply: eq_bigr => j _; rewrite !mxE; case: ifP. Qed.
Lemma two_one : 1%:M = diag_mx (two 1 1) :> 'M[rat]_11.
Proof. by apply/matrixP => i j; rewrite !mxE; case: ifP => _; case: (i == j). Qed.
Lemma two_zero u v : (diag_mx (two u v) == 0 :> 'M[rat]_11) = (u == 0) && (v == 0).
Proof.
apply/eqP/andP => [/matrixP H|[/eqP -> /eqP ->]].
  by have := H ord0 ord0; have := H ord_max ord_max; rewrite !mxE /= !mulr1n => -> ->.
by apply/matrixP => i j; rewrite !mxE; case: ifP => _; rewrite mul0rn.
Qed.
Lemma two_qform u v (x : 'cV[rat]_11) : qform (diag_mx (two u v)) x = \sum_i (two u v) 0 i * x i 0 ^+ 2.
Proof.
rewrite /qform; apply: eq_bigr => i _; rewrite (bigD1 i) //= big1 ?addr0; last first.
  by move=> j ji; rewrite mxE eq_sym (negbTE ji) mulr0n mulr0 mul0r.
by rewrite mxE eqxx mulr1n mulrAC mulrC expr2.
Qed.
Lemma two_last u v : qform (diag_mx (two u v)) (\col_i (i == ord_max)%:R) = v.
Proof.
rewrite two_qform (bigD1 ord_max) // big1 ?addr0; last by move=> i; rewrite !mxE => /negbTE ->; rewrite expr0n mulr0.
by rewrite !mxE eqxx expr1n mulr1; apply: addr0.
Qed.
Lemma ex_well : well_posed ex_A 1 25%:R.
Proof.
split=> //; split=> x.
  rewrite mul1r /ex_A -/(two 1 5%:R) two_qform /sqlen; apply: ler_sum => i _.
  by rewrite ler_pemull ?sqr_ge0 // mxE; case: ifP.
rewrite /sqlen big_distrr /=; apply: ler_sum => i _; rewrite /ex_A mul_diag_mx !mxE exprMn ler_wpmul2r ?sqr_ge0 //.
by case: ifP.
Qed.
Lemma ex_arith (R : realFieldType) (g t : R) : g = 1 - 2%:R / 25%:R -> t = g * g *+ 10 ->
  0 < t + 25%:R /\ 2%:R / 25%:R * 5%:R + (t + 5%:R) / (t + 25%:R) * -1 < 0.
Proof.
have p k : (0 < k.+1%:R :> R) by rewrite ltr0Sn.
have nz k : k.+1%:R != 0 :> R by rewrite pnatr_eq0.
move=> Eg Et.
have D : 0 < t + 25%:R by rewrite Et; apply: ltr_paddl => //; apply: mulrn_wge0; rewrite -expr2; apply: sqr_ge0.
split=> //.
have G : g = 23%:R / 25%:R.
  by rewrite Eg -[X in X - _](@mulfV _ (25%:R : R)) // -mulrBl -natrB.
have T : 25%:R < t *+ 3.
  rewrite Et G mulf_div -mulrnA -mulrnAl ltr_pdivl_mulr ?mulr_gt0 //.
  by rewrite -!natrM -mulrnA ltr_nat.
rewrite mulrN1 subr_lt0 ltr_pdivl_mulr //.
have -> : 2%:R / 25%:R * 5%:R = 2%:R / 5%:R :> R.
  by rewrite (natrM _ 5 5) invfM mulrA mulfVK.
rewrite mulrAC ltr_pdivr_mulr // mulrDr [_ * 5%:R]mulrDl -!natrM (natrD _ 25 25) addrA ltr_add2r.
have -> : t * 5%:R = 2%:R * t + t *+ 3 by rewrite mulr_natr mulr_natl -mulrnDr.
by rewrite ltr_add2l.
Qed.
(** C162 is false: symmetric, positive definite, the exact one-norm 25 of A A^T; after one step the result has a negative direction *)
Theorem spai_positive_refuted : exists (A M : 'M[rat]_11) x, A^T = A /\ well_posed A 1 25%:R /\
  (forall j, \sum_i `|(A *m A^T) i j| <= 25%:R) /\ (exists j, \sum_i `|(A *m A^T) i j| = 25%:R) /\
  spai A 25%:R 1 = Some M /\ qform M x < 0.
Proof.
have EA : ex_A = diag_mx (two 1 5%:R) by [].
have AT : ex_A^T = ex_A by rewrite tr_diag_mx.
have AA j : \sum_i `|(ex_A *m ex_A^T) i j| = (two 1 25%:R) 0 j.
  rewrite AT EA two_mul (bigD1 j) //= big1 ?addr0; last by move=> i ij; rewrite mxE (negbTE ij) mulr0n normr0.
  by rewrite !mxE eqxx mulr1n; case: ifP.
have [g Eg] : exists g : rat, g = 1 - 2%:R / 25%:R by eexists.
have [t Et] : exists t : rat, t = g * g *+ 10 by eexists.
have [D V] := ex_arith Eg Et.
have S : spai ex_A 25%:R 1 = Some (diag_mx (two (2%:R / 25%:R * 1 + (t + 5%:R) / (t + 25%:R) * g) (2%:R / 25%:R * 5%:R + (t + 5%:R) / (t + 25%:R) * -1))).
  rewrite /spai [spai_loop _ _ _]/= /spai_start EA two_scale /spai_step /gap.
  have -> : 1%:M - diag_mx (two 1 5%:R) *m diag_mx (two (2%:R / 25%:R * 1) (2%:R / 25%:R * 5%:R)) = diag_mx (two g (-1)).
    rewrite two_mul two_one -scaleN1r two_lin !mulN1r mulr1 mul1r -Eg.
    by have -> : 1 - 5%:R * (2%:R / 25%:R * 5%:R) = -1 :> rat by exact/eqP.
  rewrite two_mul !two_dot [1 * g]mul1r -Et.
  have -> : -1 * (5%:R * -1) = 5%:R :> rat by exact/eqP.
  have -> : 5%:R * -1 * (5%:R * -1) = 25%:R :> rat by exact/eqP.
  have -> : (t + 25%:R == 0) = false by rewrite gt_eqF.
  by rewrite two_lin.
exists ex_A; eexists; exists (\col_i (i == ord_max)%:R); split; first exact: AT.
split; first exact: ex_well.
split; first by move=> j; rewrite AA mxE; case: ifP => _; rewrite ?ler1n ?lexx.
split; first by exists ord_max; rewrite AA mxE.
split; first exact: S.
by rewrite two_last.
Qed.
Print Assumptions spai_positive_refuted.

(** the same matrix satisfies the premises of the convergence theorem; the factor is 24/25 *)
Example spai_converges_ex : ex_A^T = ex_A /\ well_posed ex_A 1 25%:R /\ (0 : rat) < 1 - 1 ^+ 2 / 25%:R.
Proof. by split; [rewrite tr_diag_mx|split; [exact: ex_well|]]. Qed.
