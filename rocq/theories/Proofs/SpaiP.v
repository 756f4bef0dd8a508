(** Lemmas for the sparse approximate inverse. *)
From mathcomp Require Import all_ssreflect all_algebra.
From mathcomp Require Import zify.
From Verif Require Import Model.Spai Spec.SpaiSpec.
Set Implicit Arguments.
Unset Strict Implicit.
Unset Printing Implicit Defensive.
Import Order.TTheory GRing.Theory Num.Theory.
Local Open Scope ring_scope.

Section P.
Variables (R : realFieldType) (n : nat).
Implicit Types A M G X Y : 'M[R]_n.
Lemma dotE X Y : dot X Y = \sum_j \sum_i X i j * Y i j.
Proof. by rewrite /dot /mxtrace; apply: eq_bigr => j _; rewrite mxE; apply: eq_bigr => i _; rewrite mxE. Qed.
Lemma dot_sq X : dot X X = sqnorm X.
Proof. by rewrite dotE /sqnorm exchange_big /=; apply: eq_bigr => j _; apply: eq_bigr => i _; rewrite expr2. Qed.
Lemma dotC X Y : dot X Y = dot Y X.
Proof. by rewrite !dotE; apply: eq_bigr => j _; apply: eq_bigr => i _; rewrite mulrC. Qed.
Lemma dotBl X Y Z : dot (X - Y) Z = dot X Z - dot Y Z.
Proof. by rewrite /dot linearB /= mulmxBl linearB. Qed.
Lemma dotBr X Y Z : dot Z (X - Y) = dot Z X - dot Z Y.
Proof. by rewrite dotC dotBl !(dotC Z). Qed.
Lemma dotZl a X Y : dot (a *: X) Y = a * dot X Y.
Proof. by rewrite /dot linearZ /= -scalemxAl linearZ. Qed.
Lemma dotZr a X Y : dot X (a *: Y) = a * dot X Y.
Proof. by rewrite dotC dotZl dotC. Qed.
Lemma sqnorm_ge0 X : 0 <= sqnorm X.
Proof. by apply: sumr_ge0 => i _; apply: sumr_ge0 => j _; apply: sqr_ge0. Qed.
Lemma sqnorm0 X : sqnorm X = 0 -> X = 0.
Proof.
move=> /eqP; rewrite /sqnorm psumr_eq0 => [/allP H|i _]; last by apply: sumr_ge0 => j _; apply: sqr_ge0.
apply/matrixP=> i j; have := H i (mem_index_enum i); rewrite /= psumr_eq0 => [/allP K|k _]; last exact: sqr_ge0.
by have := K j (mem_index_enum j); rewrite /= sqrf_eq0 mxE => /eqP.
Qed.
Lemma sqnorm_0 : sqnorm (0 : 'M[R]_n) = 0.
Proof. by apply: big1 => i _; apply: big1 => j _; rewrite mxE expr0n. Qed.
Lemma sqnormN X : sqnorm (- X) = sqnorm X.
Proof. by apply: eq_bigr => i _; apply: eq_bigr => j _; rewrite mxE sqrrN. Qed.
Lemma gap_residual A M : dot (gap A M) (gap A M) = residual A M.
Proof. by rewrite dot_sq /residual -sqnormN opprB. Qed.

(** the new gap *)
Lemma gap_step A M a : gap A (M + a *: gap A M) = gap A M - a *: (A *m gap A M).
Proof. by rewrite {1}/gap mulmxDr -scalemxAr opprD addrA. Qed.
(** one step takes off the projection *)
Lemma step_residual A M M' : spai_step A M = Some M' ->
  let G := gap A M in let AG := A *m G in
  (M' = M /\ G = 0) \/ (dot AG AG != 0 /\ residual A M' = residual A M - dot G AG ^+ 2 / dot AG AG).
Proof.
rewrite /spai_step /=; set G := gap A M; set AG := A *m G.
case: eqP => [d0|/eqP dn0]; first by case: eqP => // G0 [<-]; left.
move=> [<-]; right; split=> //.
rewrite -!gap_residual gap_step -/G -/AG; set a := _ / _.
clearbody AG; clearbody G.
rewrite !(dotBl, dotBr, dotZl, dotZr) (dotC AG G).
rewrite /a; set t := dot G AG; set d := dot AG AG; set g := dot G G.
by rewrite divfK // subrr mulr0 subr0 expr2 mulrAC.
Qed.
Lemma step_decrease A M M' : spai_step A M = Some M' -> residual A M' <= residual A M.
Proof.
move=> /step_residual /= [[-> //]|[d0 ->]].
by rewrite ler_subl_addr ler_addl divr_ge0 ?sqr_ge0 // dot_sq sqnorm_ge0.
Qed.
Lemma loop_decrease A m : forall M M', spai_loop A m M = Some M' -> residual A M' <= residual A M.
Proof.
elim: m => [|m IH] M M' /=; first by case=> ->.
by case E: (spai_step A M) => [M1|] // /IH H; apply: (le_trans H); apply: step_decrease E.
Qed.
Lemma loop_cat A k m M : spai_loop A (k + m) M = obind (spai_loop A m) (spai_loop A k M).
Proof. by elim: k M => [|k IH] M //=; case: (spai_step A M) => //= M1; apply: IH. Qed.

(** columns *)
Lemma dot_cols X Y : dot X Y = \sum_j \sum_i (col j X) i 0 * (col j Y) i 0.
Proof. by rewrite dotE; apply: eq_bigr => j _; apply: eq_bigr => i _; rewrite !mxE. Qed.
Lemma sqlen_col X : \sum_j sqlen (col j X) = dot X X.
Proof. by rewrite dot_cols; apply: eq_bigr => j _; apply: eq_bigr => i _; rewrite expr2. Qed.
Lemma col_mul A X j : col j (A *m X) = A *m col j X.
Proof. by rewrite colE -mulmxA -colE. Qed.
Lemma qform_col A X : \sum_j qform A (col j X) = dot X (A *m X).
Proof.
rewrite dot_cols; apply: eq_bigr => j _; apply: eq_bigr => i _; rewrite col_mul [(A *m _) _ _]mxE big_distrr /=.
by apply: eq_bigr => k _; rewrite mulrA.
Qed.
Section W.
Variables (A : 'M[R]_n) (c C : R).
Hypothesis W : well_posed A c C.
Lemma wp_low X : c * dot X X <= dot X (A *m X).
Proof. by rewrite -sqlen_col -qform_col big_distrr /=; apply: ler_sum => j _; case: W => _ []. Qed.
Lemma wp_up X : dot (A *m X) (A *m X) <= C * dot X X.
Proof. by rewrite -!sqlen_col big_distrr /=; apply: ler_sum => j _; rewrite col_mul; case: W => _ []. Qed.
Lemma wp_sq X : c ^+ 2 * dot X X <= dot (A *m X) (A *m X).
Proof.
have [c0 _] := W.
have : 0 <= dot (A *m X - c *: X) (A *m X - c *: X) by rewrite dot_sq sqnorm_ge0.
rewrite !(dotBl, dotBr, dotZl, dotZr) (dotC (A *m X) X).
set p := dot (A *m X) _; set q := dot X (A *m X); set r := dot X X => H.
have L : c * (c * r) <= c * q by rewrite ler_pmul2l // wp_low.
move: H; rewrite subr_ge0 expr2 -mulrA => H.
apply: (le_trans L); rewrite -subr_ge0; apply: (le_trans _ H). by rewrite mulrBr subr_ge0.
Qed.
Lemma wp_inj X : A *m X = 0 -> X = 0.
Proof.
have [c0 _] := W => H; have := wp_sq X; rewrite H !dot_sq => L; apply: sqnorm0; apply/eqP; rewrite eq_le sqnorm_ge0 andbT.
by move: L; rewrite sqnorm_0 pmulr_rle0 // exprn_gt0.
Qed.
Lemma wp_unit : A \in unitmx.
Proof.
rewrite unitmxE unitfE; apply/negP => /det0P [v v0 vA].
(* a left kernel vector of A^T is a kernel vector of A: use the quadratic form *)
have [c0 [q _]] := W; have := q v^T.
have -> : qform A v^T = 0.
  rewrite /qform exchange_big /=; apply: big1 => j _.
  have -> : \sum_i v^T i 0 * A i j * v^T j 0 = (v *m A) 0 j * v 0 j.
    by rewrite [(v *m A) _ _]mxE big_distrl /=; apply: eq_bigr => i _; rewrite !mxE.
  by rewrite vA mxE mul0r.
rewrite pmulr_rle0 // => L; have {}L : sqlen v^T = 0.
  by apply/eqP; rewrite eq_le L; apply: sumr_ge0 => i _; apply: sqr_ge0.
case/negP: v0; apply/eqP/matrixP => i j; rewrite mxE ord1.
move/eqP: L; rewrite /sqlen psumr_eq0 => [/allP K|k _]; last exact: sqr_ge0.
by have := K j (mem_index_enum j); rewrite /= mxE sqrf_eq0 => /eqP.
Qed.
Lemma step_rate M : exists2 M', spai_step A M = Some M' & residual A M' <= (1 - c ^+ 2 / C) * residual A M.
Proof.
have [c0 _] := W.
have S : exists M', spai_step A M = Some M'.
  rewrite /spai_step /=; set G := gap A M; case: eqP => [d0|_]; last by eexists.
  have -> : G = 0 by apply: wp_inj; apply: sqnorm0; rewrite -dot_sq.
  by rewrite eqxx; exists M.
case: S => M' S; exists M' => //.
case: (step_residual S) => /= [[-> G0]|[d0 ->]].
  by rewrite -gap_residual G0 dot_sq sqnorm_0 mulr0.
rewrite mulrBl mul1r ler_sub // -gap_residual; set G := gap A M in d0 *.
have := wp_low G; have := wp_up G; have : 0 <= dot G G by rewrite dot_sq sqnorm_ge0.
move: d0; have : 0 <= dot (A *m G) (A *m G) by rewrite dot_sq sqnorm_ge0.
set d := dot (A *m G) _; set t := dot G (A *m G); set g := dot G G => dge dn0 gge up low.
have dpos : 0 < d by rewrite lt_neqAle eq_sym dn0 dge.
have Cg : 0 < C * g by apply: lt_le_trans dpos up.
have gpos : 0 < g by rewrite lt_neqAle gge andbT; apply/eqP => E; rewrite -E mulr0 ltxx in Cg.
have Cpos : 0 < C by rewrite -(pmulr_lgt0 _ gpos).
have -> : c ^+ 2 / C * g = (c * g) ^+ 2 / (C * g).
  by rewrite exprMn -mulf_div; congr (_ * _); rewrite expr2 mulfK // gt_eqF.
apply: ler_pmul; rewrite ?sqr_ge0 // ?invr_ge0 ?(ltW Cg) //.
  by rewrite ler_sqr ?nnegrE //; [rewrite mulr_ge0 // ltW|apply: le_trans low; rewrite mulr_ge0 // ltW].
by rewrite lef_pinv ?posrE.
Qed.
Lemma loop_rate m : forall M, exists2 M', spai_loop A m M = Some M' & residual A M' <= (1 - c ^+ 2 / C) ^+ m * residual A M.
Proof.
elim: m => [|m IH] M; first by exists M; rewrite // expr0 mul1r.
have [M1 E1 R1] := step_rate M; have [M2 E2 R2] := IH M1; exists M2; first by rewrite /= E1.
have [r0|r0] := eqVneq (residual A M) 0.
  by rewrite r0 mulr0 -r0; apply: (@loop_decrease A m.+1); rewrite /= E1.
have rpos : 0 < residual A M by rewrite lt_neqAle eq_sym r0 sqnorm_ge0.
have q0 : 0 <= 1 - c ^+ 2 / C by rewrite -(pmulr_lge0 _ rpos); apply: le_trans R1; apply: sqnorm_ge0.
by apply: (le_trans R2); rewrite [_ ^+ m.+1]exprSr -[X in _ <= X]mulrA ler_wpmul2l // exprn_ge0.
Qed.
(** distance from the inverse *)
Lemma inverse_distance M : c ^+ 2 * sqnorm (invmx A - M) <= residual A M.
Proof.
rewrite -gap_residual -dot_sq; have -> : gap A M = A *m (invmx A - M) by rewrite mulmxBr mulmxV ?wp_unit.
exact: wp_sq.
Qed.
End W.

(** a polynomial in A *)
Section Sym.
Variable A : 'M[R]_n.
Hypothesis AT : A^T = A.
Definition friendly M := M^T = M /\ A *m M = M *m A.
Lemma friendly_step M M' : friendly M -> spai_step A M = Some M' -> friendly M'.
Proof.
move=> [MT MC]; rewrite /spai_step /=; set G := gap A M.
have GT : G^T = G by rewrite /G /gap linearB /= trmx1 trmx_mul MT AT -MC.
have GC : A *m G = G *m A by rewrite /G /gap mulmxBr mulmxBl mulmx1 mul1mx -mulmxA MC.
case: eqP => _; first by case: eqP => // _ [<-].
move=> [<-]; split; first by rewrite linearD /= linearZ /= MT GT.
by rewrite mulmxDr mulmxDl -scalemxAr -scalemxAl MC GC.
Qed.
Lemma friendly_loop m : forall M M', friendly M -> spai_loop A m M = Some M' -> friendly M'.
Proof.
elim: m => [|m IH] M M' F /=; first by case=> <-.
by case E: (spai_step A M) => [M1|] //; apply: IH; apply: friendly_step E.
Qed.
Lemma friendly_start e : friendly (spai_start A e).
Proof. by split; [rewrite linearZ /= AT|rewrite -scalemxAr -scalemxAl]. Qed.
End Sym.
End P.

Section Positive.
Variables (R : realFieldType) (n : nat).
Implicit Types A M X Y : 'M[R]_n.
Lemma cauchy_schwarz X Y : dot X Y ^+ 2 <= dot X X * dot Y Y.
Proof.
have [y0|y0] := eqVneq (dot Y Y) 0.
  have -> : Y = 0 by apply: sqnorm0; rewrite -dot_sq.
  by rewrite [dot X 0]/dot mulmx0 linear0 expr0n /= mulr_ge0 // dot_sq sqnorm_ge0.
have ypos : 0 < dot Y Y by rewrite lt_neqAle eq_sym y0 dot_sq sqnorm_ge0.
have : 0 <= dot (X - (dot X Y / dot Y Y) *: Y) (X - (dot X Y / dot Y Y) *: Y) by rewrite dot_sq sqnorm_ge0.
rewrite !(dotBl, dotBr, dotZl, dotZr) (dotC Y X); set p := dot X X; set q := dot X Y; set r := dot Y Y in y0 ypos *.
rewrite divfK // subrr mulr0 subr0 subr_ge0 mulrAC -expr2 ler_pdivr_mulr //.
Qed.
Lemma qform_mx A (x : 'cV[R]_n) : qform A x = (x^T *m (A *m x)) 0 0.
Proof.
rewrite /qform mxE; apply: eq_bigr => i _; rewrite mxE [(A *m x) _ _]mxE big_distrr /=; apply: eq_bigr => j _; by rewrite mulrA.
Qed.
Lemma sqlen_mx (x : 'cV[R]_n) : sqlen x = (x^T *m x) 0 0.
Proof. by rewrite /sqlen mxE; apply: eq_bigr => i _; rewrite mxE expr2. Qed.
Lemma sqlen_ge0 (x : 'cV[R]_n) : 0 <= sqlen x.
Proof. by apply: sumr_ge0 => i _; apply: sqr_ge0. Qed.
Lemma sqlen_gt0 (x : 'cV[R]_n) : x != 0 -> 0 < sqlen x.
Proof.
move=> x0; rewrite lt_neqAle sqlen_ge0 andbT eq_sym; apply: contra x0 => /eqP H; apply/eqP/matrixP => i j; rewrite mxE ord1.
move/eqP: H; rewrite /sqlen psumr_eq0 => [/allP K|k _]; last exact: sqr_ge0.
by have := K i (mem_index_enum i); rewrite /= sqrf_eq0 => /eqP.
Qed.
Lemma qform_outer A (x : 'cV[R]_n) : qform A x = dot (x *m x^T) A.
Proof.
rewrite dotE /qform exchange_big /=; apply: eq_bigr => j _; apply: eq_bigr => i _.
by rewrite mxE big_ord1 mxE; rewrite mulrAC.
Qed.
Lemma outer_sq (x : 'cV[R]_n) : dot (x *m x^T) (x *m x^T) = sqlen x ^+ 2.
Proof. by rewrite -qform_outer qform_mx sqlen_mx -mulmxA mulmxA mxE big_ord1 expr2. Qed.
Lemma qformB A B x : qform (A - B) x = qform A x - qform B x.
Proof. by rewrite !qform_outer dotBr. Qed.
Lemma qform_bound E (x : 'cV[R]_n) : qform E x ^+ 2 <= sqlen x ^+ 2 * sqnorm E.
Proof. by rewrite qform_outer -outer_sq -dot_sq cauchy_schwarz. Qed.
Lemma inverse_low A c C x : well_posed A c C -> c * sqlen x <= C * qform (invmx A) x.
Proof.
move=> W; have Au := wp_unit W; have [c0 [low up]] := W.
pose y := invmx A *m x; have Ex : x = A *m y by rewrite /y mulmxA mulmxV // mul1mx.
have E : qform (invmx A) x = qform A y.
  rewrite !qform_mx -/y; have -> : x^T *m y = (y^T *m (A *m y))^T by rewrite trmx_mul trmxK -Ex.
  by rewrite mxE.
have [x0|x0] := eqVneq x 0.
  rewrite E /y x0 mulmx0; have -> : sqlen (0 : 'cV[R]_n) = 0 by apply: big1 => i _; rewrite mxE expr0n.
  by rewrite qform_mx !mulmx0 mxE !mulr0.
have xpos := sqlen_gt0 x0; have := up y; rewrite -Ex => H.
have Cy : 0 < C * sqlen y by apply: lt_le_trans H.
have ypos : 0 < sqlen y by rewrite lt_neqAle sqlen_ge0 andbT; apply/eqP => y0; rewrite -y0 mulr0 ltxx in Cy.
have Cpos : 0 < C by rewrite -(pmulr_lgt0 _ ypos).
rewrite E; apply: (le_trans (y := C * (c * sqlen y))); last by rewrite ler_pmul2l.
by rewrite mulrCA ler_pmul2l.
Qed.
Lemma wp_C_pos A c C : well_posed A c C -> forall x : 'cV[R]_n, x != 0 -> 0 < C.
Proof.
move=> W x x0; have [c0 [_ up]] := W; have Au := wp_unit W.
have Ax : A *m x != 0 by apply/eqP => H; case/eqP: x0; rewrite -[x]mul1mx -(mulVmx Au) -mulmxA H mulmx0.
by rewrite -(pmulr_lgt0 _ (sqlen_gt0 x0)); apply: lt_le_trans (up x); apply: sqlen_gt0.
Qed.
Lemma positive_when_close A c C M x : well_posed A c C -> residual A M * C ^+ 2 < c ^+ 4 -> x != 0 -> 0 < qform M x.
Proof.
move=> W close x0; have [c0 _] := W; have Cpos := wp_C_pos W x0; have xpos := sqlen_gt0 x0.
have low := inverse_low x W; have dist := inverse_distance W M.
set e := qform (invmx A - M) x; have bound := qform_bound (invmx A - M) x; rewrite -/e in bound.
have -> : qform M x = qform (invmx A) x - e by rewrite /e qformB opprB addrC subrK.
rewrite -(pmulr_rgt0 _ Cpos) mulrBr subr_gt0; apply: lt_le_trans low.
have [e0|epos] := lerP e 0; first by apply: le_lt_trans (mulr_gt0 c0 xpos); rewrite pmulr_rle0.
rewrite -ltr_sqr ?nnegrE; [|by rewrite ltW // mulr_gt0|by rewrite ltW // mulr_gt0].
rewrite !exprMn -(ltr_pmul2l (exprn_gt0 2 c0)) mulrA.
apply: (le_lt_trans (y := c ^+ 2 * C ^+ 2 * (sqlen x ^+ 2 * sqnorm (invmx A - M)))).
  by rewrite ler_pmul2l // mulr_gt0 // exprn_gt0.
have -> : c ^+ 2 * C ^+ 2 * (sqlen x ^+ 2 * sqnorm (invmx A - M)) = C ^+ 2 * sqlen x ^+ 2 * (c ^+ 2 * sqnorm (invmx A - M)).
  by rewrite [c ^+ 2 * C ^+ 2]mulrC mulrACA.
apply: (le_lt_trans (y := C ^+ 2 * sqlen x ^+ 2 * residual A M)).
  by rewrite ler_pmul2l // mulr_gt0 // exprn_gt0.
have -> : C ^+ 2 * sqlen x ^+ 2 * residual A M = (residual A M * C ^+ 2) * sqlen x ^+ 2 by rewrite mulrC mulrA.
by rewrite [X in _ < X]mulrA -exprD ltr_pmul2r // exprn_gt0.
Qed.
End Positive.
