(** C122: the Laplace approximation of the hyperparameter posterior (gp_bo.py 397-435). *)
From mathcomp Require Import all_ssreflect all_algebra.
From Verif Require Import Model.Laplace Spec.CholSpec Spec.LaplaceSpec Proofs.PosDef Proofs.RealMx Proofs.LaplaceP.
Set Implicit Arguments.
Unset Strict Implicit.
Unset Printing Implicit Defensive.
Import Order.TTheory GRing.Theory Num.Theory.
Local Open Scope ring_scope.

(** The curvature is symmetric and made of the mixed second differences of the negated mean, divided by the spans; a
    covariance is returned exactly if the curvature is positive definite, and is then its inverse, a covariance. *)
Theorem laplace_general : forall (R : rcfType) n (ev : 'M[R]_n -> 'rV[R]_n) mean u span, eigenvalues_contract ev ->
  let curv := (laplace_posterior ev mean u span).2 in let cov := (laplace_posterior ev mean u span).1 in
  curv^T = curv /\
  (forall i j, let f s t := - mean (nudge (nudge u i s) j t) in let h : R := (1000%:R)^-1 in
     curv i j = (f h h - f h (- h) - f (- h) h + f (- h) (- h)) / (4%:R * h * h) / (span 0 i * span 0 j)) /\
  (posdef curv <-> cov <> None) /\
  (forall C, cov = Some C -> C *m curv = 1%:M /\ C^T = C /\ posdef C).
Proof.
  move=> R n ev mean u span Ev curv cov; have [S E] := laplaceE ev mean u span; rewrite -/curv -/cov in S E.
  have P := eigen_posdef Ev S; split=> //; split; [|split].
  - move=> i j f h; rewrite /curv curvature_eq jacE hess_entry /f.
    by rewrite /second_difference /neg_mean -[h]/(step R) !(nudgeD, nudgeB).
  - rewrite P E; by case: ifP.
  - move=> C; rewrite E; case: ifP => // F [<-]; have PD := P.2 F.
    split; first by rewrite mulVmx // posdef_unit.
    by rewrite trmx_inv S; split=> //; apply: posdef_inv.
Qed.
Print Assumptions laplace_general.
(** If the objective is quadratic, the curvature is exactly its second derivative in the searched coordinates, whatever
    the point; at the minimum the covariance found is that of the normal density proportional to exp(-objective). *)
Theorem laplace_quadratic : forall (R : rcfType) n (ev : 'M[R]_n -> 'rV[R]_n) mean u span c b (H : 'M[R]_n),
  eigenvalues_contract ev -> H^T = H -> (forall v, - mean v = quad c b H v) ->
  let curv := (laplace_posterior ev mean u span).2 in let cov := (laplace_posterior ev mean u span).1 in
  (exists g : 'cV[R]_n, forall d, - mean (scaled_move u span d) = quad (- mean u) g curv d) /\
  ((forall v, - mean u <= - mean v) -> forall d, - mean (scaled_move u span d) = - mean u + 2%:R^-1 * (d^T *m curv *m d) 0 0) /\
  ((forall i, span 0 i != 0) -> (posdef H <-> cov <> None)).
Proof.
  move=> R n ev mean u span c b H Ev S Q curv cov.
  have HE : hessian mean u = H by apply/matrixP => i j; rewrite hess_entry; apply: (difference_quad u i j S Q).
  have CE : curv = jac span *m H *m jac span by rewrite /curv curvature_eq HE.
  have JT : (jac span)^T = jac span by rewrite /jac tr_diag_mx.
  have M d : - mean (scaled_move u span d) = - mean u + ((b^T *m (jac span *m d)) 0 0 + bil H u (jac span *m d)) + 2%:R^-1 * (d^T *m curv *m d) 0 0.
    by rewrite Q move_eq quad_add // -Q; congr (_ + _ * _); rewrite /bil CE trmx_mul JT !mulmxA.
  split; [|split].
  - exists (jac span *m b + jac span *m H *m u) => d; rewrite M /quad; congr (_ + _ + _).
    rewrite linearD /= mulmxDl [RHS]mxE !trmx_mul JT S /bil !mulmxA; congr (_ + _).
  - move=> Min d; rewrite M; set l := (_ + bil _ _ _); suff -> : l = 0 by rewrite addr0.
    apply: (@min_flat _ l ((d^T *m curv *m d) 0 0)) => t.
    have := Min (scaled_move u span (t *: d)); rewrite M -addrA ler_addl.
    have -> : (b^T *m (jac span *m (t *: d))) 0 0 + bil H u (jac span *m (t *: d)) = t * l.
      by rewrite /l /bil -!scalemxAr mxE [in X in _ + X]mxE mulrDr.
    have -> : ((t *: d)^T *m curv *m (t *: d)) 0 0 = t ^+ 2 * (d^T *m curv *m d) 0 0.
      by rewrite -/(bil curv (t *: d) (t *: d)) bilZ expr2.
    by [].
  - move=> Sp; have [SC [_ [<- _]]] := laplace_general mean u span Ev; rewrite -/curv CE.
    have U : jac span \in unitmx.
      rewrite unitmxE /jac det_diag unitfE; apply/prodf_neq0 => i _; by rewrite mxE div1r invr_eq0.
    split=> P.
      by have := posdef_cong P U; rewrite JT.
    have Ui : invmx (jac span) \in unitmx by rewrite unitmx_inv.
    have := posdef_cong P Ui; rewrite trmx_inv JT !mulmxA mulVmx // mul1mx -mulmxA mulmxV // mulmx1; exact.
Qed.
Print Assumptions laplace_quadratic.
(** eigenvalues with this contract exist; and one dimension worked out: objective 3 v^2 + 5 on a span of 2 *)
Example eigenvalues_possible : forall (R : rcfType) n, exists ev : 'M[R]_n -> 'rV[R]_n, eigenvalues_contract ev.
Proof. exact: eigenvalues_exist. Qed.
Definition parabola (v : 'cV[R_rcfType]_1) : R_rcfType := - (5%:R + 3%:R * v 0 0 ^+ 2).
Example laplace_example : (laplace_posterior (fun A : 'M[R_rcfType]_1 => A) parabola 0 (const_mx 2%:R)).1 = Some (const_mx (2%:R / 3%:R)).
Proof.
  have Ev : eigenvalues_contract (fun A : 'M[R_rcfType]_1 => A : 'rV_1).
    move=> A _; exists 1%:M; rewrite trmx1 !mul1mx !mulmx1; split=> //.
    by apply/matrixP => i j; rewrite !mxE !ord1 eqxx mulr1n.
  have Q v : - parabola v = quad 5%:R 0 (const_mx (6%:R)) v.
    rewrite /parabola opprK /quad trmx0 mul0mx [in X in _ + X + _]mxE addr0; congr (_ + _).
    have K : 2%:R^-1 * 6%:R = 3%:R :> R_rcfType by apply: (@mulfI _ 2%:R); rewrite ?pnatr_eq0 // mulrA mulfV ?pnatr_eq0 // mul1r -natrM.
    by rewrite !mxE big_ord1 !mxE big_ord1 !mxE -K expr2 (mulrC (v 0 0) 6%:R) !mulrA.
  have [_ [_ P]] := laplace_quadratic 0 (const_mx 2%:R) Ev (H := const_mx 6%:R) (trmx_const _ _ _) Q.
  have [_ [_ [_ I]]] := laplace_general parabola 0 (const_mx 2%:R) Ev.
  have CE : (laplace_posterior (fun A : 'M[R_rcfType]_1 => A) parabola 0 (const_mx 2%:R)).2 0 0 = 3%:R / 2%:R.
    rewrite curvature_eq jacE hess_entry (difference_quad 0 0 0 (trmx_const _ _ _) Q) !mxE.
    by rewrite -[6%:R]/((3 * 2)%:R) natrM invfM mulrA mulfK ?pnatr_eq0.
  have N : (laplace_posterior (fun A : 'M[R_rcfType]_1 => A) parabola 0 (const_mx 2%:R)).1 <> None.
    apply/P; first by move=> i; rewrite mxE pnatr_eq0.
    move=> x N; rewrite !mxE big_ord1 !mxE big_ord1 !mxE mulrAC pmulr_lgt0 ?ltr0n // -expr2 exprn_even_gt0 //.
    by apply: contra N => /eqP Z; apply/eqP/matrixP => i j; rewrite !ord1 Z mxE.
  case: (laplace_posterior _ _ _ _) I CE N => [[C|] curv] //= /(_ C erefl) [I _] CE _; congr Some.
  apply/matrixP => i j; rewrite !ord1 !mxE; move/matrixP/(_ 0 0): I; rewrite !mxE big_ord1 CE eqxx mulr1n => I.
  apply: (@mulIf _ (3%:R / 2%:R)); first by rewrite mulf_neq0 ?invr_eq0 ?pnatr_eq0.
  by rewrite I mulrA divfK ?pnatr_eq0 // mulfV ?pnatr_eq0.
Qed.
