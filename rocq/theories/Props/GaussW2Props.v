(** C111-C114: the distance between Gaussian components. *)
From mathcomp Require Import all_ssreflect all_algebra.
From Verif Require Import Model.GaussW2 Spec.CholSpec Spec.GaussW2Spec Proofs.GaussW2P Proofs.SpectralP Proofs.RealMx.
Set Implicit Arguments.
Unset Strict Implicit.
Unset Printing Implicit Defensive.
Import Order.TTheory GRing.Theory Num.Theory.
Local Open Scope ring_scope.

(** The contract of the eigendecomposition can be met in every dimension. *)
Theorem eigh_possible : forall (R : rcfType) n, exists eigh : 'M[R]_n -> 'rV[R]_n * 'M[R]_n, eigh_contract eigh.
Proof. exact: eigh_exists. Qed.
Print Assumptions eigh_possible.

(** ** C111: the distance is the least expected squared distance over all couplings *)
Theorem w2_couplings : forall (R : rcfType) n (eigh : 'M[R]_n -> 'rV[R]_n * 'M[R]_n), eigh_contract eigh ->
  forall (ma mb : 'cV[R]_n) (A B : 'M[R]_n), let c := (10%:R ^+ 6)^-1 in at_least c A -> at_least c B ->
  (exists C, coupling A B C /\ gaussian_w2_squared eigh ma A mb B = expected_sq ma A mb B C) /\
  (forall C, coupling A B C -> gaussian_w2_squared eigh ma A mb B <= expected_sq ma A mb B C).
Proof.
move=> R n eigh ce ma mb A B c hA hB; split; last exact: (w2_least ce hA hB).
by exists (A *m omap eigh A B); exact: (w2_attained ce hA hB).
Qed.
Print Assumptions w2_couplings.

(** ** C112: its root is a metric on Gaussians *)
Theorem w2_metric : forall (R : rcfType) n (eigh : 'M[R]_n -> 'rV[R]_n * 'M[R]_n), eigh_contract eigh ->
  let c : R := (10%:R ^+ 6)^-1 in let dist p q := Num.sqrt (gaussian_w2_squared eigh p.1 p.2 q.1 q.2) in
  forall p q r : 'cV[R]_n * 'M[R]_n, at_least c p.2 -> at_least c q.2 -> at_least c r.2 ->
  [/\ 0 <= dist p q, dist p q = 0 <-> p = q, dist p q = dist q p & dist p r <= dist p q + dist q r].
Proof.
move=> R n eigh ce c dist [ma A] [mb B] [mc C] /= hA hB hC; split.
- exact: sqrtr_ge0.
- split=> [h|[-> ->]]; last by rewrite /dist /= (w2_self ce) sqrtr0.
  have h0 : 0 <= gaussian_w2_squared eigh ma A mb B.
    by apply: le_trans (w2_nonneg eigh ma A mb B); apply: sumr_ge0 => i _; apply: sqr_ge0.
  have z : gaussian_w2_squared eigh ma A mb B = 0.
    by apply/eqP; rewrite eq_le h0 andbT; rewrite -sqrtr_eq0; apply/eqP; exact: h.
  by have [-> ->] := w2_zero ce hA hB z.
- by rewrite /dist /= (w2_symm ce) //; apply: (at_least_le (eps_micro R)).
- exact: (w2_triangle ce).
Qed.
Print Assumptions w2_metric.

(** ** C113: the distance does not depend on eigenvectors or coordinates *)
Theorem w2_invariant : forall (R : rcfType) n (eigh eigh' : 'M[R]_n -> 'rV[R]_n * 'M[R]_n), eigh_contract eigh -> eigh_contract eigh' ->
  forall (ma mb t : 'cV[R]_n) (A B Q : 'M[R]_n),
  sqrtm_psd eigh A = sqrtm_psd eigh' A /\
  gaussian_w2_squared eigh ma A mb B = gaussian_w2_squared eigh' ma A mb B /\
  (Q *m Q^T = 1%:M -> gaussian_w2_squared eigh (Q *m ma + t) (Q *m A *m Q^T) (Q *m mb + t) (Q *m B *m Q^T) = gaussian_w2_squared eigh ma A mb B).
Proof.
move=> R n e e' c c' ma mb t A B Q; split; first exact: sqrtm_indep.
by split; [exact: w2_indep|move=> oQ; exact: w2_rotate].
Qed.
(** The root of a covariance with variances of at least 1e-12 is its positive definite square root. *)
Theorem sqrtm_root : forall (R : rcfType) n (eigh : 'M[R]_n -> 'rV[R]_n * 'M[R]_n), eigh_contract eigh ->
  forall A : 'M[R]_n, at_least (10%:R ^+ 12)^-1 A -> let S := sqrtm_psd eigh A in [/\ S^T = S, S *m S = A & posdef S].
Proof. by move=> R n e ce A h; exact: sqrtm_ok. Qed.
Print Assumptions w2_invariant. Print Assumptions sqrtm_root.

(** One dimension: the contract is met by the entry itself. *)
Section One.
Variable R : rcfType.
Definition eigh1 (A : 'M[R]_1) : 'rV[R]_1 * 'M[R]_1 := (A, 1%:M).
Lemma eigh1_ok : eigh_contract eigh1.
Proof.
move=> A _; split; rewrite /eigh1 /= trmx1 ?mulmx1 // mul1mx.
by apply/matrixP => i j; rewrite !ord1 !mxE eqxx mulr1n.
Qed.
Lemma sym1 (a : R) : sym_psd (a%:M : 'M[R]_1) = a%:M.
Proof. by apply: sym_psdE; rewrite tr_scalar_mx. Qed.
Lemma sqrtm1 (a : R) : sqrtm_psd eigh1 a%:M = (Num.sqrt (Num.max a (eps R)))%:M.
Proof.
rewrite /sqrtm_psd /eigh1 sym1 trmx1 mul1mx mulmx1; apply/matrixP => i j.
by rewrite !ord1 !mxE eqxx !mulr1n.
Qed.
Lemma w21 (ma mb : 'cV[R]_1) (a b : R) : gaussian_w2_squared eigh1 ma a%:M mb b%:M =
  (ma 0 0 - mb 0 0) ^+ 2 + Num.max (a + b - 2%:R * Num.sqrt (Num.max (Num.max a (eps R) * b) (eps R))) 0.
Proof.
rewrite /gaussian_w2_squared !sym1 sqrtm1 -!scalar_mxM sym1 sqrtm1.
have g : 0 <= Num.max a (eps R) by rewrite le_maxr (ltW (eps_gt0 R)) orbT.
rewrite mulrAC -expr2 sqr_sqrtr //; congr (_ + Num.max _ _).
  by rewrite !mxE big_ord1 !mxE expr2.
by rewrite /mxtrace big_ord1 !mxE eqxx !mulr1n.
Qed.
Lemma sqrt_eps : Num.sqrt (eps R) = micro R.
Proof. by rewrite -micro_sq -expr2 sqrtr_sqr ger0_norm // ltW // micro_gt0. Qed.
(** at one standard deviation each, the distance is the squared difference of the standard deviations *)
Example w2_ex : gaussian_w2_squared eigh1 0 (4%:R)%:M 0 (9%:R)%:M = 1.
Proof.
rewrite w21 !mxE subrr expr0n add0r.
have e1 : eps R <= 4%:R by apply: le_trans (eps_le1 R) _; rewrite ler1n.
have e2 : eps R <= 4%:R * 9%:R by apply: le_trans (eps_le1 R) _; rewrite -natrM ler1n.
rewrite (max_idPl e1) (max_idPl e2).
have -> : (4%:R * 9%:R : R) = 6%:R ^+ 2 by rewrite -natrM -natrX.
rewrite sqrtr_sqr ger0_norm ?ler0n // -natrD -natrM -[(4 + 9)%N]/(1 + 12)%N natrD addrK.
by rewrite (max_idPl _) // ler01.
Qed.
End One.

(** ** C114: the distance for arbitrary covariances *)
(** the part that holds: non-negative, zero from a Gaussian to itself, symmetric if all variances are at least 1e-12 *)
Theorem w2_degenerate_partial : forall (R : rcfType) n (eigh : 'M[R]_n -> 'rV[R]_n * 'M[R]_n), eigh_contract eigh ->
  forall (ma mb : 'cV[R]_n) (A B : 'M[R]_n),
  \sum_i (ma i 0 - mb i 0) ^+ 2 <= gaussian_w2_squared eigh ma A mb B /\ gaussian_w2_squared eigh ma A ma A = 0 /\
  (at_least (10%:R ^+ 12)^-1 A -> at_least (10%:R ^+ 12)^-1 B -> gaussian_w2_squared eigh ma A mb B = gaussian_w2_squared eigh mb B ma A).
Proof.
move=> R n e ce ma mb A B; split; first exact: w2_nonneg. split; first exact: w2_self.
by move=> hA hB; exact: w2_symm.
Qed.
(** With a singular covariance the two directions differ. *)
Theorem w2_symmetry_refuted : ~ (forall (R : rcfType) n (eigh : 'M[R]_n -> 'rV[R]_n * 'M[R]_n), eigh_contract eigh ->
  forall (ma mb : 'cV[R]_n) (A B : 'M[R]_n), A^T = A -> psd A -> B^T = B -> psd B -> gaussian_w2_squared eigh ma A mb B = gaussian_w2_squared eigh mb B ma A).
Proof.
move=> H; pose R := R_rcfType.
have H4 : psd ((4%:R)%:M : 'M[R]_1) by move=> x; rewrite !mxE big_ord1 !mxE big_ord1 !mxE eqxx mulr1n mulrAC -expr2 mulr_ge0 ?sqr_ge0 // ler0n.
have H0 : psd ((0%:R)%:M : 'M[R]_1) by move=> x; rewrite raddf0 mulmx0 mul0mx mxE.
have := H R 1%N (@eigh1 R) (@eigh1_ok R) 0 0 (0%:R)%:M (4%:R)%:M (tr_scalar_mx _ _) H0 (tr_scalar_mx _ _) H4.
rewrite !w21 !mxE subrr expr0n !add0r.
have ep := eps_gt0 R; have e0 : (0%:R : R) <= eps R := ltW ep.
have e4 : eps R <= 4%:R by apply: le_trans (eps_le1 R) _; rewrite ler1n.
have e44 : eps R <= eps R * 4%:R by rewrite ler_pemulr // ler1n.
rewrite (max_idPr e0) (max_idPl e44) (max_idPl e4) mulr0 (max_idPr e0) addr0.
have -> : Num.sqrt (eps R * 4%:R) = 2%:R * micro R.
  rewrite sqrtrM ?(ltW ep) // sqrt_eps mulrC; congr (_ * _).
  have -> : (4%:R : R) = 2%:R ^+ 2 by rewrite -natrX.
  by rewrite sqrtr_sqr ger0_norm ?ler0n.
have m0 := micro_gt0 R; have m1 := micro_le1 R.
rewrite sqrt_eps !(max_idPl _).
- move/addrI/oppr_inj/(mulfI _); rewrite ?pnatr_eq0 // => /(_ isT) /eqP; rewrite -subr_eq0 mulrDl mul1r addrK gt_eqF //.
- by rewrite subr_ge0; apply: le_trans (_ : 2%:R * 1 <= _); rewrite ?ler_pmul2l ?ltr0n // mulr1 ler_nat.
- rewrite subr_ge0 mulrA -natrM; apply: le_trans (_ : 4%:R * 1 <= _); by rewrite ?ler_pmul2l ?ltr0n // mulr1.
Qed.
(** Different Gaussians with small variances have distance zero. *)
Theorem w2_separation_refuted : ~ (forall (R : rcfType) n (eigh : 'M[R]_n -> 'rV[R]_n * 'M[R]_n), eigh_contract eigh ->
  forall (ma mb : 'cV[R]_n) (A B : 'M[R]_n), A^T = A -> posdef A -> B^T = B -> posdef B -> gaussian_w2_squared eigh ma A mb B = 0 -> A = B).
Proof.
move=> H; pose R := R_rcfType. have m0 := micro_gt0 R.
have pd (a : R) : 0 < a -> posdef (a%:M : 'M[R]_1).
  move=> a0 x x0; rewrite !mxE big_ord1 !mxE big_ord1 !mxE eqxx mulr1n mulrAC -expr2 mulr_gt0 //.
  rewrite lt_neqAle eq_sym sqr_ge0 andbT sqrf_eq0; apply: contra x0 => /eqP h; apply/eqP/matrixP => i j; by rewrite !ord1 h mxE.
pose h := micro R / 2%:R; have h0 : 0 < h by rewrite divr_gt0 ?ltr0n.
have hh : h + h = micro R by rewrite /h -mulr2n -mulr_natr divfK ?pnatr_eq0.
have hm : h <= micro R by rewrite -hh ler_addl ltW.
have := H R 1%N (@eigh1 R) (@eigh1_ok R) 0 0 (micro R)%:M h%:M (tr_scalar_mx _ _) (pd _ m0) (tr_scalar_mx _ _) (pd _ h0).
rewrite w21 !mxE subrr expr0n add0r (max_idPl (eps_micro R)).
have l1 : micro R * h <= eps R by rewrite -micro_sq ler_pmul2l.
rewrite (max_idPr l1) sqrt_eps (max_idPr _); last first.
  by rewrite subr_le0 mulrDl mul1r ler_add2l.
move=> /(_ erefl) /matrixP /(_ 0 0); rewrite !mxE eqxx !mulr1n => /eqP.
by rewrite -hh -subr_eq0 addrK gt_eqF.
Qed.
Print Assumptions w2_degenerate_partial. Print Assumptions w2_symmetry_refuted. Print Assumptions w2_separation_refuted.
