(** Properties C20, C139 and C140: block conjugate gradients. *)
From mathcomp Require Import all_ssreflect all_algebra.
From Verif Require Import Model.BlockCG Proofs.BlockCGP.
Set Implicit Arguments.
Unset Strict Implicit.
Unset Printing Implicit Defensive.
Import Order.TTheory GRing.Theory Num.Theory.
Local Open Scope ring_scope.

Section P.
Variables (R : rcfType) (n k : nat) (solve : 'M[R]_k -> 'M[R]_k -> option 'M[R]_k) (precond : 'M[R]_(n, k) -> 'M[R]_(n, k)).
Variables (KV : 'M[R]_n) (vec : 'M[R]_(n, k)) (tol : R).

(** euclidean norm of a column, and the scale it is compared with *)
Definition norm_of (A : 'M[R]_(n, k)) j := Num.sqrt (\sum_i A i j * A i j).
Definition small (res : 'M[R]_(n, k)) : Prop :=
  forall j, (norm_of vec j = 0 -> norm_of res j <= tol) /\ (norm_of vec j != 0 -> norm_of res j <= tol * norm_of vec j).

Lemma norm_ofE A j : col_norm A j = norm_of A j.
Proof. by rewrite /col_norm /norm_of; congr (Num.sqrt _); apply: eq_bigr => i _; rewrite expr2. Qed.

Lemma convergedP res : reflect (small res) (converged vec tol res).
Proof.
  apply: (iffP forallP) => H j; move: (H j); rewrite /rhs_norm !norm_ofE; case: (eqVneq (norm_of vec j) 0) => [E|N].
  - rewrite divr1 => Hr. by split.
  - have Hp : 0 < norm_of vec j by rewrite lt_def N sqrtr_ge0.
    rewrite ler_pdivr_mulr // => Hr. by split=> // E; rewrite E eqxx in N.
  - by move=> [H1 _]; rewrite divr1; apply: H1.
  - have Hp : 0 < norm_of vec j by rewrite lt_def N sqrtr_ge0.
    by move=> [_ H1]; rewrite ler_pdivr_mulr //; apply: H1.
Qed.

Lemma loop_ok fuel X res P G X' res' code : bcg_loop solve precond KV vec tol fuel X res P G = (X', res', code) ->
  res = vec - KV *m X -> ~ small res ->
  res' = vec - KV *m X' /\ (code = 0%N <-> small res').
Proof.
  elim: fuel X res P G => [|f IH] X res P G /=; first by move=> [<- <- <-] -> Hn; split.
  case E1: (solve _ _) => [alpha|]; last by move=> [<- <- <-] -> Hn; split.
  set X1 := X + _. set res1 := res - _ => + Hr Hn.
  have Hr1 : res1 = vec - KV *m X1 by rewrite /res1 /X1 Hr mulmxDr opprD addrA mulmxA.
  case: convergedP => Hc; first by move=> [<- <- <-].
  case E2: (solve _ _) => [beta|]; last by move=> [<- <- <-]; split.
  move=> E. exact: (IH _ _ _ _ E Hr1 Hc).
Qed.
End P.

(** C20: whatever the preconditioner and the small solves do, the carried residual is the residual of the
    returned solution, and the exit code is 0 exactly if every column meets the tolerance (relative to
    its right-hand side; absolute for a zero column). *)
Theorem block_cg_exit_code : forall (R : rcfType) n k (solve : 'M[R]_k -> 'M[R]_k -> option 'M[R]_k) precond
    (KV : 'M[R]_n) (vec : 'M[R]_(n, k)) tol x0 maxiter X res code,
  block_cg solve precond KV vec tol x0 maxiter = (X, res, code) ->
  res = vec - KV *m X /\
  (code = 0%N <-> forall j, let r := norm_of (vec - KV *m X) j in let b := norm_of vec j in
      (b = 0 -> r <= tol) /\ (b != 0 -> r <= tol * b)).
Proof.
  move=> R n k solve precond KV vec tol x0 maxiter X res code. rewrite /block_cg /=. set X0 := (if x0 is Some x then x else 0).
  case: convergedP => Hc; first by move=> [<- <- <-].
  move=> /loop_ok/(_ erefl Hc)[Hr Hs]. split=> //. by rewrite -Hr.
Qed.
Print Assumptions block_cg_exit_code.

(** identity matrix, two columns, exact small solves: one step, success *)
Example block_cg_ex (R : rcfType) : exists X res,
  block_cg (fun H G : 'M[R]_2 => Some (invmx H *m G)) id (1%:M : 'M[R]_2) (2%:R%:M) 0 None (Some 1%N) = (X, res, 0%N) /\ X = 2%:R%:M.
Proof.
  set B : 'M[R]_2 := 2%:R%:M.
  have N2 : (2%:R : R) != 0 by rewrite pnatr_eq0.
  have E4 : B^T *m B = 4%:R%:M by rewrite /B tr_scalar_mx -scalar_mxM -natrM.
  have U : (4%:R%:M : 'M[R]_2) \in unitmx by rewrite unitmxE det_scalar unitfE expf_neq0 // pnatr_eq0.
  have NB : norm_of B 0 != 0.
    rewrite /norm_of big_ord_recl big_ord1 !mxE /= mulr1n mulr0n mulr0 addr0.
    by rewrite -expr2 sqrtr_sqr normr_eq0.
  have C0 : converged B 0 B = false.
    apply/negP => /convergedP /(_ 0)[_ /(_ NB)]. rewrite mul0r => H.
    by move: NB; rewrite eq_le H sqrtr_ge0.
  have C1 : converged B 0 (0 : 'M[R]_2).
    apply/convergedP => j. have -> : norm_of (0 : 'M[R]_2) j = 0 by rewrite /norm_of big1 ?sqrtr0 // => i _; rewrite mxE mul0r.
    by rewrite mul0r.
  exists B, 0. split=> //. rewrite /block_cg mulmx0 subr0 C0 (_ : maxn 1 1 = 1%N) // /bcg_loop mul1mx E4 mulVmx // mulmx1 subrr C1.
  by rewrite add0r.
Qed.

(** ** C139: block conjugate gradients never move away from the solution *)
(** what numpy's solve promises in exact arithmetic *)
Definition exact_solve (R : rcfType) k (solve : 'M[R]_k -> 'M[R]_k -> option 'M[R]_k) : Prop :=
  (forall H G x, solve H G = Some x -> H \in unitmx /\ H *m x = G) /\ (forall H G, solve H G = None -> H \notin unitmx).
Definition positive_definite (R : rcfType) n (A : 'M[R]_n) : Prop :=
  A^T = A /\ forall v : 'cV[R]_n, v != 0 -> 0 < (v^T *m A *m v) 0 0.
(** squared energy norm of the error in one column *)
Definition energy (R : rcfType) n k (A : 'M[R]_n) (Xs X : 'M[R]_(n, k)) (j : 'I_k) : R := ((Xs - X)^T *m A *m (Xs - X)) j j.

(** With a symmetric preconditioner the energy norm of the error of each column is at most that of the starting guess,
    whatever the exit code. *)
Theorem block_cg_energy_partial : forall (R : rcfType) n k (solve : 'M[R]_k -> 'M[R]_k -> option 'M[R]_k) precond
    (KV : 'M[R]_n) (vec Xs : 'M[R]_(n, k)) tol x0 maxiter X res code,
  exact_solve solve -> positive_definite KV -> (forall A B, A^T *m precond B = (precond A)^T *m B) -> KV *m Xs = vec ->
  block_cg solve precond KV vec tol x0 maxiter = (X, res, code) ->
  forall j, energy KV Xs X j <= energy KV Xs (if x0 is Some x then x else 0) j.
Proof.
  move=> R n k solve precond KV vec Xs tol x0 maxiter X res code [Hs _] [Ks Kp] Hp HX. rewrite /block_cg /=. set X0 := (if x0 is Some x then x else 0).
  case: (converged _ _ _) => [[<- _ _] //|] E j.
  apply: (@loop_energy _ _ _ solve precond KV vec tol Ks _ _ Hp Xs HX _ _ _ _ _ _ _ _ E) => //.
  - move=> v. have [->|vn] := eqVneq v 0; first by rewrite mulmx0 mxE. exact: ltW (Kp v vn).
  - by move=> H G x /Hs[].
Qed.
Print Assumptions block_cg_energy_partial.
(** ... and it is strictly smaller in every column on which the preconditioned starting residual acts, unless the first
    small system broke down (exit code 2); in particular a breakdown of the second one (code 3) keeps the step. *)
Theorem block_cg_progress_partial : forall (R : rcfType) n k (solve : 'M[R]_k -> 'M[R]_k -> option 'M[R]_k) precond
    (KV : 'M[R]_n) (vec Xs : 'M[R]_(n, k)) tol x0 maxiter X res code,
  exact_solve solve -> positive_definite KV -> (forall A B, A^T *m precond B = (precond A)^T *m B) -> KV *m Xs = vec ->
  block_cg solve precond KV vec tol x0 maxiter = (X, res, code) ->
  let X0 := if x0 is Some x then x else 0 in let r0 := vec - KV *m X0 in
  ~ small vec tol r0 -> code <> 2%N ->
  forall i j, (r0^T *m precond r0) i j != 0 -> energy KV Xs X j < energy KV Xs X0 j.
Proof.
  move=> R n k solve precond KV vec Xs tol x0 maxiter X res code [Hs _] [Ks Kp] Hp HX. rewrite /block_cg /=. set X0 := (if x0 is Some x then x else 0).
  case: convergedP => Hc E Hn c2 i j; first by case: Hn.
  have [f Ef] : exists f, maxn (if maxiter is Some m then m else (10 * n)%N) 1 = f.+1.
    exists (maxn (if maxiter is Some m then m else (10 * n)%N) 1).-1. by rewrite prednK // leq_max orbT.
  rewrite Ef in E. apply: (@loop_progress _ _ _ solve precond KV vec tol Ks _ _ Hp Xs HX Kp _ _ _ _ _ _ _ _ E c2) => //.
  - move=> v. have [->|vn] := eqVneq v 0; first by rewrite mulmx0 mxE. exact: ltW (Kp v vn).
  - by move=> H G x /Hs[].
Qed.
Print Assumptions block_cg_progress_partial.

Definition std_solve (R : rcfType) k (H G : 'M[R]_k) : option 'M[R]_k := if H \in unitmx then Some (invmx H *m G) else None.
Lemma std_solve_exact (R : rcfType) k : exact_solve (@std_solve R k).
Proof.
  split=> [H G x|H G]; rewrite /std_solve; case: ifP => // Hu.
  by move=> [<-]; split=> //; rewrite mulKVmx.
Qed.
(** the upper triangular matrix with ones: positive definite as a form, not symmetric *)
Definition skew (R : rcfType) : 'M[R]_2 := \matrix_(i, j) ((i <= j)%N%:R).
Definition two_by_two (R : rcfType) (a b c d : R) : 'M[R]_2 := \matrix_(i, j) (if i == 0 then (if j == 0 then a else b) else (if j == 0 then c else d)).
Lemma mx2P (R : rcfType) (A B : 'M[R]_2) : A 0 0 = B 0 0 -> A 0 1 = B 0 1 -> A 1 0 = B 1 0 -> A 1 1 = B 1 1 -> A = B.
Proof.
  move=> H1 H2 H3 H4. apply/matrixP => i j. have O (l : 'I_2) : l = 0 \/ l = 1 by case: l => [[|[|//]] ?]; [left|right]; apply: val_inj.
  by case: (O i) => ->; case: (O j) => ->.
Qed.
Lemma mul2 (R : rcfType) (a b c d a' b' c' d' : R) :
  two_by_two a b c d *m two_by_two a' b' c' d' = two_by_two (a * a' + b * c') (a * b' + b * d') (c * a' + d * c') (c * b' + d * d').
Proof. by apply: mx2P; rewrite !mxE !big_ord_recl big_ord0 /= !mxE /= !addr0. Qed.
Lemma tr2 (R : rcfType) (a b c d : R) : (two_by_two a b c d)^T = two_by_two a c b d.
Proof. by apply: mx2P; rewrite !mxE. Qed.
Lemma one2 (R : rcfType) : (1%:M : 'M[R]_2) = two_by_two 1 0 0 1.
Proof. by apply: mx2P; rewrite !mxE. Qed.
Lemma sub2 (R : rcfType) (a b c d a' b' c' d' : R) : two_by_two a b c d - two_by_two a' b' c' d' = two_by_two (a - a') (b - b') (c - c') (d - d').
Proof. by apply: mx2P; rewrite !mxE. Qed.
Lemma skew2 (R : rcfType) : skew R = two_by_two 1 1 0 1.
Proof. by apply: mx2P; rewrite !mxE. Qed.
Lemma unit2 (R : rcfType) (A B : 'M[R]_2) : A *m B = 1%:M -> A \in unitmx.
Proof. by move=> /mulmx1_unit[]. Qed.

Ltac simp2 := rewrite ?(mulr1, mul1r, mulr0, mul0r, mulrN1, mulN1r, addr0, add0r, oppr0) //.
Section Scalar.
Variables (T : Type) (zero one : T) (add mul sub : T -> T -> T) (opp : T -> T).
Hypothesis th : ring_theory zero one add mul sub opp eq.
Add Ring Tring : th.
Lemma squares (a b : T) : add (add (mul a a) (mul (add a b) b)) (add (mul a a) (mul (add a b) b)) = add (add (mul a a) (mul b b)) (mul (add a b) (add a b)).
Proof. ring. Qed.
End Scalar.
Lemma rcf_ring (R : rcfType) : @ring_theory R 0 1 +%R *%R (fun a b => a - b) -%R eq.
Proof. split=> //; [exact: add0r|exact: addrC|exact: addrA|exact: mul1r|exact: mulrC|exact: mulrA|exact: mulrDl|exact: subrr]. Qed.
Lemma sq_sum_pos (R : rcfType) n (v : 'cV[R]_n) : v != 0 -> 0 < \sum_i v i 0 * v i 0.
Proof.
  move=> vn. rewrite lt_def sumr_ge0 ?andbT; last by move=> i _; rewrite -expr2 sqr_ge0.
  apply: contra vn => /eqP E. apply/eqP/matrixP => i j. rewrite mxE ord1.
  have : v i 0 * v i 0 = 0 by apply: (psumr_eq0P _ E) => // l _; rewrite -expr2 sqr_ge0.
  by move/eqP; rewrite mulf_eq0 orbb => /eqP.
Qed.
Lemma id_pd (R : rcfType) n : positive_definite (1%:M : 'M[R]_n).
Proof.
  split; first by rewrite trmx1. move=> v vn. rewrite mulmx1 mxE. have := sq_sum_pos vn.
  by rewrite (eq_bigr (fun j => v^T 0 j * v j 0)) // => j _; rewrite mxE.
Qed.
Lemma skew_pos (R : rcfType) (v : 'cV[R]_2) : v != 0 -> 0 < (v^T *m skew R *m v) 0 0.
Proof.
  move=> vn. have := sq_sum_pos vn. rewrite !mxE !big_ord_recl !big_ord0 /= !mxE !big_ord_recl !big_ord0 /= !mxE /= !addr0 !mulr1 !mulr0 ?addr0.
  set a := v 0 0. set b := v (lift 0 0) 0 => P.
  rewrite -(@pmulrn_lgt0 _ _ 2) // mulr2n (squares (rcf_ring R) a b). apply: ltr_paddr P. by rewrite -expr2 sqr_ge0.
Qed.
Lemma not_conv (R : rcfType) (A : 'M[R]_2) i : A i 1 != 0 -> converged 1%:M 0 A = false.
Proof.
  move=> An. apply/negP => /forallP /(_ 1). rewrite /rhs_norm !norm_ofE.
  have -> : norm_of (1%:M : 'M[R]_2) 1 = 1 by rewrite /norm_of big_ord_recl big_ord1 !mxE /= mulr0 add0r mulr1 sqrtr1.
  rewrite oner_eq0 divr1 => H. have : 0 < norm_of A 1.
    rewrite sqrtr_gt0 lt_def sumr_ge0 ?andbT; last by move=> l _; rewrite -expr2 sqr_ge0.
    apply: contra An => /eqP E. have : A i 1 * A i 1 = 0 by apply: (psumr_eq0P _ E) => // l _; rewrite -expr2 sqr_ge0.
    by move/eqP; rewrite mulf_eq0 orbb.
  by rewrite ltNge H.
Qed.

(** A preconditioner that is positive but not symmetric (such as an incomplete LU factorization) can move away: with the
    identity as matrix and right-hand side, the squared error of the second column doubles in the first step. *)
Theorem block_cg_energy_refuted : forall R : rcfType,
  exact_solve (@std_solve R 2) /\ positive_definite (1%:M : 'M[R]_2) /\ (forall v : 'cV[R]_2, v != 0 -> 0 < (v^T *m skew R *m v) 0 0) /\
  exists X res, block_cg (@std_solve R 2) (mulmx (skew R)) 1%:M 1%:M 0 None (Some 1%N) = (X, res, 1%N) /\
    energy 1%:M 1%:M X 1 = 1 + 1 /\ energy 1%:M 1%:M (0 : 'M[R]_2) 1 = 1.
Proof.
  move=> R. split; first exact: std_solve_exact. split; first exact: id_pd.
  split; first exact: skew_pos.
  pose X1 := two_by_two (1 : R) 1 (-1) 0. pose R1 := two_by_two (0 : R) (-1) 1 1. exists X1, R1.
  pose al := two_by_two (1 + 1 : R) 1 (-1) 0.
  have HE : (skew R)^T *m skew R = two_by_two 1 1 1 (1 + 1) by rewrite skew2 tr2 mul2; congr two_by_two; simp2.
  have Hal : (skew R)^T *m skew R *m al = skew R by rewrite HE skew2 /al mul2; congr two_by_two; simp2; rewrite ?addrK ?subrr.
  have Su : (skew R)^T *m skew R \in unitmx.
    by apply: (@unit2 _ _ (two_by_two (1 + 1) (-1) (-1) 1)); rewrite HE one2 mul2; congr two_by_two; simp2; rewrite ?addrK ?subrr ?addNr // addrC addrK.
  have Gu : skew R \in unitmx by apply: (@unit2 _ _ (two_by_two 1 (-1) 0 1)); rewrite skew2 one2 mul2; congr two_by_two; simp2; rewrite ?addNr.
  have SA : std_solve ((skew R)^T *m skew R) (skew R) = Some al by rewrite /std_solve Su; congr Some; apply: (canLR (mulKmx Su)); rewrite Hal.
  have XE : skew R *m al = X1 by rewrite skew2 /al mul2 /X1; congr two_by_two; simp2; rewrite ?addrK.
  have RE : 1%:M - X1 = R1 by rewrite one2 /X1 sub2 /R1; congr two_by_two; rewrite ?subrr ?sub0r ?subr0 ?opprK.
  split.
    rewrite /block_cg mulmx0 subr0 (@not_conv _ _ 1); last by rewrite mxE eqxx oner_neq0.
    rewrite /= mul1mx trmx1 mul1mx mulmx1. rewrite SA add0r XE RE (@not_conv _ _ 1); last by rewrite mxE oner_neq0.
    by rewrite /std_solve Gu.
  have EE (E : 'M[R]_2) : (E^T *m 1%:M *m E) 1 1 = E 0 1 * E 0 1 + E 1 1 * E 1 1.
    rewrite mulmx1 mxE big_ord_recl big_ord1 !mxE. by have -> : lift 0 0 = 1 :> 'I_2 by apply: val_inj.
  split.
  - by rewrite /energy RE EE !mxE /= mulrNN mulr1.
  - by rewrite /energy subr0 EE !mxE /= mulr0 add0r mulr1.
Qed.
Print Assumptions block_cg_energy_refuted.

(** ** C140: block conjugate gradients solve every system *)
(** In exact arithmetic, with positive definite matrix and preconditioner and the default number of iterations (or any
    number of iterations above n / k), the only way to miss the tolerance is a linear dependence between the columns of
    the residual, which stops the iteration with exit code 2. *)
Theorem block_cg_converges_partial : forall (R : rcfType) n k (solve : 'M[R]_k -> 'M[R]_k -> option 'M[R]_k) (M KV : 'M[R]_n)
    (vec : 'M[R]_(n, k)) tol x0 maxiter X res code,
  exact_solve solve -> positive_definite KV -> positive_definite M -> (0 < k)%N -> (if maxiter is Some m then (n < m * k)%N else true) ->
  block_cg solve (mulmx M) KV vec tol x0 maxiter = (X, res, code) ->
  (code = 0%N /\ small vec tol (vec - KV *m X)) \/
  (code = 2%N /\ exists2 v : 'cV[R]_k, v != 0 & (vec - KV *m X) *m v = 0).
Proof.
  move=> R n k solve M KV vec tol x0 maxiter X res code [Hs Hn] [Ks Kp] [Ms Mp] k0 Hm E.
  have [Er Ec] := block_cg_exit_code E. rewrite /block_cg /= in E. move: E. set X0 := (if x0 is Some x then x else 0).
  case: (converged _ _ _) => [[E1 _ Ez]|E].
    left. split=> //. by apply/Ec.
  have := loop_conv Ks Ms Kp Mp Hs Hn E (inv0 KV Ms (vec - KV *m X0)).
  case=> [c0|[_ L]|[-> B]]; first by left; split=> //; apply/Ec.
  - move: L. rewrite add0n leqNgt => /negP[]. case: maxiter Hm {E Ec} => [m Hm|_].
      apply: leq_trans Hm _. by rewrite leq_mul2r leq_maxl orbT.
    case: n {Ks Kp Ms Mp X res KV M vec x0 X0 Er} => [|n]; first by rewrite muln0 max0n mul1n.
    apply: (@leq_trans (maxn (10 * n.+1) 1)); last by rewrite leq_pmulr.
    apply: leq_trans (leq_maxl _ _). by rewrite ltn_Pmull.
  - right. split=> //. by rewrite -Er.
Qed.
Print Assumptions block_cg_converges_partial.
(** One zero column in the right-hand side (for instance a prediction point outside the support of the kernel) stops the
    iteration at once: the whole block is returned unsolved, whatever the matrix and the other columns. *)
Theorem block_cg_converges_refuted : forall (R : rcfType) n k (solve : 'M[R]_k -> 'M[R]_k -> option 'M[R]_k) (M KV : 'M[R]_n)
    (vec : 'M[R]_(n, k)) tol maxiter j0 i j,
  exact_solve solve -> col j0 vec = 0 -> vec i j != 0 -> tol < 1 ->
  block_cg solve (mulmx M) KV vec tol None maxiter = (0, vec, 2%N).
Proof.
  move=> R n k solve M KV vec tol maxiter j0 i j [Hs _] Z N T. rewrite /block_cg mulmx0 subr0.
  have C : converged vec tol vec = false.
    apply/negP => /convergedP /(_ j)[_]. have P : 0 < norm_of vec j.
      rewrite sqrtr_gt0 lt_def sumr_ge0 ?andbT; last by move=> l _; rewrite -expr2 sqr_ge0.
      apply: contra N => /eqP E. have := psumr_eq0P _ E. move=> /(_ _ i isT) H.
      have : vec i j * vec i j = 0 by apply: H => l _; rewrite -expr2 sqr_ge0.
      by move/eqP; rewrite mulf_eq0 orbb.
    move=> /(_ (lt0r_neq0 P)). rewrite -{1}[norm_of _ _]mul1r ler_pmul2r // => H. by move: (le_lt_trans H T); rewrite ltxx.
  rewrite C. have [f ->] : exists f, maxn (if maxiter is Some m then m else (10 * n)%N) 1 = f.+1.
    exists (maxn (if maxiter is Some m then m else (10 * n)%N) 1).-1. by rewrite prednK // leq_max orbT.
  rewrite /=. case E: (solve _ _) => [x|] //. exfalso. have [Hu _] := Hs _ _ _ E.
  have v0 : delta_mx j0 0 = 0 :> 'cV[R]_k.
    have K0 : (M *m vec)^T *m (KV *m (M *m vec)) *m delta_mx j0 0 = 0 :> 'cV[R]_k by rewrite -!mulmxA -colE Z !mulmx0.
    by rewrite -[LHS](mulKmx Hu) K0 mulmx0.
  by move/matrixP/(_ j0 0): v0; rewrite !mxE !eqxx => /eqP; rewrite oner_eq0.
Qed.
Print Assumptions block_cg_converges_refuted.
(** The identity with right-hand side (2, 0; 0, 2) is solved (block_cg_ex); with right-hand side (2, 0; 0, 0) it is not. *)
Example block_cg_zero_column (R : rcfType) : block_cg (@std_solve R 2) (mulmx 1%:M) 1%:M (two_by_two 2%:R 0 0 0) 0 None None = (0, two_by_two 2%:R 0 0 0, 2%N).
Proof.
  apply: (@block_cg_converges_refuted R 2 2 _ _ _ _ _ _ 1 0 0).
  - exact: std_solve_exact.
  - apply/matrixP => i j. rewrite !mxE /=. by case: (i == 0).
  - by rewrite mxE pnatr_eq0.
  - exact: ltr01.
Qed.
(** the hypotheses of the two partial theorems hold together, for the identity and any right-hand side *)
Example block_cg_partial_example (R : rcfType) (vec : 'M[R]_(3, 2)) X res code :
  block_cg (@std_solve R 2) (mulmx 1%:M) 1%:M vec 0 None (Some 2%N) = (X, res, code) ->
  (forall j, energy 1%:M vec X j <= energy 1%:M vec 0 j) /\
  (code = 0%N \/ exists2 v : 'cV[R]_2, v != 0 & (vec - X) *m v = 0).
Proof.
  move=> E. split.
  - apply: (block_cg_energy_partial (@std_solve_exact R 2) (@id_pd R 3) _ _ E); last by rewrite mul1mx.
    by move=> A B; rewrite !mul1mx.
  - case: (block_cg_converges_partial (@std_solve_exact R 2) (@id_pd R 3) (@id_pd R 3) _ _ E) => // -[-> H]; [by left|right].
    by rewrite mul1mx in H.
Qed.
(** a symmetric indefinite preconditioner: the second small system is singular after the first step (code 3), the step is
    kept and the second column is solved *)
Section Breakdown.
Variable R : rcfType.
Definition swap3 : 'M[R]_3 := \matrix_(i, j) (((i : nat, j : nat) \in [:: (0, 1); (1, 0); (2, 2)])%N)%:R.
Definition rhs3 : 'M[R]_(3, 2) := \matrix_(i, j) (((i : nat, j : nat) \in [:: (0, 0); (2, 1)])%N)%:R.
Definition second3 : 'M[R]_(3, 2) := \matrix_(i, j) (((i : nat, j : nat) == (2, 1))%N)%:R.
Ltac entries := apply/matrixP; case=> [[|[|[|?]]] ?] //; case=> [[|[|[|?]]] ?] //;
  rewrite !(mxE, big_ord_recl, big_ord0) /= ?(mulr1, mul1r, mulr0, mul0r, addr0, add0r, subr0, subrr) //.
Example block_cg_breakdown : block_cg (@std_solve R 2) (mulmx swap3) 1%:M rhs3 0 None (Some 1%N) = (second3, rhs3 - second3, 3%N) /\
  energy 1%:M rhs3 second3 1 < energy 1%:M rhs3 0 1.
Proof.
  have N0 j : norm_of rhs3 j = 1.
    rewrite /norm_of !big_ord_recl big_ord0. case: j => [[|[|j]] Hj] //; rewrite !mxE /= ?(mulr1, mulr0, addr0, add0r) sqrtr1 //.
  have NC : forall A : 'M[R]_(3, 2), norm_of A 0 = 1 -> converged rhs3 0 A = false.
    move=> A HA. apply/negP => /convergedP /(_ 0)[_]. rewrite N0 HA mul0r oner_eq0 => /(_ isT). by rewrite ler10.
  have G0 : rhs3^T *m (swap3 *m rhs3) = two_by_two 0 0 0 1 by rewrite /two_by_two; entries.
  have H0 : (swap3 *m rhs3)^T *m (swap3 *m rhs3) = 1%:M by entries.
  have A0 : swap3 *m rhs3 *m two_by_two 0 0 0 1 = second3 by rewrite /two_by_two; entries.
  have Gn : two_by_two (0 : R) 0 0 1 \in unitmx = false.
    apply/negP => Gu. have : two_by_two (0 : R) 0 0 1 *m two_by_two 1 0 0 0 = 0.
      by rewrite mul2; apply: mx2P; rewrite !mxE /=; simp2.
    move/(congr1 (mulmx (invmx (two_by_two 0 0 0 1)))). rewrite mulKmx // mulmx0 => /matrixP /(_ 0 0). rewrite !mxE /= => /eqP. by rewrite oner_eq0.
  have E : block_cg (@std_solve R 2) (mulmx swap3) 1%:M rhs3 0 None (Some 1%N) = (second3, rhs3 - second3, 3%N).
    rewrite /block_cg mulmx0 subr0 NC; last exact: N0.
    rewrite (_ : maxn 1 1 = 1)%N // /bcg_loop mul1mx H0 G0 {1}/std_solve unitmx1 invmx1 mul1mx A0 add0r.
    rewrite NC; last first.
      rewrite /norm_of !big_ord_recl big_ord0 !mxE /=. by rewrite !subr0 !mulr0 !addr0 mulr1 sqrtr1.
    by rewrite /std_solve Gn.
  split=> //. have Hp : forall A B : 'M[R]_(3, 2), A^T *m (swap3 *m B) = (swap3 *m A)^T *m B.
    move=> A B. rewrite trmx_mul mulmxA. congr (_ *m _ *m _). by apply/matrixP => i j; case: i => [[|[|[|i]]] Hi] //; case: j => [[|[|[|j]]] Hj] //; rewrite !mxE.
  apply: (block_cg_progress_partial (@std_solve_exact R 2) (@id_pd R 3) Hp _ E _ _ (i := 1)) => //; first by rewrite mul1mx.
  - move=> /(_ 0)[_]. by rewrite /= mulmx0 subr0 N0 mul0r oner_eq0 => /(_ isT); rewrite ler10.
  - rewrite /= mulmx0 subr0 G0 mxE /=. exact: oner_neq0.
Qed.
End Breakdown.
