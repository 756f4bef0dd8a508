(** Derivatives of determinants, inverses, traces and quadratic forms of matrices over the reals. *)
From Coq Require Import Reals Lra FunctionalExtensionality.
From mathcomp Require Import all_ssreflect all_algebra fingroup perm.
From Verif Require Import Proofs.RealMx.
Set Implicit Arguments.
Unset Strict Implicit.
Unset Printing Implicit Defensive.
Import Order.TTheory GRing.Theory Num.Theory.
Local Open Scope ring_scope.

Notation dpl := derivable_pt_lim.
Lemma dpl_eq (f g : R -> R) x l l' : dpl f x l -> f =1 g -> l = l' -> dpl g x l'.
Proof. by move=> H E <-; have <- : f = g by apply: functional_extensionality. Qed.
Lemma dpl_const (a : R) x : dpl (fun _ => a) x 0. Proof. exact: derivable_pt_lim_const. Qed.
Lemma dplD (f g : R -> R) x a b : dpl f x a -> dpl g x b -> dpl (fun t => f t + g t) x (a + b).
Proof. exact: derivable_pt_lim_plus. Qed.
Lemma dplN (f : R -> R) x a : dpl f x a -> dpl (fun t => - f t) x (- a).
Proof. exact: derivable_pt_lim_opp. Qed.
Lemma dplM (f g : R -> R) x a b : dpl f x a -> dpl g x b -> dpl (fun t => f t * g t) x (a * g x + f x * b).
Proof. exact: derivable_pt_lim_mult. Qed.
Lemma dplZ (c : R) (f : R -> R) x a : dpl f x a -> dpl (fun t => c * f t) x (c * a).
Proof. by move=> H; apply: (dpl_eq (dplM (dpl_const c x) H))=> //; rewrite mul0r add0r. Qed.
Lemma dplB (f g : R -> R) x a b : dpl f x a -> dpl g x b -> dpl (fun t => f t - g t) x (a - b).
Proof. by move=> F G; apply: (dplD F (dplN G)). Qed.
Lemma dpl_uniq (f : R -> R) x a b : dpl f x a -> dpl f x b -> a = b.
Proof. exact: uniqueness_limite. Qed.
Lemma dpl_id x : dpl id x 1. Proof. exact: derivable_pt_lim_id. Qed.
Lemma invE (x : R) : x != 0 -> x^-1 = Rinv x.
Proof. by rewrite /GRing.inv /= /Rinvx => ->. Qed.

Lemma dpl_cont (f : R -> R) x a : dpl f x a -> continuity_pt f x.
Proof. by move=> H; apply: derivable_continuous_pt; exists a. Qed.
(** a function differentiable and nonzero at x is nonzero near x *)
Lemma dpl_near (f : R -> R) x a : dpl f x a -> f x != 0 ->
  exists2 d : R, Rlt 0 d & forall y, Rlt (Rabs (y - x)%coqR) d -> f y != 0.
Proof.
move=> H /eqP N; have C := dpl_cont H.
have P : Rlt 0 (Rabs (f x)) by apply: Rabs_pos_lt.
case: (C _ P)=> d [dp Hd]; exists d=> // y yd; apply/eqP=> fy.
have [e|ne] := Req_EM_T x y; first by apply: N; rewrite e fy.
have := Hd y; rewrite /D_x /no_cond /= /R_dist fy => Q.
have Q' : Rlt (Rabs (0 - f x)%coqR) (Rabs (f x)) by apply: Q; split=> //; split.
by move: Q'; rewrite Rminus_0_l Rabs_Ropp; apply: Rlt_irrefl.
Qed.
Lemma dpl_local (f g : R -> R) x l d : Rlt 0 d -> (forall y, Rlt (Rabs (y - x)%coqR) d -> f y = g y) -> dpl f x l -> dpl g x l.
Proof.
move=> dp E H; apply: (derivable_pt_lim_locally_ext f g x (x - d)%coqR (x + d)%coqR l)=> //; first lra.
by move=> z zz; apply: E; apply: Rabs_def1; lra.
Qed.
Lemma dplV (f : R -> R) x a : dpl f x a -> f x != 0 -> dpl (fun t => (f t)^-1) x (- a / f x ^+ 2).
Proof.
move=> H N; have [d dp Hd] := dpl_near H N.
apply: (@dpl_local (fun t => Rinv (f t)) _ _ _ d)=> // [y /Hd yN|]; first by rewrite invE.
apply: (dpl_eq (derivable_pt_lim_div (fct_cte 1%coqR) f x 0%coqR a (derivable_pt_lim_const _ _) H _)).
- exact/eqP.
- by move=> t; rewrite /div_fct /fct_cte /Rdiv Rmult_1_l.
have N2 : f x ^+ 2 != 0 by rewrite expf_neq0.
rewrite invE //; change (f x ^+ 2) with (f x * f x)%coqR; rewrite /fct_cte /Rsqr; change ((0 * f x - a * 1) / (f x * f x) = - a * / (f x * f x))%coqR.
by field; exact/eqP.
Qed.
Lemma dpl_ln (f : R -> R) x a : dpl f x a -> 0 < f x -> dpl (fun t => ln (f t)) x (a / f x).
Proof.
move=> H /RltP P; apply: (dpl_eq (derivable_pt_lim_comp f ln x a (/ f x)%coqR H (derivable_pt_lim_ln _ P)))=> //.
by rewrite invE; [rewrite mulrC | apply/eqP; move: P; change (0:R) with R0; lra].
Qed.

Lemma dpl_sum (I : Type) (r : seq I) (P : pred I) (F : I -> R -> R) (dF : I -> R) x :
  (forall i, P i -> dpl (F i) x (dF i)) -> dpl (fun t => \sum_(i <- r | P i) F i t) x (\sum_(i <- r | P i) dF i).
Proof.
move=> H; elim: r=> [|i r IH].
  by rewrite big_nil; apply: (dpl_eq (dpl_const 0 x))=> // t; rewrite big_nil.
rewrite big_cons; case: ifP=> Pi.
  by apply: (dpl_eq (dplD (H i Pi) IH))=> // t; rewrite big_cons Pi.
by apply: (dpl_eq IH)=> // t; rewrite big_cons Pi.
Qed.
Lemma dpl_prod (I : eqType) (r : seq I) (F : I -> R -> R) (dF : I -> R) x : uniq r ->
  (forall i, dpl (F i) x (dF i)) ->
  dpl (fun t => \prod_(i <- r) F i t) x (\sum_(k <- r) dF k * \prod_(i <- r | i != k) F i x).
Proof.
move=> U H; elim: r U=> [|a r IH] /= U.
  by rewrite big_nil; apply: (dpl_eq (dpl_const 1 x))=> // t; rewrite big_nil.
case/andP: U=> aN U; apply: (dpl_eq (dplM (H a) (IH U))).
  by move=> t; rewrite big_cons.
rewrite big_cons big_cons eqxx /=; congr (_ * _ + _).
  rewrite [RHS]big_seq_cond [LHS]big_seq; apply: eq_bigl=> i; case: (boolP (i \in r))=> //= ir.
  by apply/esym; apply: contraNneq aN=> <-.
rewrite big_distrr /=; apply: eq_big_seq=> k kr.
have ak : (a != k) by apply: contraNneq aN=> ->.
by rewrite big_cons ak mulrCA.
Qed.

Definition mxd m n (A : R -> 'M[R]_(m, n)) (x : R) (dA : 'M[R]_(m, n)) := forall i j, dpl (fun t => A t i j) x (dA i j).
Lemma mxd_eq m n (A B : R -> 'M[R]_(m, n)) x dA dB : mxd A x dA -> A =1 B -> dA = dB -> mxd B x dB.
Proof. by move=> H E <- i j; apply: (dpl_eq (H i j))=> // t; rewrite E. Qed.
Lemma mxd_const m n (A : 'M[R]_(m, n)) x : mxd (fun _ => A) x 0.
Proof. by move=> i j; rewrite mxE; apply: dpl_const. Qed.
Lemma mxdD m n (A B : R -> 'M[R]_(m, n)) x dA dB : mxd A x dA -> mxd B x dB -> mxd (fun t => A t + B t) x (dA + dB).
Proof. by move=> HA HB i j; apply: (dpl_eq (dplD (HA i j) (HB i j))); [move=> t|]; rewrite mxE. Qed.
Lemma mxdN m n (A : R -> 'M[R]_(m, n)) x dA : mxd A x dA -> mxd (fun t => - A t) x (- dA).
Proof. by move=> HA i j; apply: (dpl_eq (dplN (HA i j))); [move=> t|]; rewrite mxE. Qed.
Lemma mxdB m n (A B : R -> 'M[R]_(m, n)) x dA dB : mxd A x dA -> mxd B x dB -> mxd (fun t => A t - B t) x (dA - dB).
Proof. by move=> HA HB; apply: mxdD=> //; apply: mxdN. Qed.
Lemma mxdM m n q (A : R -> 'M[R]_(m, n)) (B : R -> 'M[R]_(n, q)) x dA dB : mxd A x dA -> mxd B x dB ->
  mxd (fun t => A t *m B t) x (dA *m B x + A x *m dB).
Proof.
move=> HA HB i j; rewrite mxE mxE mxE -big_split /=.
have D k := dplM (HA i k) (HB k j).
apply: (dpl_eq (dpl_sum (index_enum _) (P := xpredT) (fun k _ => D k)))=> // t; rewrite mxE; exact: eq_bigr.
Qed.
Lemma mxdT m n (A : R -> 'M[R]_(m, n)) x dA : mxd A x dA -> mxd (fun t => (A t)^T) x dA^T.
Proof. by move=> H i j; apply: (dpl_eq (H j i)); [move=> t|]; rewrite mxE. Qed.
Lemma mxdZ m n (f : R -> R) (A : R -> 'M[R]_(m, n)) x a dA : dpl f x a -> mxd A x dA ->
  mxd (fun t => f t *: A t) x (a *: A x + f x *: dA).
Proof. by move=> F H i j; apply: (dpl_eq (dplM F (H i j))); [move=> t|]; rewrite !mxE. Qed.
Lemma mxd_uniq m n (A : R -> 'M[R]_(m, n)) x a b : mxd A x a -> mxd A x b -> a = b.
Proof. by move=> HA HB; apply/matrixP=> i j; apply: dpl_uniq (HA i j) (HB i j). Qed.

(** Jacobi's formula *)
Lemma dpl_det n (A : R -> 'M[R]_n) x dA : mxd A x dA -> dpl (fun t => \det (A t)) x (\tr (\adj (A x) *m dA)).
Proof.
move=> H; rewrite /determinant.
have D (s : 'S_n) : dpl (fun t => (-1) ^+ s * \prod_i A t i (s i)) x
   ((-1) ^+ s * \sum_k dA k (s k) * \prod_(i | i != k) A x i (s i)).
  by apply: dplZ; apply: dpl_prod (index_enum_uniq _) _ => i; apply: H.
apply: (dpl_eq (dpl_sum (index_enum _) (P := xpredT) (fun s _ => D s)))=> //.
pose C k := \matrix_(i, j) (if i == k then dA i j else A x i j) : 'M[R]_n.
have E k : \det (C k) = \sum_(s : 'S_n) (-1) ^+ s * (dA k (s k) * \prod_(i | i != k) A x i (s i)).
  rewrite /determinant; apply: eq_bigr=> s _; congr (_ * _).
  rewrite (bigD1 k) //= mxE eqxx; congr (_ * _).
  by apply: eq_bigr=> i /negPf ik; rewrite mxE ik.
transitivity (\sum_k \det (C k)).
  under [in RHS]eq_bigr do rewrite E.
  rewrite exchange_big /=; apply: eq_bigr=> s _; by rewrite big_distrr.
rewrite mxtrace_mulC /mxtrace; apply: eq_bigr=> k _.
rewrite (expand_det_row _ k) mxE; apply: eq_bigr=> j _.
rewrite !mxE eqxx; congr (_ * _); rewrite /cofactor; congr (_ * \det _).
by apply/matrixP=> a b; rewrite !mxE eq_sym (negPf (neq_lift _ _)).
Qed.
Lemma det_adj n (A : 'M[R]_n) : A \in unitmx -> \adj A = \det A *: invmx A.
Proof. by move=> U; rewrite /invmx U scalerA mulrV // scale1r. Qed.
Lemma dpl_lndet n (A : R -> 'M[R]_n) x dA : mxd A x dA -> 0 < \det (A x) ->
  dpl (fun t => ln (\det (A t))) x (\tr (invmx (A x) *m dA)).
Proof.
move=> H P; apply: (dpl_eq (dpl_ln (dpl_det H) P))=> //.
have U : A x \in unitmx by rewrite unitmxE unitfE gt_eqF.
by rewrite det_adj // -scalemxAl mxtraceZ mulrC mulrA mulVf ?mul1r // gt_eqF.
Qed.

(** the derivative of the inverse *)
Lemma mxd_adj n (A : R -> 'M[R]_n) x dA : mxd A x dA -> exists D, mxd (fun t => \adj (A t)) x D.
Proof.
move=> H; exists (\matrix_(i, j) ((-1) ^+ (j + i) * \tr (\adj (row' j (col' i (A x))) *m row' j (col' i dA)))).
move=> i j; rewrite mxE.
have M : mxd (fun t => row' j (col' i (A t))) x (row' j (col' i dA)).
  by move=> a b; apply: (dpl_eq (H (lift j a) (lift i b))); [move=> t|]; rewrite !mxE.
by apply: (dpl_eq (dplZ ((-1) ^+ (j + i)) (dpl_det M)))=> // t; rewrite mxE.
Qed.
Lemma mxd_inv n (A : R -> 'M[R]_n) x dA : mxd A x dA -> A x \in unitmx ->
  mxd (fun t => invmx (A t)) x (- (invmx (A x) *m dA *m invmx (A x))).
Proof.
move=> H U; have [D HD] := mxd_adj H.
have N : \det (A x) != 0 by rewrite -unitfE -unitmxE.
have [d dp Hd] := dpl_near (dpl_det H) N.
have I0 := mxdZ (dplV (dpl_det H) N) HD; set D0 := (_ *: _ + _) in I0.
have I1 : mxd (fun t => invmx (A t)) x D0.
  move=> i j; apply: (@dpl_local (fun t => ((\det (A t))^-1 *: \adj (A t)) i j) _ _ _ d)=> // y /Hd yN.
  by rewrite /invmx unitmxE unitfE yN.
have M := mxdM H I1.
have C : mxd (fun t => A t *m invmx (A t)) x 0.
  move=> i j; apply: (@dpl_local (fun t => (1%:M : 'M[R]_n) i j) _ _ _ d)=> //; last by rewrite [X in dpl _ _ X]mxE; apply: dpl_const.
  by move=> y /Hd yN; rewrite mulmxV // unitmxE unitfE.
have E := mxd_uniq M C; have <- : D0 = - (invmx (A x) *m dA *m invmx (A x)); last exact: I1.
have E' : A x *m D0 = - (dA *m invmx (A x)) by apply/eqP; rewrite -addr_eq0 addrC E.
by rewrite -(mulKmx U D0) E' mulmxN mulmxA.
Qed.
