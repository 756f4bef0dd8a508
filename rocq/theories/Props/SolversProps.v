(** Properties of the solver modes of GPkv: C128-C131. *)
From Coq Require Import Reals Lra.
From Coq Require Import BinNums BinNat Nnat.
Definition big_n : N := 10001%N.
Definition big_nnz : N := 20001%N.
From mathcomp Require Import all_ssreflect all_algebra.
From Verif Require Import Model.CholUpdate Model.Solvers Spec.CholSpec Spec.SolversSpec Proofs.CholP Proofs.PosDef Proofs.SolversP.
From Verif Require Import Proofs.RealMx.
Set Implicit Arguments.
Unset Strict Implicit.
Unset Printing Implicit Defensive.
Import GRing.Theory Num.Theory.
Local Open Scope ring_scope.

Section Statements.
Variables (R : rcfType) (G : zmodType) (lg : R -> G).
Variable cho_factor np_inv : forall n, 'M[R]_n -> option 'M[R]_n.
Variable LUt : nat -> Type.
Variable splu : forall n, 'M[R]_n -> option (LUt n).
Variable lu_solve : forall n k, LUt n -> 'M[R]_(n, k) -> 'M[R]_(n, k).
Variable lu_diag : forall n, LUt n -> 'rV[R]_n.
Variable iterate : smode -> forall n k, 'M[R]_n -> 'M[R]_(n, k) -> 'M[R]_(n, k).
Variable estimate : nat -> forall n, 'M[R]_n -> G * option R.
Variable Obj : nat -> Type.
Variable c_factor : forall n, 'M[R]_n -> Obj n.
Variable c_solve : forall n k, Obj n -> 'M[R]_(n, k) -> 'M[R]_(n, k).
Variable c_logdet : forall n, Obj n -> G.
Hypothesis LG : log_like lg.
Hypothesis CC : chol_contract cho_factor.
Hypothesis CI : inv_contract np_inv.
Hypothesis CL : lu_contract splu lu_solve lu_diag.
Hypothesis CU : custom_contract lg c_factor c_solve c_logdet.

Notation Kset := (kv_set lg cho_factor np_inv splu lu_solve lu_diag iterate estimate c_factor c_solve c_logdet).
Notation Kapp := (kv_append lg cho_factor np_inv splu lu_solve lu_diag iterate estimate c_factor c_solve c_logdet).
Notation Ksolve := (solve lu_solve iterate c_solve).
Notation cnew := (compute_new lg cho_factor np_inv splu lu_solve lu_diag iterate estimate c_factor c_solve c_logdet).
Notation cnewy := (compute_new_y cho_factor np_inv splu lu_solve iterate c_factor c_solve).
Notation Kreached := (reached lg cho_factor np_inv splu lu_solve lu_diag iterate estimate c_factor c_solve c_logdet).
Notation Keval := (evaluate lg cho_factor np_inv splu lu_solve lu_diag iterate estimate c_factor c_solve c_logdet).
Notation Kevaluated := (evaluated lg cho_factor np_inv splu lu_solve lu_diag iterate estimate c_factor c_solve c_logdet).

(** C128: after any history of sets and appends, in every mode, the stored solution and log-determinant are those of the
    current matrix and every later solve is a solve with the current matrix; which updates succeed *)
Theorem solver_state : forall mode k n KV (y : 'M[R]_(n, k)) (s : kv R G LUt Obj k n), Kreached mode KV y s ->
  (exact_mode mode -> (mode = Custom -> lead KV n \in unitmx) ->
     lead KV n \in unitmx /\ solves (lead KV n) y (v_KVinvY s) /\ v_logdet s = lg `|\det (lead KV n)| /\
     (forall m (b : 'M[R]_(n, m)), solves (lead KV n) b (Ksolve mode (v_factor s) b))) /\
  (~~ exact_mode mode -> forall good, iter_contract good iterate ->
     good n k (lead KV n) y (v_KVinvY s) /\ (exists c, v_logdet s = (estimate c (lead KV n)).1) /\
     (forall m (b : 'M[R]_(n, m)), good n m (lead KV n) b (Ksolve mode (v_factor s) b))).
Proof.
move=> mode k n KV y s H; split=> [EM CUs|EM good CG]; first exact: (state_exact_l LG CC CI CL CU H EM CUs).
have [E1 [E2 E3]] := state_iter_l CC CI CL H EM.
by rewrite E1; split; [exact: CG | split=> // m b; rewrite E3; exact: CG].
Qed.

Theorem solver_accepts : forall mode k n KV (y : 'M[R]_(n, k)), symmetric (lead KV n) ->
  (forall mm, (exists s, Kset mode KV y mm = Some s) <-> accepts mode (lead KV n)) /\
  (forall n0 KV0 (y0 : 'M[R]_(n0, k)) s0, Kreached mode KV0 y0 s0 -> (n0 <= n -> agree n0 KV KV0)%N ->
     (exists s, Kapp mode s0 KV y = Some s) <-> accepts mode (lead KV n)).
Proof. by move=> *; apply: state_accept_l. Qed.

(** C129: log_likelihood() from the cache and log_likelihood(h) at the stored hyperparameters, in any two exact modes *)
Theorem cached_equals_fresh : forall mode mode' k n KV (y : 'M[R]_(n, k)) (s : kv R G LUt Obj k n) mm,
  Kreached mode KV y s -> exact_mode mode -> exact_mode mode' ->
  (mode = Custom \/ mode' = Custom -> lead KV n \in unitmx) ->
  (forall x d mm', cnew mode' (lead KV n) y mm = Some (x, d, mm') -> [/\ x = v_KVinvY s, d = v_logdet s & mm' = mm]) /\
  (forall x, cnewy mode' (lead KV n) y = Some x -> x = v_KVinvY s) /\
  (posdef (lead KV n) -> exists x d, cnew mode' (lead KV n) y mm = Some (x, d, mm) /\ cnewy mode' (lead KV n) y = Some x).
Proof. move=> mode mode' k n KV y s mm H E E' C; exact: (cached_fresh_l LG CC CI CL CU mm H E E' C). Qed.

(** C130, what holds: with a mode that cannot change between evaluations (no gp2Scale, or a mode chosen by the user) *)
Theorem variance_describes_last_partial :
  (forall mode gp2 lm k n KV (y : 'M[R]_(n, k)) s es mm1 e x d mm2, gp2 = false \/ lm = Some mode ->
     Kset mode KV y (Mem None 0) = Some s -> Kevaluated mode gp2 lm (v_mem s) es mm1 ->
     Keval gp2 lm mode e mm1 = Some (x, d, mm2) ->
     (exact_mode mode -> log_likelihood_variance mm2 = None) /\
     (~~ exact_mode mode -> exists c, d = (estimate c (e_A e)).1 /\
        log_likelihood_variance mm2 = omap (fun v => v / 4%:R) (estimate c (e_A e)).2)) /\
  (forall m (d : 'I_m -> R) l1 c, (0 < m)%N -> spread (fun i => loglik_of l1 c (d i)) = spread d / 4%:R).
Proof.
split=> [mode gp2 lm k n KV y s es mm1 e x d mm2 Fx Sx Es Ee|*]; last exact: spread_scale.
exact: (variance_l Fx Sx Es Ee).
Qed.

(** C130, what fails: in gp2Scale with automatic mode an exact evaluation reports the variance of an earlier stochastic one *)
Definition eval_at (n : nat) (nnz : BinNums.N) : evaluation R := @Ev R n nnz 1 1%:M 0.
Lemma stale_variance n : N.of_nat n = big_n ->
  let e1 := eval_at n big_nnz in let e2 := eval_at n big_n in
  forall v, (estimate 0 (e_A e1)).2 = Some v ->
  exists x1 d1 mm1 x2 d2 mm2,
    Keval true None SparseMINRES e1 (Mem None 0) = Some (x1, d1, mm1) /\
    Keval true None SparseMINRES e2 mm1 = Some (x2, d2, mm2) /\
    (exact_mode (eval_mode true None SparseMINRES (N.of_nat (e_n e2)) (e_nnz e2)) /\ d2 = lg `|\det (e_A e2)|) /\
    log_likelihood_variance mm2 = Some (v / 4%:R).
Proof.
move=> En e1 e2 v Ev.
have M1 : eval_mode true None SparseMINRES (N.of_nat (e_n e1)) (e_nnz e1) = SparseMINRES by rewrite /e1 /= En.
have M2 : eval_mode true None SparseMINRES (N.of_nat (e_n e2)) (e_nnz e2) = SparseLU by rewrite /e2 /= En.
have [E1 _] := compute_new_iter lg cho_factor np_inv splu lu_solve lu_diag iterate estimate c_factor c_solve c_logdet
                 (e_A e1) (e_y e1) (Mem None 0) (isT : ~~ exact_mode SparseMINRES).
have S2 : symmetric (e_A e2) by exact: trmx1.
have NC : SparseLU = Custom -> e_A e2 \in unitmx by [].
have [P1 [_ [P3 _]]] := compute_new_as_state iterate estimate LG CC CI CL CU (e_y e2) (Mem (Some v) 1) S2 (isT : exact_mode SparseLU) NC.
have [[[x2 d2] mm2] E2] : exists r, cnew SparseLU (e_A e2) (e_y e2) (Mem (Some v) 1) = Some r by apply/P3; exact: unitmx1.
have [_ Ed Em] := P1 _ _ _ E2.
exists (iterate SparseMINRES (e_A e1) (e_y e1)), (estimate 0 (e_A e1)).1, (Mem (Some v) 1), x2, d2, mm2.
split; first by rewrite /evaluate M1 E1 -Ev.
split; first by rewrite /evaluate M2 E2.
by rewrite M2 Ed Em.
Qed.
Theorem variance_describes_last_refuted : exists n : nat,
  let e1 := eval_at n big_nnz in let e2 := eval_at n big_n in
  N.of_nat n = big_n /\ forall v, (estimate 0 (e_A e1)).2 = Some v ->
  exists x1 d1 mm1 x2 d2 mm2,
    Keval true None SparseMINRES e1 (Mem None 0) = Some (x1, d1, mm1) /\
    Keval true None SparseMINRES e2 mm1 = Some (x2, d2, mm2) /\
    (exact_mode (eval_mode true None SparseMINRES (N.of_nat (e_n e2)) (e_nnz e2)) /\ d2 = lg `|\det (e_A e2)|) /\
    log_likelihood_variance mm2 = Some (v / 4%:R).
Proof.
have [n En] : exists n, N.of_nat n = big_n by eexists; exact: (N2Nat.id big_n).
by exists n; split=> //; exact: stale_variance.
Qed.

(** C131, what holds: the Cholesky modes never store or evaluate a matrix that is not positive definite *)
Theorem nonpd_rejected_partial : forall mode, chol_mode mode ->
  (forall k n KV (y : 'M[R]_(n, k)) s, Kreached mode KV y s -> posdef (lead KV n)) /\
  (forall k n (A : 'M[R]_n) (y : 'M[R]_(n, k)) mm r, symmetric A -> cnew mode A y mm = Some r -> posdef A) /\
  (forall k n (A : 'M[R]_n) (y : 'M[R]_(n, k)) x, symmetric A -> cnewy mode A y = Some x -> posdef A).
Proof.
move=> mode CM; have EM : exact_mode mode by case: mode CM.
have NC : forall P, mode = Custom -> P by case: mode CM {EM} => // ? P.
have AE n (A : 'M[R]_n) : accepts mode A = posdef A by case: mode CM {EM NC}.
split; [|split].
- move=> k n KV y s H; have [S [Hf _]] := reached_holds CC CI CL H.
  case: mode CM {EM NC AE H} Hf => // _; case: (v_factor s) => //=.
    by move=> L C; apply: chol_posdef; apply/is_cholE; exact: C.
  by move=> L B [C _]; apply: chol_posdef; apply/is_cholE; exact: C.
- move=> k n A y mm r S E; have [_ [_ [P _]]] := compute_new_as_state iterate estimate LG CC CI CL CU y mm S EM (NC _).
  by rewrite -AE; apply/P; exists r.
- move=> k n A y x S E; have [_ [_ [_ P]]] := compute_new_as_state iterate estimate LG CC CI CL CU y (Mem None 0) S EM (NC _).
  by rewrite -AE; apply/P; exists x.
Qed.

(** C131, what fails: Inv and sparseLU turn a negative definite matrix into a stored state and into a likelihood value *)
Theorem nonpd_rejected_refuted : forall mode, mode = Inv \/ mode = SparseLU ->
  let A : 'M[R]_1 := (-1)%:M in let KV := fun _ _ : nat => -1 : R in
  ~ posdef A /\ lead KV 1 = A /\
  (exists s, Kset mode KV (1%:M : 'M[R]_1) (Mem None 0) = Some s /\ v_KVinvY s = (-1)%:M /\ v_logdet s = lg 1) /\
  (exists mm, cnew mode A (1%:M : 'M[R]_1) (Mem None 0) = Some ((-1)%:M, lg 1, mm)).
Proof.
move=> mode HM A KV; have EM : exact_mode mode by case: HM => ->.
have NC : forall P : Prop, mode = Custom -> P by case: HM => -> P.
have LE : lead KV 1 = A by apply/matrixP=> i j; rewrite !ord1 !mxE.
have SA : symmetric A by exact: tr_scalar_mx.
have UA : A \in unitmx by rewrite unitmxE det_scalar expr1 unitfE oppr_eq0 oner_eq0.
have AC : accepts mode A by case: HM => -> /=.
have DA : lg `|\det A| = lg 1 by rewrite det_scalar expr1 normrN1.
have XA : solves A 1%:M (-1)%:M by rewrite /solves -scalar_mxM mulrNN mulr1.
split; [|split=> //; split].
- move=> /(_ (const_mx 1)) P; have N : (const_mx 1 : 'cV[R]_1) != 0 by apply/eqP=> /matrixP /(_ 0 0); rewrite !mxE => /eqP; rewrite oner_eq0.
  have := P N; rewrite mul_mx_scalar -scalemxAl !mxE big_ord1 !mxE !mulr1 => H.
  by move: H; rewrite ltr0N1.
- have S' : symmetric (lead KV 1) by rewrite LE.
  have [K _] := state_accept_l lg iterate estimate c_factor c_solve c_logdet CC CI CL mode (1%:M : 'M[R]_1) S'.
  have [s Es] : exists s, Kset mode KV (1%:M : 'M[R]_1) (Mem None 0) = Some s by apply/K; rewrite LE.
  exists s; split=> //; have Rs := r_set S' Es.
  have [_ [X [D _]]] := state_exact_l LG CC CI CL CU Rs EM (NC _).
  rewrite LE in X D; rewrite D DA; split=> //; exact: (unique_solution UA X XA).
- have [P1 [_ [P3 _]]] := compute_new_as_state iterate estimate LG CC CI CL CU (1%:M : 'M[R]_1) (Mem None 0) SA EM (NC _).
  have [[[x d] mm] E] := iffRL P3 AC; have [X D _] := P1 _ _ _ E; exists mm.
  by rewrite E D DA (unique_solution UA X XA).
Qed.
End Statements.
Print Assumptions solver_state.
Print Assumptions solver_accepts.
Print Assumptions cached_equals_fresh.
Print Assumptions variance_describes_last_partial.
Print Assumptions variance_describes_last_refuted.
Print Assumptions nonpd_rejected_partial.
Print Assumptions nonpd_rejected_refuted.

(** the contracts can be met, over every real closed field *)
Section Possible.
Variables (R : rcfType) (G : zmodType) (lg : R -> G).
Definition ent n (A : 'M[R]_n) (i j : nat) : R :=
  if (insub i : option 'I_n) is Some a then if (insub j : option 'I_n) is Some b then A a b else 0 else 0.
Definition my_cho n (A : 'M[R]_n) : option 'M[R]_n := update_Chol_factor (0 : 'M[R]_0) (ent A) n.
Definition my_inv n (A : 'M[R]_n) : option 'M[R]_n := if A \in unitmx then Some (invmx A) else None.
Definition my_lu n (A : 'M[R]_n) : option 'M[R]_n := if A \in unitmx then Some A else None.
Definition my_sol n k (F : 'M[R]_n) (b : 'M[R]_(n, k)) : 'M[R]_(n, k) := invmx F *m b.
Definition my_diag n (F : 'M[R]_n) : 'rV[R]_n := \row_(i < n) (if i == 0%N :> nat then \det F else 1).
Definition my_logdet n (F : 'M[R]_n) : G := lg `|\det F|.

Lemma lead_ent n (A : 'M[R]_n) : lead (ent A) n = A.
Proof. by apply/matrixP=> i j; rewrite mxE /ent !valK. Qed.
Example contracts_possible :
  chol_contract my_cho /\ inv_contract my_inv /\ lu_contract (LUt := fun n => 'M[R]_n) my_lu my_sol my_diag /\
  custom_contract lg (Obj := fun n => 'M[R]_n) (fun n A => A) my_sol my_logdet.
Proof.
split; [|split; [|split]].
- move=> n A S; have C0 : is_chol (0 : 'M[R]_0) (lead (ent A) 0) by split=> [[]|[]].
  have S' : symmetric (lead (ent A) n) by rewrite lead_ent.
  by have := update_Chol_ok (leq0n n) C0 (fun i j _ _ => erefl) S'; rewrite lead_ent.
- move=> n A; rewrite /my_inv; case: ifP => U; split=> //; last by split=> [[]|].
  + by move=> B [<-]; rewrite mulmxV.
  + by split=> // _; eexists.
- move=> n A; rewrite /my_lu; case: ifP => U; split=> //; last by split=> [[]|].
  + move=> F [<-]; split=> [k b|]; first by rewrite /my_sol mulKVmx.
    case: n A U F => [|n] A U F; first by rewrite big_ord0 det_mx00.
    rewrite big_ord_recl mxE eqxx big1 ?mulr1 // => i _; by rewrite mxE.
  + by split=> // _; eexists.
- by move=> n A U; split=> // k b; rewrite /my_sol mulKVmx.
Qed.
End Possible.

(** the logarithm of the reals *)
Example log_possible : log_like (fun a : R_rcfType => ln (Rabs a) : R_rcfType).
Proof.
move=> a b /eqP a0 /eqP b0; rewrite /= -[(a * b)%R]/(Rmult a b) Rabs_mult ln_mult //; exact: Rabs_pos_lt.
Qed.

(** one point with K+V = 2, then a second one: K+V = [[2, 1], [1, 2]]; whatever libraries are used, the update in the mode
    Inv succeeds and the object then holds the log-determinant of 3 *)
Example state_example (R : rcfType) (G : zmodType) (lg : R -> G) it est (a : R) :
  log_like lg ->
  let KV := fun i j : nat => if i == j then 2%:R else 1 : R in
  let y : 'cV[R]_1 := const_mx a in let y' : 'cV[R]_2 := const_mx a in
  exists s0 s,
    kv_set lg (@my_cho R) (@my_inv R) (LUt := fun n => 'M[R]_n) (@my_lu R) (@my_sol R) (@my_diag R) it est
      (Obj := fun n => 'M[R]_n) (fun n A => A) (@my_sol R) (my_logdet lg) Inv KV y (Mem None 0) = Some s0 /\
    kv_append lg (@my_cho R) (@my_inv R) (LUt := fun n => 'M[R]_n) (@my_lu R) (@my_sol R) (@my_diag R) it est
      (Obj := fun n => 'M[R]_n) (fun n A => A) (@my_sol R) (my_logdet lg) Inv s0 KV y' = Some s /\
    v_logdet s = lg 3%:R /\ v_KVinvY s = const_mx (a / 3%:R).
Proof.
move=> LG KV y y'; have [CC [CI [CL CU]]] := contracts_possible lg.
have S1 : symmetric (lead KV 1) by apply/matrixP=> i j; rewrite !mxE !ord1.
have S2 : symmetric (lead KV 2) by apply/matrixP=> i j; rewrite !mxE /KV eq_sym.
have D2 : \det (lead KV 2) = 3%:R.
  rewrite (expand_det_row _ 0) big_ord_recl big_ord1 /cofactor !det_mx11 !mxE /KV /=.
  by rewrite expr0 expr1 !mul1r mulN1r -natrM -[1]/(1%:R) -natrB.
have t0 : (3%:R : R) != 0 by rewrite pnatr_eq0.
have U2 : lead KV 2 \in unitmx by rewrite unitmxE D2 unitfE.
have U1 : lead KV 1 \in unitmx by rewrite unitmxE det_mx11 mxE /KV /= unitfE pnatr_eq0.
have [K1 _] := state_accept_l lg it est (fun n (A : 'M[R]_n) => A) (@my_sol R) (my_logdet lg) CC CI CL Inv y S1.
have [s0 E0] := iffRL (K1 (Mem None 0)) U1; have R0 := r_set S1 E0.
have [_ K2] := state_accept_l lg it est (fun n (A : 'M[R]_n) => A) (@my_sol R) (my_logdet lg) CC CI CL Inv y' S2.
have Ag : (1 <= 2 -> agree 1 KV KV)%N by [].
have [s E] := iffRL (K2 _ _ _ _ R0 Ag) U2; have Rs := r_append R0 S2 Ag E.
exists s0, s; split=> //; split=> //.
have [_ [X [D _]]] := state_exact_l LG CC CI CL CU Rs isT (fun e : Inv = Custom => match e with end).
rewrite D D2 ger0_norm ?ler0n //; split=> //; apply: (unique_solution U2 X).
apply/matrixP=> i j; rewrite /solves !mxE big_ord_recl big_ord1 !mxE /KV.
have E3 : a / 3%:R + 2%:R * (a / 3%:R) = a by rewrite -[X in X + _]mul1r -mulrDl -[1]/(1%:R) -natrD mulrC divfK.
case: i => [[|[|]]] //= _; rewrite ?mul1r //; by rewrite addrC.
Qed.
