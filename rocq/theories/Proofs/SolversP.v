(** Proofs about the solver modes (C128-C131). *)
From mathcomp Require Import all_ssreflect all_algebra.
From Verif Require Import Model.CholUpdate Model.Solvers Spec.CholSpec Spec.SolversSpec Proofs.CholP Proofs.PosDef.
Set Implicit Arguments.
Unset Strict Implicit.
Unset Printing Implicit Defensive.
Import GRing.Theory Num.Theory.
Local Open Scope ring_scope.

Section Casts.
Variable R : rcfType.
Implicit Type f g : nat -> nat -> R.

Lemma arrE f n : arr f n = lead f n. Proof. by []. Qed.
Lemma chol_cast m N f (L : 'M[R]_m) : m = N -> is_chol L (lead f m) -> is_chol (conform_mx 0 L : 'M[R]_N) (lead f N).
Proof. by move=> E; case: N / E; rewrite conform_mx_id. Qed.
Lemma inv_cast m N f (B : 'M[R]_m) : m = N -> lead f m *m B = 1%:M -> lead f N *m (conform_mx 0 B : 'M[R]_N) = 1%:M.
Proof. by move=> E; case: N / E; rewrite conform_mx_id. Qed.
Lemma sym_entries f n : symmetric (lead f n) -> forall i j, (i < n)%N -> (j < n)%N -> f i j = f j i.
Proof.
move=> S i j Hi Hj; move/matrixP: S => /(_ (Ordinal Hj) (Ordinal Hi)); by rewrite !mxE.
Qed.
Lemma lead_agree f g n : agree n f g -> lead f n = lead g n.
Proof. by move=> E; apply/matrixP=> i j; rewrite !mxE E. Qed.
Lemma sym_sub f n m : (n <= m)%N -> symmetric (lead f m) -> symmetric (lead f n).
Proof.
move=> H S; apply/matrixP=> i j; rewrite !mxE; apply: (sym_entries S); exact: (leq_trans (ltn_ord _) H).
Qed.
Lemma lead_block f n p : symmetric (lead f (n + p)) ->
  lead f (n + p) = block_mx (lead f n) (\matrix_(i < p, j < n) f (n + i)%N j)^T (\matrix_(i < p, j < n) f (n + i)%N j)
                            (\matrix_(i < p, j < p) f (n + i)%N (n + j)%N).
Proof.
move=> S; apply/matrixP=> i j; rewrite mxE.
case: (splitP i) => i' Ei; case: (splitP j) => j' Ej.
- have -> : i = lshift p i' by apply: val_inj. have -> : j = lshift p j' by apply: val_inj.
  by rewrite block_mxEul mxE.
- have -> : i = lshift p i' by apply: val_inj. have -> : j = rshift n j' by apply: val_inj.
  by rewrite block_mxEur !mxE /=; apply: (sym_entries S); [exact: ltn_addr | rewrite ltn_add2l].
- have -> : i = rshift n i' by apply: val_inj. have -> : j = lshift p j' by apply: val_inj.
  by rewrite block_mxEdl mxE.
- have -> : i = rshift n i' by apply: val_inj. have -> : j = rshift n j' by apply: val_inj.
  by rewrite block_mxEdr mxE.
Qed.
Lemma left_inv_unit n (A B : 'M[R]_n) : A *m B = 1%:M -> A \in unitmx /\ B = invmx A.
Proof.
move=> E; have U : A \in unitmx by case: (mulmx1_unit E).
by split=> //; rewrite -[B]mul1mx -(mulVmx U) -mulmxA E mulmx1.
Qed.
Lemma unique_solution n k (A : 'M[R]_n) (b x x' : 'M[R]_(n, k)) : A \in unitmx -> solves A b x -> solves A b x' -> x = x'.
Proof. by move=> U; rewrite /solves => E E'; rewrite -(mulKmx U x) -(mulKmx U x') E E'. Qed.

Lemma update_Chol_ok f g n N (L : 'M[R]_n) : (n <= N)%N -> is_chol L (lead g n) -> agree n f g -> symmetric (lead f N) ->
  (forall L', update_Chol_factor L f N = Some L' -> is_chol L' (lead f N)) /\
  ((exists L', update_Chol_factor L f N = Some L') <-> posdef (lead f N)).
Proof.
move=> H C Ag S; have EN : (n + (N - n))%N = N by rewrite subnKC.
have C' : is_chol L (lead f n) by rewrite (lead_agree Ag).
have S' : forall i j, (i < n + (N - n))%N -> (j < n + (N - n))%N -> f i j = f j i by rewrite EN; exact: sym_entries.
have [D [K1 K2]] := chol_update_l S' C'; have DN : dim n (N - n) = N by rewrite D.
rewrite /update_Chol_factor; split.
  case U : (update_chol L f (N - n)) => [L0|] //= L' [<-].
  by apply: (chol_cast DN); case: (K1 _ U).
have -> : posdef (lead f N) <-> posdef (lead f (dim n (N - n))) by rewrite DN.
rewrite -K2; case U : (update_chol L f (N - n)) => [L0|] /=; split=> -[L' EL] //; by [exists L0 | eexists].
Qed.
End Casts.

Section Modes.
Variables (R : rcfType) (G : zmodType) (lg : R -> G).
Variable cho_factor np_inv : forall n, 'M[R]_n -> option 'M[R]_n.
Variable LUt : nat -> Type.
Variable splu : forall n, 'M[R]_n -> option (LUt n).
Variable lu_solve : forall n k, LUt n -> 'M[R]_(n, k) -> 'M[R]_(n, k).
Variable lu_diag : forall n, LUt n -> 'rV[R]_n.
Variable iterate : smode -> forall n k, 'M[R]_n -> 'M[R]_(n, k) -> 'M[R]_(n, k).
Variable estimate : nat -> forall n, 'M[R]_n -> G * option R.
Variable Obj : nat -> Type.
Variable c_factor : forall n, 'M[R]_n -> Obj n.
Variable c_solve : forall n k, Obj n -> 'M[R]_(n, k) -> 'M[R]_(n, k).
Variable c_logdet : forall n, Obj n -> G.
(* contracts *)
Hypothesis LG : log_like lg.
Hypothesis CC : chol_contract cho_factor.
Hypothesis CI : inv_contract np_inv.
Hypothesis CL : lu_contract splu lu_solve lu_diag.
Hypothesis CU : custom_contract lg c_factor c_solve c_logdet.

Lemma update_inverse_ok (f g : nat -> nat -> R) n N (B : 'M[R]_n) :
  (n <= N)%N -> lead g n *m B = 1%:M -> agree n f g -> symmetric (lead f N) ->
  (forall B', update_inverse np_inv B f N = Some B' -> lead f N *m B' = 1%:M) /\
  ((exists B', update_inverse np_inv B f N = Some B') <-> lead f N \in unitmx).
Proof.
move=> H E Ag S; have EN : (n + (N - n))%N = N by rewrite subnKC.
rewrite -(lead_agree Ag) in E; have [UA ->] := left_inv_unit E.
rewrite /update_inverse.
set p := (N - n)%N in EN *.
set kk : 'M[R]_p := \matrix_(i, j) _.
set k : 'M[R]_(p, n) := \matrix_(i, j) _.
have S' : symmetric (lead f (n + p)) by rewrite EN.
have SA : (lead f n)^T = lead f n by exact: (sym_sub H S).
have Skk : kk^T = kk by apply/matrixP=> i j; rewrite !mxE; apply: (sym_entries S'); rewrite ltn_add2l.
have LB := lead_block S'; rewrite -/k -/kk in LB.
have SU := schur_unit k kk UA.
have UU : (lead f N \in unitmx) = (kk - k *m invmx (lead f n) *m k^T \in unitmx).
  by rewrite -SU -LB; move: EN; move: p {kk k S' Skk LB SU} => p EN; case: N / EN {H S}.
have [K1 K2] := CI (kk - k *m invmx (lead f n) *m k^T).
split; last first.
  rewrite UU -K2; case: (np_inv _) => [X|]; split=> -[B' EB] //; by [exists X | eexists].
case EX : (np_inv _) => [X|] // B' [<-].
have EX' := K1 _ EX; have [UX XE] := left_inv_unit EX'.
have [_ ] := update_inv_ok UA SA Skk UX; rewrite /update_inv -XE -LB => EI.
apply: (inv_cast EN).
rewrite EI mulmxV // LB SU //.
Qed.

Notation kvT := (kv R G LUt Obj).
Notation facT := (factor R LUt Obj).
Notation setK := (set_KV cho_factor np_inv splu c_factor).
Notation updK := (update_KV cho_factor np_inv splu c_factor).
Notation solveK := (solve lu_solve iterate c_solve).
Notation logdetK := (logdet lg lu_diag estimate c_logdet).
Notation Kset := (kv_set lg cho_factor np_inv splu lu_solve lu_diag iterate estimate c_factor c_solve c_logdet).
Notation Kapp := (kv_append lg cho_factor np_inv splu lu_solve lu_diag iterate estimate c_factor c_solve c_logdet).
Notation cnew := (compute_new lg cho_factor np_inv splu lu_solve lu_diag iterate estimate c_factor c_solve c_logdet).
Notation cnewy := (compute_new_y cho_factor np_inv splu lu_solve iterate c_factor c_solve).
Notation reachedK := (reached lg cho_factor np_inv splu lu_solve lu_diag iterate estimate c_factor c_solve c_logdet).

(** what the attributes of the object hold *)
Definition holds (mode : smode) n (A : 'M[R]_n) (s : facT n) : Prop :=
  match mode, s with
  | Chol, FChol L => is_chol L A
  | CholInv, FCholInv L B => is_chol L A /\ A *m B = 1%:M
  | Inv, FInv K B => K = A /\ A *m B = 1%:M
  | SparseLU, FLU F => splu A = Some F
  | Custom, FObj o => o = c_factor A
  | (SparseCG | SparseMINRES | SparseMINRESpre | SparseCGpre | SparseSolve), FMat K => K = A
  | _, _ => False
  end.
Lemma chol_inv_ok n (L A : 'M[R]_n) : is_chol L A -> A *m inv_from_chol L = 1%:M.
Proof. by move=> C; have [_ [U ->]] := chol_solve_l (1%:M : 'M[R]_n) C; rewrite mulmxV. Qed.

Lemma some_ex (T U : Type) (o : option T) (h : T -> U) : (exists u, omap h o = Some u) <-> (exists t, o = Some t).
Proof. by case: o => [t|]; split=> -[u E] //; eexists; reflexivity. Qed.

Lemma set_holds mode n (A : 'M[R]_n) : symmetric A ->
  (forall s, setK mode A = Some s -> holds mode A s) /\ ((exists s, setK mode A = Some s) <-> accepts mode A).
Proof.
move=> S; have [C1 C2] := CC S; have [I1 I2] := CI A; have [U1 U2] := CL A.
case: mode => /=; rewrite ?some_ex //; split=> //; try by [move=> s [<-] | split=> // _; eexists].
- by case E : (cho_factor A) => [L|] //= s [<-]; apply: C1.
- case E : (cho_factor A) => [L|] //= s [<-]; have C := C1 _ E; split=> //; exact: chol_inv_ok.
- case E : (np_inv A) => [B|] //= s [<-]; split=> //; exact: I1.
- by case E : (splu A) => [F|] //= s [<-].
Qed.

Lemma update_holds mode n0 n (KV0 KV : nat -> nat -> R) (s0 : facT n0) :
  holds mode (lead KV0 n0) s0 -> symmetric (lead KV n) -> (n0 <= n -> agree n0 KV KV0)%N ->
  (forall s, updK mode s0 KV n = Some s -> holds mode (lead KV n) s) /\
  ((exists s, updK mode s0 KV n = Some s) <-> accepts mode (lead KV n)).
Proof.
move=> H0 S Ag; have [C1 C2] := CC S; have [I1 I2] := CI (lead KV n); have [U1 U2] := CL (lead KV n).
have TC : forall L : 'M[R]_n0, is_chol L (lead KV0 n0) ->
    (forall L' : 'M[R]_n, (if (n <= n0)%N then cho_factor (lead KV n) else update_Chol_factor L KV n) = Some L' -> is_chol L' (lead KV n)) /\
    ((exists L' : 'M[R]_n, (if (n <= n0)%N then cho_factor (lead KV n) else update_Chol_factor L KV n) = Some L') <-> posdef (lead KV n)).
  move=> L CL0; case: leqP => // lt; have le := ltnW lt; exact: (update_Chol_ok le CL0 (Ag le) S).
have TI : forall B : 'M[R]_n0, lead KV0 n0 *m B = 1%:M ->
    (forall B' : 'M[R]_n, (if (n <= n0)%N then np_inv (lead KV n) else update_inverse np_inv B KV n) = Some B' -> lead KV n *m B' = 1%:M) /\
    ((exists B' : 'M[R]_n, (if (n <= n0)%N then np_inv (lead KV n) else update_inverse np_inv B KV n) = Some B') <-> lead KV n \in unitmx).
  move=> B CB; case: leqP => // lt; have le := ltnW lt; exact: (update_inverse_ok le CB (Ag le) S).
case: mode H0; case: s0 => //=.
- move=> L /TC [K1 K2]; rewrite some_ex; split=> // s; by case E : (if _ then _ else _) => [L'|] //= [<-]; apply: K1.
- move=> L B [/TC [K1 K2] _]; rewrite some_ex; split=> // s; case E : (if _ then _ else _) => [L'|] //= [<-].
  by split; [exact: K1 | apply: chol_inv_ok; exact: K1].
- move=> K B [_ /TI [K1 K2]]; rewrite some_ex; split=> // s; case E : (if _ then _ else _) => [B'|] //= [<-].
  by split=> //; exact: K1.
- by move=> KV1 _; split; [move=> s [<-] | split=> // _; eexists].
- by move=> KV1 _; split; [move=> s [<-] | split=> // _; eexists].
- move=> F _; rewrite some_ex; split=> // s; by case E : (splu _) => [F'|] //= [<-].
- by move=> KV1 _; split; [move=> s [<-] | split=> // _; eexists].
- by move=> KV1 _; split; [move=> s [<-] | split=> // _; eexists].
- by move=> KV1 _; split; [move=> s [<-] | split=> // _; eexists].
- by move=> KV1 _; split; [move=> s [<-] | split=> // _; eexists].
Qed.

Lemma lg_prod (T : Type) (r : seq T) (g : T -> R) : lg 1 = 0 -> (forall i, g i != 0) ->
  lg (\prod_(i <- r) g i) = \sum_(i <- r) lg (g i).
Proof.
move=> L1 N; elim: r => [|a r IH]; first by rewrite !big_nil.
rewrite !big_cons LG // ?IH //.
by elim: {IH} r => [|b r IH]; rewrite ?big_nil ?oner_neq0 // big_cons mulf_neq0.
Qed.
Lemma lg1 : lg 1 = 0.
Proof.
have := LG (oner_neq0 R) (oner_neq0 R); rewrite mulr1 => E.
by apply: (addrI (lg 1)); rewrite addr0 -E.
Qed.
Lemma lu_logdet_ok n (A : 'M[R]_n) F : splu A = Some F -> A \in unitmx -> lu_logdet lg lu_diag F = lg `|\det A|.
Proof.
move=> E U; have [/(_ _ E) [_ P] _] := CL A.
have N : forall i, lu_diag F 0 i != 0.
  move=> i; apply/negP=> /eqP Z; have := U; rewrite unitmxE unitfE -normr_eq0 -P (bigD1 i) //= Z mul0r normr0 eqxx.
  by [].
rewrite -P normr_prod /lu_logdet lg_prod ?lg1 //.
by move=> i; rewrite normr_eq0.
Qed.

(** the exact modes *)
Lemma exact_ok mode n (A : 'M[R]_n) (s : facT n) : exact_mode mode -> symmetric A -> (mode = Custom -> A \in unitmx) ->
  holds mode A s ->
  A \in unitmx /\ (forall k (b : 'M[R]_(n, k)), solves A b (solveK mode s b)) /\ (forall mm, logdetK s mm = (lg `|\det A|, mm)).
Proof.
move=> EM S CUs; have [C1 C2] := CC S; have [U1 U2] := CL A.
case: mode EM CUs => // _ CUs; case: s => //=.
- move=> L C; have [_ [U _]] := chol_solve_l (0 : 'M[R]_(n, 0)) C; split=> //; split=> [k b|mm].
    by case: (chol_solve_l b C).
  by rewrite (chol_logdet_l LG C).
- move=> L B [C E]; have [U _] := left_inv_unit E; split=> //; split=> [k b|mm]; last by rewrite (chol_logdet_l LG C).
  by rewrite /solves mulmxA E mul1mx.
- move=> K B [-> E]; have [U _] := left_inv_unit E; split=> //; split=> // k b; by rewrite /solves mulmxA E mul1mx.
- move=> F E; have U : A \in unitmx by apply/U2; exists F.
  split=> //; split=> [k b|mm]; last by rewrite (lu_logdet_ok E U).
  by have [/(_ k b)] := U1 _ E.
- move=> o ->; have U := CUs erefl; have [P1 P2] := CU U; split=> //; split=> [k b|mm]; [exact: P1 | by rewrite P2].
Qed.
Lemma iter_ok mode n (A : 'M[R]_n) (s : facT n) : ~~ exact_mode mode -> holds mode A s ->
  (forall k (b : 'M[R]_(n, k)), solveK mode s b = iterate mode A b) /\
  (forall mm, logdetK s mm = ((estimate (m_calls mm) A).1, Mem (estimate (m_calls mm) A).2 (m_calls mm).+1)).
Proof.
by case: mode => // _; case: s => //= K ->; split=> // mm; rewrite /random_logdet; case: (estimate _ _).
Qed.

Lemma refresh_some mode k n (y : 'M[R]_(n, k)) mm f s :
  refresh lg lu_solve lu_diag iterate estimate c_solve c_logdet mode y mm f = Some s ->
  exists f0, [/\ f = Some f0, v_factor s = f0, v_KVinvY s = solveK mode f0 y, v_logdet s = (logdetK f0 mm).1
                & v_mem s = (logdetK f0 mm).2].
Proof.
rewrite /refresh; case: f => [f0|] //; case E : (logdet _ _ _ _ _ _) => [d mm'] [<-]; exists f0; by rewrite E.
Qed.
Lemma refresh_ex mode k n (y : 'M[R]_(n, k)) mm f :
  (exists s, refresh lg lu_solve lu_diag iterate estimate c_solve c_logdet mode y mm f = Some s) <-> (exists f0, f = Some f0).
Proof.
rewrite /refresh; case: f => [f0|]; last by split=> -[].
case: (logdet _ _ _ _ _ _) => d mm'; split=> _; by eexists.
Qed.

Lemma reached_holds mode k n KV (y : 'M[R]_(n, k)) (s : kvT k n) : reachedK mode KV y s ->
  symmetric (lead KV n) /\ holds mode (lead KV n) (v_factor s) /\
  v_KVinvY s = solveK mode (v_factor s) y /\ exists mm, v_logdet s = (logdetK (v_factor s) mm).1.
Proof.
elim=> {n KV y s} [n KV y mm s S /refresh_some [f [E Ef Ex Ed _]]|n0 KV0 y0 s0 n KV y s _ [_ [H _]] S Ag /refresh_some [f [E Ef Ex Ed _]]|n KV y s mm _ [S [H [E D]]]] //.
- split=> //; rewrite Ef; split; first by have [H _] := set_holds mode S; exact: H.
  by split=> //; exists mm.
- split=> //; rewrite Ef; split; first by have [K _] := update_holds H S Ag; exact: K.
  by split=> //; exists (v_mem s0).
Qed.

Lemma state_exact_l mode k n KV (y : 'M[R]_(n, k)) (s : kvT k n) : reachedK mode KV y s -> exact_mode mode ->
  (mode = Custom -> lead KV n \in unitmx) ->
  lead KV n \in unitmx /\ solves (lead KV n) y (v_KVinvY s) /\ v_logdet s = lg `|\det (lead KV n)| /\
  (forall m (b : 'M[R]_(n, m)), solves (lead KV n) b (solveK mode (v_factor s) b)).
Proof.
move=> H EM CUs; have [S [Hf [-> [mm ->]]]] := reached_holds H; have [U [P1 P2]] := exact_ok EM S CUs Hf.
by rewrite P2; do 2!split=> //.
Qed.
Lemma state_iter_l mode k n KV (y : 'M[R]_(n, k)) (s : kvT k n) : reachedK mode KV y s -> ~~ exact_mode mode ->
  v_KVinvY s = iterate mode (lead KV n) y /\ (exists c, v_logdet s = (estimate c (lead KV n)).1) /\
  (forall m (b : 'M[R]_(n, m)), solveK mode (v_factor s) b = iterate mode (lead KV n) b).
Proof.
move=> H EM; have [S [Hf [-> [mm ->]]]] := reached_holds H; have [P1 P2] := iter_ok EM Hf.
by rewrite P2 /=; split=> //; split=> //; exists (m_calls mm).
Qed.
Lemma state_accept_l mode k n KV (y : 'M[R]_(n, k)) : symmetric (lead KV n) ->
  (forall mm, (exists s, Kset mode KV y mm = Some s) <-> accepts mode (lead KV n)) /\
  (forall n0 KV0 (y0 : 'M[R]_(n0, k)) s0, reachedK mode KV0 y0 s0 -> (n0 <= n -> agree n0 KV KV0)%N ->
     (exists s, Kapp mode s0 KV y = Some s) <-> accepts mode (lead KV n)).
Proof.
move=> S; split=> [mm|n0 KV0 y0 s0 /reached_holds [_ [H _]] Ag].
  by rewrite refresh_ex; have [_ ->] := set_holds mode S.
by rewrite refresh_ex; have [_ ->] := update_holds H S Ag.
Qed.

Lemma compute_new_as_state mode k n (A : 'M[R]_n) (y : 'M[R]_(n, k)) mm : symmetric A -> exact_mode mode ->
  (mode = Custom -> A \in unitmx) ->
  (forall x d mm', cnew mode A y mm = Some (x, d, mm') -> [/\ solves A y x, d = lg `|\det A| & mm' = mm]) /\
  (forall x, cnewy mode A y = Some x -> solves A y x) /\
  ((exists r, cnew mode A y mm = Some r) <-> accepts mode A) /\ ((exists x, cnewy mode A y = Some x) <-> accepts mode A).
Proof.
move=> S EM CUs; have [C1 C2] := CC S; have [I1 I2] := CI A; have [U1 U2] := CL A.
have AC : (A \in unitmx \/ mode <> Custom) by case: (mode) CUs => CUs; [right..| left; exact: CUs].
case: mode EM CUs {AC} => //= _ CUs; rewrite ?some_ex //.
- split; [move=> x d mm' | split=> // x]; case E : (cho_factor A) => [L|] //= [<-];
    have [P [U _]] := chol_solve_l y (C1 _ E) => //.
  by move=> <- <-; split=> //; rewrite (chol_logdet_l LG (C1 _ E)).
- split; [move=> x d mm' | split=> // x]; case E : (cho_factor A) => [L|] //= [<-];
    have [P [U _]] := chol_solve_l y (C1 _ E) => //.
  by move=> <- <-; split=> //; rewrite (chol_logdet_l LG (C1 _ E)).
- split; [move=> x d mm' | split=> // x]; case E : (np_inv A) => [B|] //= [<-];
    have P := I1 _ E; by rewrite /solves mulmxA P mul1mx.
- split; [move=> x d mm' | split=> // x]; case E : (splu A) => [F|] //= [<-]; have [P _] := U1 _ E; last exact: P.
  by move=> <- <-; split; [exact: P | apply: lu_logdet_ok => //; apply/U2; exists F |].
- have U := CUs erefl; have [P1 P2] := CU U.
  split; [move=> x d mm' [<- <- <-]; split=> //; exact: P1 | split; [move=> x [<-]; exact: P1 | by split; split=> // _; eexists]].
Qed.
Lemma compute_new_iter mode k n (A : 'M[R]_n) (y : 'M[R]_(n, k)) mm : ~~ exact_mode mode ->
  cnew mode A y mm = Some (iterate mode A y, (estimate (m_calls mm) A).1, Mem (estimate (m_calls mm) A).2 (m_calls mm).+1) /\
  cnewy mode A y = Some (iterate mode A y).
Proof. by case: mode => //= _; rewrite /random_logdet; case: (estimate _ _). Qed.

Lemma cached_fresh_l mode mode' k n KV (y : 'M[R]_(n, k)) (s : kvT k n) mm : reachedK mode KV y s ->
  exact_mode mode -> exact_mode mode' -> (mode = Custom \/ mode' = Custom -> lead KV n \in unitmx) ->
  (forall x d mm', cnew mode' (lead KV n) y mm = Some (x, d, mm') -> [/\ x = v_KVinvY s, d = v_logdet s & mm' = mm]) /\
  (forall x, cnewy mode' (lead KV n) y = Some x -> x = v_KVinvY s) /\
  (posdef (lead KV n) -> exists x d, cnew mode' (lead KV n) y mm = Some (x, d, mm) /\ cnewy mode' (lead KV n) y = Some x).
Proof.
move=> H E E' CUs; have [S _] := reached_holds H.
have [U [P1 [P2 _]]] := state_exact_l H E (fun EC => CUs (or_introl EC)).
have [Q1 [Q2 [Q3 Q4]]] := compute_new_as_state y mm S E' (fun EC => CUs (or_intror EC)).
split; [|split].
- move=> x d mm' /Q1 [X -> ->]; rewrite P2; split=> //; exact: (unique_solution U X P1).
- move=> x /Q2 X; exact: (unique_solution U X P1).
- move=> PD; have AC : accepts mode' (lead KV n) by case: (mode') => //=.
  have [[[x d] mm'] C] := iffRL Q3 AC; have [x' C'] := iffRL Q4 AC.
  have [X _ EM] := Q1 _ _ _ C; exists x, d; rewrite C C' EM; split=> //; congr Some; exact: (unique_solution U (Q2 _ C') X).
Qed.

(** the estimator's memory along a sequence of evaluations in one mode *)
Notation evalK := (evaluate lg cho_factor np_inv splu lu_solve lu_diag iterate estimate c_factor c_solve c_logdet).
Notation evaluatedK := (evaluated lg cho_factor np_inv splu lu_solve lu_diag iterate estimate c_factor c_solve c_logdet).
Lemma exact_keeps mode k n (A : 'M[R]_n) (y : 'M[R]_(n, k)) mm x d mm' : exact_mode mode ->
  cnew mode A y mm = Some (x, d, mm') -> mm' = mm.
Proof.
by case: mode => //= _; [case: (cho_factor A)|case: (cho_factor A)|case: (np_inv A)|case: (splu A)|] => //= [? []|? []|? []|? []|[]].
Qed.
Lemma eval_mode_fixed gp2 lm mode n nnz : gp2 = false \/ lm = Some mode -> eval_mode gp2 lm mode n nnz = mode.
Proof. by case=> ->; rewrite /eval_mode //=; case: gp2. Qed.
Lemma evaluated_exact mode gp2 lm mm es mm' : gp2 = false \/ lm = Some mode -> exact_mode mode ->
  evaluatedK mode gp2 lm mm es mm' -> mm' = mm.
Proof.
move=> Fx EM; elim=> // {mm es mm'} mm es mm1 e x d mm2 _ <-.
by rewrite /evaluate eval_mode_fixed // => /(exact_keeps EM).
Qed.
Lemma variance_l mode gp2 lm k n KV (y : 'M[R]_(n, k)) s es mm1 e x d mm2 : gp2 = false \/ lm = Some mode ->
  Kset mode KV y (Mem None 0) = Some s -> evaluatedK mode gp2 lm (v_mem s) es mm1 ->
  evalK gp2 lm mode e mm1 = Some (x, d, mm2) ->
  (exact_mode mode -> log_likelihood_variance mm2 = None) /\
  (~~ exact_mode mode -> exists c, d = (estimate c (e_A e)).1 /\
     log_likelihood_variance mm2 = omap (fun v => v / 4%:R) (estimate c (e_A e)).2).
Proof.
move=> Fx Sx Evs; rewrite /evaluate eval_mode_fixed // => Ee; split=> EM.
- have -> := exact_keeps EM Ee; have -> := evaluated_exact Fx EM Evs.
  have [f [Ef _ _ _ ->]] := refresh_some Sx.
  have -> : (logdetK f (Mem None 0)).2 = Mem None 0 by case: (mode) EM Ef => //= _; [case: (cho_factor _)|case: (cho_factor _)|case: (np_inv _)|case: (splu _)|] => //= [? [<-]|? [<-]|? [<-]|? [<-]|[<-]].
  by [].
- have [E _] := compute_new_iter (e_A e) (e_y e) mm1 EM; move: Ee; rewrite E => -[_ <- <-].
  by exists (m_calls mm1).
Qed.
End Modes.

Lemma spread_scale (R : rcfType) m (d : 'I_m -> R) l1 c : (0 < m)%N ->
  spread (fun i => loglik_of l1 c (d i)) = spread d / 4%:R.
Proof.
move=> m0; have mN : (m%:R : R) != 0 by rewrite pnatr_eq0 -lt0n.
have t0 : (2%:R : R) != 0 by rewrite pnatr_eq0.
rewrite /spread.
have -> : (\sum_i loglik_of l1 c (d i)) / m%:R = loglik_of l1 c ((\sum_i d i) / m%:R).
  rewrite /loglik_of -mulr_sumr !big_split /= !sumr_const card_ord -!(mulrDl, mulrA); congr (_ * _).
  rewrite !mulrDl -[l1 *+ m]mulr_natr -[c *+ m]mulr_natr !mulfK //.
set mu := (\sum_i d i) / m%:R.
have E i : (loglik_of l1 c (d i) - loglik_of l1 c mu) ^+ 2 = (d i - mu) ^+ 2 / 4%:R.
  rewrite /loglik_of -mulrBr.
  have -> : l1 + d i + c - (l1 + mu + c) = d i - mu.
    by rewrite opprD addrACA subrr addr0 opprD addrACA subrr add0r.
  rewrite exprMn sqrrN exprVn mulrC; congr (_ / _); by rewrite -natrX.
rewrite (eq_bigr _ (fun i _ => E i)) -mulr_suml mulrAC //.
Qed.
