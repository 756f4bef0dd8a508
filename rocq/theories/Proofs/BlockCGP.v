(** Block conjugate gradients in exact arithmetic: conjugate directions, energy of the error, breakdown. *)
From mathcomp Require Import all_ssreflect all_algebra.
From Verif Require Import Model.BlockCG.
Set Implicit Arguments.
Unset Strict Implicit.
Unset Printing Implicit Defensive.
Import Order.TTheory GRing.Theory Num.Theory.
Local Open Scope ring_scope.

Section Energy.
Variables (R : rcfType) (n k : nat) (solve : 'M[R]_k -> 'M[R]_k -> option 'M[R]_k) (precond : 'M[R]_(n, k) -> 'M[R]_(n, k)).
Variables (KV : 'M[R]_n) (vec : 'M[R]_(n, k)) (tol : R).
Hypothesis KV_sym : KV^T = KV.
Hypothesis KV_nn : forall v : 'cV[R]_n, 0 <= (v^T *m KV *m v) 0 0.
Hypothesis solve_ok : forall H G x, solve H G = Some x -> H *m x = G.
Hypothesis precond_sym : forall A B, A^T *m precond B = (precond A)^T *m B.

Lemma diag_nn (A : 'M[R]_(n, k)) j : 0 <= (A^T *m KV *m A) j j.
Proof.
  have := KV_nn (col j A). suff -> : ((col j A)^T *m KV *m col j A) 0 0 = (A^T *m KV *m A) j j by [].
  rewrite !mxE; apply: eq_bigr => i _; rewrite !mxE; congr (_ * _); apply: eq_bigr => l _; by rewrite !mxE.
Qed.
Lemma energy_step (e P : 'M[R]_(n, k)) al : P^T *m (KV *m (e - P *m al)) = 0 ->
  forall j, ((e - P *m al)^T *m KV *m (e - P *m al)) j j <= (e^T *m KV *m e) j j.
Proof.
  move=> H j. set e1 := e - P *m al in H *. have E : e = e1 + P *m al by rewrite /e1 subrK. clearbody e1.
  have C1 : (P *m al)^T *m KV *m e1 = 0 by rewrite trmx_mul -!mulmxA H mulmx0.
  have C2 : e1^T *m KV *m (P *m al) = 0.
    by apply: trmx_inj; rewrite trmx0 trmx_mul [(e1^T *m KV)^T]trmx_mul trmxK KV_sym mulmxA C1.
  have -> : e^T *m KV *m e = e1^T *m KV *m e1 + (P *m al)^T *m KV *m (P *m al).
    by rewrite E [(e1 + _)^T]linearD /= !mulmxDl !mulmxDr C1 C2 addr0 add0r.
  by rewrite [X in _ <= X]mxE ler_addl diag_nn.
Qed.
Lemma energy_step_lt (e P : 'M[R]_(n, k)) al : P^T *m (KV *m (e - P *m al)) = 0 ->
  forall j, 0 < ((P *m al)^T *m KV *m (P *m al)) j j -> ((e - P *m al)^T *m KV *m (e - P *m al)) j j < (e^T *m KV *m e) j j.
Proof.
  move=> H j Hp. set e1 := e - P *m al in H *. have E : e = e1 + P *m al by rewrite /e1 subrK. clearbody e1.
  have C1 : (P *m al)^T *m KV *m e1 = 0 by rewrite trmx_mul -!mulmxA H mulmx0.
  have C2 : e1^T *m KV *m (P *m al) = 0.
    by apply: trmx_inj; rewrite trmx0 trmx_mul [(e1^T *m KV)^T]trmx_mul trmxK KV_sym mulmxA C1.
  have -> : e^T *m KV *m e = e1^T *m KV *m e1 + (P *m al)^T *m KV *m (P *m al).
    by rewrite E [(e1 + _)^T]linearD /= !mulmxDl !mulmxDr C1 C2 addr0 add0r.
  by rewrite [X in _ < X]mxE ltr_addl.
Qed.
Lemma loop_energy Xs : KV *m Xs = vec -> forall fuel X res P G X' res' code,
  bcg_loop solve precond KV vec tol fuel X res P G = (X', res', code) -> res = vec - KV *m X -> P^T *m res = G -> 
  forall j, ((Xs - X')^T *m KV *m (Xs - X')) j j <= ((Xs - X)^T *m KV *m (Xs - X)) j j.
Proof.
  move=> HXs. elim=> [|f IH] X res P G X' res' code /=; first by move=> [<- _ _] _ _ j.
  case E1: (solve _ _) => [al|]; last by move=> [<- _ _] _ _ j.
  move: (solve_ok E1) => Ha. set X1 := X + _. set res1 := res - _ => E Hr HG j.
  have Hr1 : res1 = vec - KV *m X1 by rewrite /res1 /X1 Hr mulmxDr opprD addrA mulmxA.
  have Pr1 : P^T *m res1 = 0 by rewrite /res1 mulmxBr HG mulmxA Ha subrr.
  have S1 : ((Xs - X1)^T *m KV *m (Xs - X1)) j j <= ((Xs - X)^T *m KV *m (Xs - X)) j j.
    have -> : Xs - X1 = Xs - X - P *m al by rewrite /X1 opprD addrA.
    apply: energy_step. by rewrite -[Xs - X - _]addrA -opprD mulmxBr HXs -Hr1.
  case: (converged _ _ _) E => [[<- _ _] //|].
  case E2: (solve _ _) => [be|]; last by move=> [<- _ _].
  move=> E. apply: le_trans S1. apply: (IH _ _ _ _ _ _ _ E Hr1).
  by rewrite [(_ + _)^T]linearD /= mulmxDl [(P *m be)^T]trmx_mul -mulmxA Pr1 mulmx0 addr0 precond_sym.
Qed.
Lemma loop_progress Xs : KV *m Xs = vec -> (forall v : 'cV[R]_n, v != 0 -> 0 < (v^T *m KV *m v) 0 0) ->
  forall fuel X res P G X' res' code,
  bcg_loop solve precond KV vec tol fuel.+1 X res P G = (X', res', code) -> code <> 2%N -> res = vec - KV *m X -> P^T *m res = G ->
  forall i j, G i j != 0 -> ((Xs - X')^T *m KV *m (Xs - X')) j j < ((Xs - X)^T *m KV *m (Xs - X)) j j.
Proof.
  move=> HXs Kp f X res P G X' res' code /=.
  case E1: (solve _ _) => [al|]; last by move=> [_ _ <-].
  move: (solve_ok E1) => Ha. set X1 := X + _. set res1 := res - _ => E Hc Hr HG i j Gn.
  have Hr1 : res1 = vec - KV *m X1 by rewrite /res1 /X1 Hr mulmxDr opprD addrA mulmxA.
  have Pr1 : P^T *m res1 = 0 by rewrite /res1 mulmxBr HG mulmxA Ha subrr.
  have cn : col j (P *m al) != 0.
    apply: contra Gn => /eqP C. rewrite -Ha -mulmxA -mulmxA mxE big1 // => l _.
    suff -> : (KV *m (P *m al)) l j = 0 by rewrite mulr0.
    rewrite mxE big1 // => a _. suff -> : (P *m al) a j = 0 by rewrite mulr0.
    by have := congr1 (fun v : 'cV[R]_n => v a 0) C; rewrite !mxE.
  have S1 : ((Xs - X1)^T *m KV *m (Xs - X1)) j j < ((Xs - X)^T *m KV *m (Xs - X)) j j.
    have -> : Xs - X1 = Xs - X - P *m al by rewrite /X1 opprD addrA.
    apply: energy_step_lt; first by rewrite -[Xs - X - _]addrA -opprD mulmxBr HXs -Hr1.
    have := Kp _ cn. set Q := P *m al. suff -> : ((col j Q)^T *m KV *m col j Q) 0 0 = (Q^T *m KV *m Q) j j by [].
    rewrite !mxE; apply: eq_bigr => a _; rewrite !mxE; congr (_ * _); apply: eq_bigr => l _; by rewrite !mxE.
  case: (converged _ _ _) E => [[<- _ _] //|].
  case E2: (solve _ _) => [be|]; last by move=> [<- _ _].
  move=> E. apply: le_lt_trans S1. apply: (loop_energy HXs E Hr1).
  by rewrite [(_ + _)^T]linearD /= mulmxDl [(P *m be)^T]trmx_mul -mulmxA Pr1 mulmx0 addr0 precond_sym.
Qed.
End Energy.

Section Conv.
Variables (R : rcfType) (n k : nat) (solve : 'M[R]_k -> 'M[R]_k -> option 'M[R]_k).
Variables (M KV : 'M[R]_n) (vec : 'M[R]_(n, k)) (tol : R).
Let precond (B : 'M[R]_(n, k)) := M *m B.
Hypothesis KV_sym : KV^T = KV.
Hypothesis M_sym : M^T = M.
Hypothesis KV_pd : forall v : 'cV[R]_n, v != 0 -> 0 < (v^T *m KV *m v) 0 0.
Hypothesis M_pd : forall v : 'cV[R]_n, v != 0 -> 0 < (v^T *m M *m v) 0 0.
Hypothesis solve_some : forall H G x, solve H G = Some x -> H \in unitmx /\ H *m x = G.
Hypothesis solve_none : forall H G, solve H G = None -> H \notin unitmx.

Lemma singular (H : 'M[R]_k) : H^T = H -> H \notin unitmx -> exists2 v : 'cV[R]_k, v != 0 & H *m v = 0.
Proof.
  move=> Hs; rewrite unitmxE unitfE negbK => /det0P[v vn Hv]. exists v^T; first by apply: contra vn => /eqP E; rewrite -[v]trmxK E trmx0.
  by rewrite -{1}Hs -trmx_mul Hv trmx0.
Qed.
Lemma pd0 (A : 'M[R]_n) : (forall v : 'cV[R]_n, v != 0 -> 0 < (v^T *m A *m v) 0 0) -> forall v : 'cV[R]_n, v^T *m A *m v = 0 -> v = 0.
Proof. move=> pd v E. apply/eqP/negPn/negP => N. by move: (pd v N); rewrite E mxE ltxx. Qed.

(** after [m] steps: all earlier directions [S], all residuals [T] so far *)
Definition inv (m : nat) (res P : 'M[R]_(n, k)) (G : 'M[R]_k) : Prop :=
  exists q (S : 'M[R]_(n, q)) t (T : 'M[R]_(n, t)) W U V Y,
  [/\ q = (m * k)%N, S^T *m (KV *m S) \in unitmx, S^T *m (KV *m P) = 0, S^T *m res = 0 &
  [/\ KV *m S = T *m W, res = T *m U, M *m T = row_mx S P *m V, P = M *m res + S *m Y &
  P^T *m res = G /\ G = res^T *m (M *m res)]].

Lemma inv0 res : inv 0 res (M *m res) (res^T *m (M *m res)).
Proof.
  exists 0%N, 0, k, res, 0, 1%:M, (col_mx 0 1%:M), 0. split=> //; [by rewrite unitmxE det_mx00 unitr1|by rewrite trmx0 mul0mx|by rewrite trmx0 mul0mx|].
  split; [by rewrite !mulmx0|by rewrite mulmx1|by rewrite mul_row_col mulmx0 mulmx1 add0r|by rewrite mulmx0 addr0|].
  by split=> //; rewrite trmx_mul M_sym mulmxA.
Qed.
Lemma inv_rank m res P G : inv m res P G -> (m * k <= n)%N.
Proof.
  move=> [q [S [t [T [W [U [V [Y [Eq Su _ _ _]]]]]]]]].
  rewrite -Eq -(mxrank_unit Su). apply: leq_trans (mxrankM_maxr _ _) _. exact: rank_leq_row.
Qed.
Lemma invG_sym m res P G : inv m res P G -> G^T = G.
Proof. move=> [q [S [t [T [W [U [V [Y [_ _ _ _ [_ _ _ _ [_ ->]]]]]]]]]]]. by rewrite !trmx_mul trmxK M_sym mulmxA. Qed.
Lemma H_sym (P : 'M[R]_(n, k)) : (P^T *m (KV *m P))^T = P^T *m (KV *m P).
Proof. by rewrite !trmx_mul trmxK KV_sym mulmxA. Qed.

Lemma inv_step m res P G al be : inv m res P G -> P^T *m (KV *m P) \in unitmx -> P^T *m (KV *m P) *m al = G -> G \in unitmx ->
  let res1 := res - KV *m P *m al in let Z := M *m res1 in let G1 := res1^T *m Z in
  G *m be = G1 -> inv m.+1 res1 (Z + P *m be) G1.
Proof.
  move=> I Hu Ha Gu res1 Z G1 Hb. have Gs := invG_sym I. have Hs := H_sym P.
  case: I => q [S [t [T [W [U [V [Y [Eq Su SP Sr [AS rT MT PE [PG EG]]]]]]]]]].
  have Pr1 : P^T *m res1 = 0 by rewrite /res1 mulmxBr PG mulmxA Ha subrr.
  have Sr1 : S^T *m res1 = 0 by rewrite /res1 mulmxBr Sr mulmxA SP mul0mx subrr.
  pose S' := row_mx S P.
  have S'r1 : S'^T *m res1 = 0 by rewrite /S' tr_row_mx mul_col_mx Sr1 Pr1 col_mx0.
  have TZ : T^T *m Z = 0 by rewrite /Z mulmxA -[M in T^T *m M]M_sym -trmx_mul MT -/S' trmx_mul -mulmxA S'r1 mulmx0.
  have SAZ : S^T *m (KV *m Z) = 0 by rewrite mulmxA -[KV in S^T *m KV]KV_sym -trmx_mul AS trmx_mul -mulmxA TZ mulmx0.
  have au : al \in unitmx.
    have : P^T *m (KV *m P) *m al \in unitmx by rewrite Ha.
    by rewrite unitmx_mul => /andP[].
  have PAZ : al^T *m (P^T *m (KV *m Z)) = - G1.
    have -> : al^T *m (P^T *m (KV *m Z)) = (KV *m P *m al)^T *m Z by rewrite !trmx_mul KV_sym !mulmxA.
    have -> : KV *m P *m al = res - res1 by rewrite /res1 opprB addrCA subrr addr0.
    by rewrite [(_ - _)^T]linearB /= mulmxBl rT trmx_mul -mulmxA TZ mulmx0 sub0r.
  pose P1 := Z + P *m be.
  have SAP1 : S^T *m (KV *m P1) = 0 by rewrite /P1 !mulmxDr SAZ add0r !mulmxA -(mulmxA _ KV) SP mul0mx.
  have PAP1 : P^T *m (KV *m P1) = 0.
    have : al^T *m (P^T *m (KV *m P1)) = 0.
      rewrite /P1 !mulmxDr PAZ !mulmxA. have -> : al^T *m P^T *m KV *m P = G by rewrite -Gs -Ha trmx_mul Hs !mulmxA.
      by rewrite Hb addNr.
    have au' : al^T \in unitmx by rewrite unitmx_tr.
    by move=> E; rewrite -[LHS](mulKmx au') E mulmx0.
  exists (q + k)%N, S', (t + k)%N, (row_mx T res1), (block_mx W (U *m invmx al) 0 (- invmx al)), (col_mx 0 1%:M),
    (block_mx V (col_mx 0 (- be)) 0 1%:M), (col_mx 0 be).
  have PAS : P^T *m (KV *m S) = 0 by apply: trmx_inj; rewrite trmx0 !trmx_mul trmxK KV_sym -mulmxA SP.
  split.
  - by rewrite Eq mulSn addnC.
  - rewrite /S' mul_mx_row tr_row_mx mul_col_row SP PAS unitmxE det_ublock unitrM. by rewrite -!unitmxE Su Hu.
  - by rewrite /S' tr_row_mx mul_col_mx SAP1 PAP1 col_mx0.
  - exact: S'r1.
  - split.
    + rewrite /S' mul_mx_row mul_row_block mulmx0 addr0 AS. congr row_mx.
      rewrite mulmxN mulmxA -rT -mulmxBl. have -> : res - res1 = KV *m P *m al by rewrite /res1 opprB addrCA subrr addr0.
      by rewrite mulmxK.
    + by rewrite mul_row_col mulmx0 mulmx1 add0r.
    + rewrite mul_mx_row mul_row_block mulmx0 addr0 MT -/S' -/Z mulmx1 -/P1. congr row_mx.
      by rewrite /S' mul_row_col mulmx0 add0r mulmxN /P1 addrC addrK.
    + by rewrite /S' mul_row_col mulmx0 add0r.
    + split=> //. by rewrite /P1 [(_ + _)^T]linearD /= mulmxDl [(P *m be)^T]trmx_mul -mulmxA Pr1 mulmx0 addr0 /G1 /Z [(M *m _)^T]trmx_mul M_sym -mulmxA.
Qed.
Lemma inv_break2 m res P G : inv m res P G -> P^T *m (KV *m P) \notin unitmx -> exists2 v : 'cV[R]_k, v != 0 & res *m v = 0.
Proof.
  move=> I Hn. have Gs := invG_sym I. have [v vn Hv] := singular (H_sym P) Hn. rewrite -!mulmxA in Hv. exists v => //.
  case: I => q [S [t [T [W [U [V [Y [_ _ _ _ [_ _ _ _ [PG EG]]]]]]]]]].
  have Pv : P *m v = 0 by apply: (pd0 KV_pd); rewrite trmx_mul -!mulmxA Hv mulmx0.
  apply: (pd0 M_pd). rewrite trmx_mul -!mulmxA. have -> : res^T *m (M *m (res *m v)) = G *m v by rewrite EG !mulmxA.
  by rewrite -Gs -PG trmx_mul trmxK -mulmxA Pv !mulmx0.
Qed.
Lemma inv_break3 m res P G : inv m res P G -> P^T *m (KV *m P) \in unitmx -> G \in unitmx.
Proof.
  move=> I Hu. apply/negPn/negP => Gn. have Gs := invG_sym I. have [v vn Hv] := singular Gs Gn.
  case: I => q [S [t [T [W [U [V [Y [_ _ SP _ [_ _ _ PE [PG EG]]]]]]]]]].
  have rv : res *m v = 0 by apply: (pd0 M_pd); rewrite trmx_mul -!mulmxA; have -> : res^T *m (M *m (res *m v)) = G *m v by [rewrite EG !mulmxA]; rewrite Hv mulmx0.
  have Pv : P *m v = S *m Y *m v by rewrite {1}PE mulmxDl -mulmxA rv mulmx0 add0r.
  have Hv0 : P^T *m (KV *m P) *m v = 0.
    rewrite -!mulmxA Pv !mulmxA. have -> : P^T *m KV *m S = 0 by apply: trmx_inj; rewrite trmx0 !trmx_mul trmxK KV_sym.
    by rewrite !mul0mx.
  by move: vn; rewrite -[v](mulKmx Hu) Hv0 mulmx0 eqxx.
Qed.
Lemma loop_conv fuel m X res P G X' res' code : bcg_loop solve precond KV vec tol fuel X res P G = (X', res', code) -> inv m res P G ->
  [\/ code = 0%N, code = 1%N /\ ((m + fuel) * k <= n)%N | code = 2%N /\ exists2 v : 'cV[R]_k, v != 0 & res' *m v = 0].
Proof.
  elim: fuel m X res P G => [|f IH] m X res P G /=.
    by move=> [_ _ <-] I; constructor 2; rewrite addn0; split=> //; apply: inv_rank I.
  case E1: (solve _ _) => [al|]; last first.
    by move=> [_ <- <-] I; constructor 3; split=> //; apply: (inv_break2 I); apply: solve_none E1.
  move: (solve_some E1) => [Hu Ha] E I. move: E.
  case: (converged _ _ _) => [[_ _ <-]|]; first by constructor 1.
  case E2: (solve _ _) => [be|]; last by move: (solve_none E2); rewrite (inv_break3 I Hu).
  move: (solve_some E2) => [Gu Hb] E. rewrite addnS -addSn. apply: IH E _. exact: (inv_step I Hu Ha Gu Hb).
Qed.
End Conv.
