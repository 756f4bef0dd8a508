(** Properties C143, C144, C145 and C146: the GPU branches of the dense linear algebra. *)
From mathcomp Require Import all_ssreflect all_algebra.
From Verif Require Import Model.CholUpdate Spec.CholSpec Spec.SolversSpec Proofs.CholP Props.SolversProps Model.GpuOps.
Set Implicit Arguments.
Unset Strict Implicit.
Unset Printing Implicit Defensive.
Import Order.TTheory GRing.Theory Num.Theory.
Local Open Scope ring_scope.

Section Statements.
Variable R : rcfType.
Variable lib_chol : lib -> forall n, 'M[R]_n -> out 'M[R]_n.
Variable lib_inv : lib -> forall n, 'M[R]_n -> out 'M[R]_n.
Variable lib_solve : lib -> forall n m, 'M[R]_n -> 'M[R]_(n, m) -> out 'M[R]_(n, m).
Variable lstsq : forall n m, 'M[R]_n -> 'M[R]_(n, m) -> out 'M[R]_(n, m).
Variable lib_slogdet : lib -> forall n, 'M[R]_n -> out (num R).
Variables (lg : R -> R) (big : R).
Variable engine : option gpu.

Definition symmetric n (A : 'M[R]_n) : Prop := A^T = A.
(** what the libraries promise for matrices that have a solution *)
Record good_lib (l : lib) : Prop := GoodLib {
  g_chol : forall n (A : 'M[R]_n), symmetric A -> posdef A -> exists2 L, lib_chol l A = Ok L & is_chol L A;
  g_inv : forall n (A : 'M[R]_n), A \in unitmx -> exists2 B, lib_inv l A = Ok B & A *m B = 1%:M;
  g_solve : forall n m (A : 'M[R]_n) (b : 'M[R]_(n, m)), A \in unitmx -> exists2 x, lib_solve l A b = Ok x & A *m x = b;
  g_logdet : forall n (A : 'M[R]_n), A \in unitmx -> lib_slogdet l A = Ok (Fin (lg `|\det A|)) }.
(** what they do with the others *)
Record numpy_rejects : Prop := NumpyRejects {
  r_chol : forall n (A : 'M[R]_n), symmetric A -> ~ posdef A -> lib_chol Numpy A = Raise LinAlg;
  r_solve : forall n m (A : 'M[R]_n) (b : 'M[R]_(n, m)), A \notin unitmx -> lib_solve Numpy A b = Raise LinAlg;
  r_logdet : forall n (A : 'M[R]_n), A \notin unitmx -> lib_slogdet Numpy A = Ok NegInf }.
Record torch_rejects : Prop := TorchRejects {
  t_chol : forall n (A : 'M[R]_n), symmetric A -> ~ posdef A -> lib_chol (OnGpu Torch) A = Raise Runtime;
  t_solve : forall n m (A : 'M[R]_n) (b : 'M[R]_(n, m)), A \notin unitmx -> lib_solve (OnGpu Torch) A b = Raise Runtime;
  t_logdet : forall n (A : 'M[R]_n), A \notin unitmx -> lib_slogdet (OnGpu Torch) A = Ok NegInf }.

Lemma triu_tr n (L : 'M[R]_n) : triu L^T = (tril L)^T.
Proof. by apply/matrixP => i j; rewrite !mxE. Qed.
Lemma gpu_solveE n m (L : 'M[R]_n) (b : 'M[R]_(n, m)) : invmx (triu L^T) *m (invmx (tril L) *m b) = chol_solve L b.
Proof. by rewrite triu_tr. Qed.
Lemma gpu_rank_1E n (L : 'M[R]_n) b c : gpu_rank_1 L b c = if rank_1 L b c is Some L' then Ok L' else Raise NonPD.
Proof.
  rewrite /gpu_rank_1 /rank_1. case: (_ <= 0) => //. congr (Ok _). apply/matrixP => i j. rewrite !mxE.
  case: (split i) => a; rewrite !mxE; case: (split j) => d; rewrite ?mxE ?ord1 //.
Qed.
Lemma unit_posdef n (A : 'M[R]_n) L : is_chol L A -> A \in unitmx.
Proof. by move=> /is_cholE/chol_unit. Qed.

(** C143: with libraries that keep their promises, each operation gives on the GPU, with any engine, what it gives on the
    CPU: the Cholesky factor as far as it is read, the solutions, the inverse, the log-determinants, the extended factor. *)
Theorem gpu_equals_cpu_partial : (forall l, good_lib l) ->
  (forall n (A : 'M[R]_n), symmetric A -> posdef A -> exists L L',
     [/\ Chol_factor lib_chol engine None Cpu A = Ok L, Chol_factor lib_chol engine None Gpu A = Ok L' &
      tril L = tril L'] /\
     [/\ forall m (b : 'M[R]_(n, m)), exists2 x, A *m x = b & forall o d F, (F = L \/ F = L') -> d <> Unknown -> o <> Some Unknown -> Chol_solve engine o d F b = Ok x,
      forall d o, d <> Unknown -> o <> Some Unknown -> inv_of_chol engine o d L' = Ok (invmx A) &
      forall o o' d d', d <> Unknown -> d' <> Unknown -> o <> Some Unknown -> o' <> Some Unknown -> Chol_logdet lg engine o d L = Chol_logdet lg engine o' d' L']) /\
  (forall n (A : 'M[R]_n), A \in unitmx ->
     (forall d, logdet lib_slogdet big engine d A = Ok (Fin (lg `|\det A|)) /\ calc_inv lib_inv engine d A = Ok (invmx A)) /\
     forall m (b : 'M[R]_(n, m)), exists2 x, A *m x = b & forall d, d <> Unknown -> solve lib_solve lstsq engine d A b = Ok x) /\
  (engine <> None -> forall n (L : 'M[R]_n) b c, chol_rank_1 engine Gpu L b c = chol_rank_1 engine Cpu L b c).
Proof.
  move=> GL. split; [|split].
  - move=> n A S P. have [L E1 C1] := g_chol (GL Numpy) S P.
    have [L' E2 C2] := g_chol (GL (if engine is Some g then OnGpu g else Numpy)) S P.
    have T : tril L = tril L' by apply: chol_unique; apply/is_cholE; eauto.
    have SE m (b : 'M[R]_(n, m)) : chol_solve L b = chol_solve L' b by rewrite /chol_solve T.
    have SO m (b : 'M[R]_(n, m)) o d F : (F = L \/ F = L') -> d <> Unknown -> o <> Some Unknown -> Chol_solve engine o d F b = Ok (chol_solve L b).
      move=> HF Hd Ho. have -> : chol_solve L b = chol_solve F b by case: HF => ->.
      rewrite /Chol_solve /=. by case: o Ho => [[| |]|] //; case: d Hd => //= _ _; case: engine => [g|] //=; rewrite gpu_solveE.
    exists L, L'. split; first by rewrite /Chol_factor /= E1 E2. split.
    + move=> m b. exists (chol_solve L b); first by apply: chol_solve_ok; apply/is_cholE.
      exact: SO.
    + move=> d o Hd Ho. have IE : chol_solve L' 1%:M = invmx A by apply: inv_from_chol_ok; apply/is_cholE.
      case: d Hd => //= _; first by rewrite IE. by rewrite SO // ?SE ?IE; auto.
    + have D i : L i i = L' i i by have := congr1 (fun M : 'M_n => M i i) T; rewrite !mxE leqnn.
      have K o d (F : 'M[R]_n) : (forall i, 0 < F i i) -> d <> Unknown -> o <> Some Unknown -> Chol_logdet lg engine o d F = Chol_logdet lg engine None Cpu F.
        move=> Fp Hd Ho. have NE : nsum (fun i => log_of lg (F i i)) = nsum (fun i => log_of lg `|F i i|).
          rewrite /nsum; elim: (enum _) => //= i s ->. by rewrite (gtr0_norm (Fp i)).
        by rewrite /Chol_logdet; case: o Ho => [[| |]|] //; case: d Hd => //= _ _; case: engine => [g|] //=; rewrite NE.
      move=> o o' d d' H1 H2 H3 H4. rewrite (K _ _ L) ?(K _ _ L') //; try by case: C1. 2: by case: C2.
      rewrite /Chol_logdet /=. suff -> : nsum (fun i => log_of lg `|L i i|) = nsum (fun i => log_of lg `|L' i i|) by [].
      by rewrite /nsum; elim: (enum _) => //= i s ->; rewrite D.
  - move=> n A U. split.
    + move=> d. split.
        rewrite /logdet !(g_logdet (GL _) U). case: d => //. case: engine => [g|] //. by rewrite (g_logdet (GL _) U).
      have I l : lib_inv l A = Ok (invmx A) by have [B -> E] := g_inv (GL l) U; rewrite -[B](mulKmx U) E mulmx1.
      by rewrite /calc_inv !I; case: d.
    + move=> m b. have I l : lib_solve l A b = Ok (invmx A *m b) by have [x -> E] := g_solve (GL l) b U; rewrite -E mulKmx.
      exists (invmx A *m b); first by rewrite mulKVmx.
      case=> // _; rewrite /solve /np_solve; first by rewrite I. by case: engine => [g|]; rewrite I.
  - case: engine => // g _ n L b c. by rewrite /= gpu_rank_1E; case: (rank_1 _ _ _).
Qed.

(** C143: the log-determinant that is computed from the factor is the logarithm of the determinant, and minus infinity, on every device, for a factor with a zero on its diagonal
    and no negative number there; a negative number there makes it NaN on the GPU. *)
Theorem chol_logdet_value : (forall x y : R, 0 < x -> 0 < y -> lg (x * y) = lg x + lg y) -> forall o d, d <> Unknown -> o <> Some Unknown -> forall n,
  (forall L A : 'M[R]_n, is_chol L A -> Chol_logdet lg engine o d L = Ok (Fin (lg (\det A)))) /\
  (forall L : 'M[R]_n, (forall i, 0 <= L i i) -> (exists i, L i i = 0) -> Chol_logdet lg engine o d L = Ok NegInf) /\
  (forall (L : 'M[R]_n) i g, L i i < 0 -> engine = Some g -> Chol_logdet lg engine None Gpu L = Ok Nan).
Proof.
  move=> Lg o d Hd Ho n.
  have l1 : lg 1 = 0 by apply: (addrI (lg 1)); rewrite -Lg ?ltr01 // mulr1 addr0.
  have K (F : 'M[R]_n) : (forall i, 0 <= F i i) -> Chol_logdet lg engine o d F = Ok (let s := nsum (fun i => log_of lg (F i i)) in nplus s s).
    move=> Fp. have NE : nsum (fun i => log_of lg `|F i i|) = nsum (fun i => log_of lg (F i i)).
      by rewrite /nsum; elim: (enum _) => //= i s ->; rewrite (ger0_norm (Fp i)).
    by rewrite /Chol_logdet; case: o Ho => [[| |]|] //; case: d Hd => //= _ _; case: engine => [g|] //=; rewrite NE.
  split; [|split]; last first.
  - move=> L i g Ni Eg; rewrite /Chol_logdet Eg /=.
    have S : forall s : seq 'I_n, i \in s -> foldr (fun i => nplus (log_of lg (L i i))) (Fin 0) s = Nan.
      elim=> [|j s IH] //=; rewrite inE => /orP [/eqP <-|/IH ->]; first by rewrite /log_of Ni.
      by case: (log_of _ _).
    by rewrite /nsum S ?mem_enum.
  2: {
    move=> L A C. have [P _] := C. rewrite K; last by move=> i; apply: ltW.
    have S : forall s : seq 'I_n, 0 < \prod_(i <- s) L i i /\ foldr (fun i => nplus (log_of lg (L i i))) (Fin 0) s = Fin (lg (\prod_(i <- s) L i i)).
      elim=> [|i s [IH1 IH2]] /=; first by rewrite big_nil l1 ltr01. rewrite big_cons. split; first exact: mulr_gt0.
      by rewrite IH2 /log_of ltNge (ltW (P i)) /= gt_eqF //= Lg.
    have [S1 S2] := S (enum 'I_n). rewrite /nsum S2 /=. have /is_cholE/chol_det -> := C.
    by rewrite big_enum /= in S1 *; rewrite expr2 Lg. }
  - move=> L P [i0 Z]. rewrite K //. have S : forall s : seq 'I_n, foldr (fun i => nplus (log_of lg (L i i))) (Fin 0) s = NegInf \/ (i0 \notin s /\ exists x, foldr (fun i => nplus (log_of lg (L i i))) (Fin 0) s = Fin x).
      elim=> [|i s IH] /=; first by right; split => //; exists 0.
      rewrite /log_of ltNge (P i) /=. case: eqP => N.
        left. by case: IH => [->|[_ [x ->]]].
      case: IH => [->|[I [x ->]]]; first by left.
      right. split; last by eexists. rewrite inE negb_or I andbT. apply/eqP => E. by apply: N; rewrite -E.
    rewrite /nsum. by case: (S (enum 'I_n)) => [->|[]] //; rewrite mem_enum.
Qed.

(** Singular matrices: the log-determinant is minus infinity on the CPU and a finite number on the GPU, and solve gives a
    least squares solution on the CPU and raises on the GPU. *)
Theorem gpu_equals_cpu_refuted : numpy_rejects -> torch_rejects -> engine = Some Torch -> forall n m (A : 'M[R]_n) (b x : 'M[R]_(n, m)), A \notin unitmx ->
  logdet lib_slogdet big engine Cpu A = Ok NegInf /\ logdet lib_slogdet big engine Gpu A = Ok (Fin (- big)) /\
  (lstsq A b = Ok x -> solve lib_solve lstsq engine Cpu A b = Ok x) /\ solve lib_solve lstsq engine Gpu A b = Raise Runtime.
Proof.
  move=> N T E n m A b x U. rewrite /logdet /solve /np_solve E (r_logdet N U) (t_logdet T U) (r_solve N b U) (t_solve T b U). by [].
Qed.

(** C144: on the CPU, and on a GPU whose library only raises for such matrices, the error means what it says *)
Theorem nonpd_error_partial : (forall l, good_lib l) -> forall o d n (A : 'M[R]_n), symmetric A ->
  Chol_factor lib_chol engine o d A = Raise NonPD -> ~ posdef A.
Proof.
  move=> GL o d n A S E P. move: E. rewrite /Chol_factor /=. case: (chosen _ _) => [l|] //. by have [L -> _] := g_chol (GL l) S P.
Qed.
Theorem nonpd_error_cpu_partial : good_lib Numpy -> forall n (A : 'M[R]_n), symmetric A -> numpy_rejects ->
  (Chol_factor lib_chol engine None Cpu A = Raise NonPD <-> ~ posdef A).
Proof.
  move=> GL n A S N. split.
    move=> E P. move: E. rewrite /Chol_factor /=. by have [L -> _] := g_chol GL S P.
  by move=> P; rewrite /Chol_factor /= (r_chol N S P).
Qed.
(** A RuntimeError of the GPU (out of memory, say) is reported as a matrix that is not positive definite. *)
Theorem nonpd_error_refuted : forall g, engine = Some g -> forall n (A : 'M[R]_n), lib_chol (OnGpu g) A = Raise Runtime ->
  Chol_factor lib_chol engine None Gpu A = Raise NonPD.
Proof. by move=> g E n A H; rewrite /Chol_factor /= E H. Qed.

(** C145: without a usable engine a GPU request computes what the CPU computes, except the rank-1 update *)
Theorem gpu_fallback_partial : engine = None -> forall n m (A L : 'M[R]_n) (b : 'M[R]_(n, m)) o,
  Chol_factor lib_chol engine o Gpu A = Chol_factor lib_chol engine o Cpu A /\ Chol_solve engine o Gpu L b = Chol_solve engine o Cpu L b /\
  Chol_logdet lg engine o Gpu L = Chol_logdet lg engine o Cpu L /\ logdet lib_slogdet big engine Gpu A = logdet lib_slogdet big engine Cpu A /\
  calc_inv lib_inv engine Gpu A = calc_inv lib_inv engine Cpu A /\ solve lib_solve lstsq engine Gpu A b = solve lib_solve lstsq engine Cpu A b /\
  inv_of_chol engine None Gpu L = inv_of_chol engine None Cpu L.
Proof. move=> E n m A L b o. by rewrite /Chol_factor /Chol_solve /Chol_logdet /logdet /calc_inv /solve /inv_of_chol /Chol_solve E; case: o => [[]|]. Qed.
Theorem gpu_fallback_refuted : engine = None -> forall n (L : 'M[R]_n) b c, chol_rank_1 engine Gpu L b c = Ok None.
Proof. by move=> E n L b c; rewrite /chol_rank_1 E. Qed.

(** ... and work asked for on the CPU never reaches a GPU library, while with an engine the GPU's own results are handed over *)
Theorem devices_respected : forall e n m (A L : 'M[R]_n) (b : 'M[R]_(n, m)),
  (Chol_factor lib_chol e None Cpu A = Chol_factor lib_chol None None Cpu A /\ Chol_solve e None Cpu L b = Chol_solve None None Cpu L b /\
   Chol_logdet lg e None Cpu L = Chol_logdet lg None None Cpu L /\ logdet lib_slogdet big e Cpu A = lib_slogdet Numpy A /\
   calc_inv lib_inv e Cpu A = lib_inv Numpy A /\ solve lib_solve lstsq e Cpu A b = solve lib_solve lstsq None Cpu A b /\
   (forall o, inv_of_chol e o Cpu L = inv_of_chol None None Cpu L)) /\
  forall g, e = Some g ->
    (forall F, lib_chol (OnGpu g) A = Ok F -> Chol_factor lib_chol e None Gpu A = Ok F) /\
    calc_inv lib_inv e Gpu A = lib_inv (OnGpu g) A /\ solve lib_solve lstsq e Gpu A b = lib_solve (OnGpu g) A b /\
    (forall x, lib_slogdet (OnGpu g) A = Ok (Fin x) -> logdet lib_slogdet big e Gpu A = Ok (Fin x)).
Proof.
  move=> e n m A L b. split; first by rewrite /Chol_factor /Chol_solve /Chol_logdet /logdet /calc_inv /solve /inv_of_chol; do !split.
  move=> g ->. rewrite /Chol_factor /calc_inv /solve /logdet /=. do !split; last by move=> x ->. by move=> F ->.
Qed.

(** C146: products with sparse factors are computed on the CPU whatever device is asked for *)
Theorem sparse_product_partial : forall d n m p (A : 'M[R]_(n, m)) (B : 'M[R]_(m, p)),
  matmul d (Sparse A) (Sparse B) = Ok (A *m B) /\ matmul d (Sparse A) (Dense B) = Ok (A *m B) /\ matmul d (Dense A) (Sparse B) = Ok (A *m B).
Proof. by []. Qed.
Theorem dense_product : forall d n m p q (A : 'M[R]_(n, m)) (B : 'M[R]_(m, p)) (C : 'M[R]_(p, q)),
  (d <> Unknown -> matmul d (Dense A) (Dense B) = Ok (A *m B) /\ matmul3 d (Dense A) (Dense B) (Dense C) = Ok (A *m B *m C)) /\
  (d = Unknown -> matmul d (Dense A) (Dense B) = Raise OtherE /\ matmul3 d (Dense A) (Dense B) (Dense C) = Raise OtherE).
Proof. by move=> d n m p q A B C; split; case: d. Qed.
Theorem sparse_product_refuted : forall d n m p q (A : 'M[R]_(n, m)) (B : 'M[R]_(m, p)) (C : 'M[R]_(p, q)) (B' : mat R m p) (A' : mat R n m) (C' : mat R p q),
  matmul3 d (Sparse A) B' C' = Raise Assertion /\ matmul3 d A' (Sparse B) C' = Raise Assertion /\ matmul3 d A' B' (Sparse C) = Raise Assertion.
Proof. by move=> d n m p q A B C B' A' C'; rewrite /matmul3; case: A'; case: B'. Qed.
End Statements.
Print Assumptions gpu_equals_cpu_partial.
Print Assumptions gpu_equals_cpu_refuted.
Print Assumptions nonpd_error_partial.
Print Assumptions nonpd_error_cpu_partial.
Print Assumptions nonpd_error_refuted.
Print Assumptions chol_logdet_value.
Print Assumptions devices_respected.
Print Assumptions gpu_fallback_partial.
Print Assumptions gpu_fallback_refuted.
Print Assumptions sparse_product_partial.
Print Assumptions dense_product.
Print Assumptions sparse_product_refuted.

(** Libraries that keep all these promises exist over every real closed field, so the theorems are about something. *)
Section Possible.
Variables (R : rcfType) (lg : R -> R).
Definition any_chol (l : lib) n (A : 'M[R]_n) : out 'M[R]_n :=
  if my_cho A is Some L then Ok L else Raise (if l is Numpy then LinAlg else Runtime).
Definition any_inv (l : lib) n (A : 'M[R]_n) : out 'M[R]_n := if A \in unitmx then Ok (invmx A) else Raise (if l is Numpy then LinAlg else Runtime).
Definition any_solve (l : lib) n m (A : 'M[R]_n) (b : 'M[R]_(n, m)) : out 'M[R]_(n, m) :=
  if A \in unitmx then Ok (invmx A *m b) else Raise (if l is Numpy then LinAlg else Runtime).
Definition any_slogdet (l : lib) n (A : 'M[R]_n) : out (num R) := if A \in unitmx then Ok (Fin (lg `|\det A|)) else Ok NegInf.
Example libraries_possible : (forall l, good_lib any_chol any_inv any_solve any_slogdet lg l) /\
  numpy_rejects any_chol any_solve any_slogdet /\ torch_rejects any_chol any_solve any_slogdet.
Proof.
  have [C _] := contracts_possible lg. split; [|split].
  - move=> l. split.
    + move=> n A S P. have [H1 H2] := C _ A S. rewrite /any_chol. have [L E] : exists L, my_cho A = Some L by apply/H2.
      rewrite E. exists L => //. exact: H1.
    + move=> n A U. rewrite /any_inv U. exists (invmx A) => //. exact: mulmxV.
    + move=> n m A b U. rewrite /any_solve U. exists (invmx A *m b) => //. exact: mulKVmx.
    + by move=> n A U; rewrite /any_slogdet U.
  - split.
    + move=> n A S P. have [_ H2] := C _ A S. rewrite /any_chol. case E: (my_cho A) => [L|] //. case: P. apply/H2. by exists L.
    + by move=> n m A b /negbTE U; rewrite /any_solve U.
    + by move=> n A /negbTE U; rewrite /any_slogdet U.
  - split.
    + move=> n A S P. have [_ H2] := C _ A S. rewrite /any_chol. case E: (my_cho A) => [L|] //. case: P. apply/H2. by exists L.
    + by move=> n m A b /negbTE U; rewrite /any_solve U.
    + by move=> n A /negbTE U; rewrite /any_slogdet U.
Qed.
(** the zero matrix of two rows, torch against numpy *)
Example singular_logdet big : logdet any_slogdet big (Some Torch) Cpu (0 : 'M[R]_2) = Ok NegInf /\
  logdet any_slogdet big (Some Torch) Gpu (0 : 'M[R]_2) = Ok (Fin (- big)).
Proof. have U : (0 : 'M[R]_2) \in unitmx = false by rewrite unitmxE det0 unitr0. by rewrite /logdet /any_slogdet U. Qed.
(** a factor with a zero on its diagonal, on a GPU and on the CPU, and the unit matrix *)
Example chol_logdet_ex : (forall x y : R, 0 < x -> 0 < y -> lg (x * y) = lg x + lg y) ->
  Chol_logdet lg (Some Torch) None Gpu (0 : 'M[R]_2) = Ok NegInf /\ Chol_logdet lg None None Cpu (0 : 'M[R]_2) = Ok NegInf /\ Chol_logdet lg (Some Torch) None Gpu (1%:M : 'M[R]_2) = Ok (Fin (lg 1)).
Proof.
  move=> Lg. have [_ [H HN]] := @chol_logdet_value R lg (Some Torch) Lg None Gpu ltac:(by []) ltac:(by []) 2. have [_ [H' _]] := @chol_logdet_value R lg None Lg None Cpu ltac:(by []) ltac:(by []) 2.
  have Z : (forall i : 'I_2, 0 <= (0 : 'M[R]_2) i i) by move=> i; rewrite mxE. have Z' : exists i : 'I_2, (0 : 'M[R]_2) i i = 0 by exists ord0; rewrite mxE.
  rewrite (H _ Z Z') (H' _ Z Z'). do !split. have [H1 _] := @chol_logdet_value R lg (Some Torch) Lg None Gpu ltac:(by []) ltac:(by []) 2.
  rewrite (H1 _ 1%:M); first by rewrite det1. apply/is_cholE. have T : tril (1%:M : 'M[R]_2) = 1%:M by apply/matrixP => i j; rewrite !mxE; case: leqP => // ji; case: eqP => // E; move: ji; rewrite E ltnn.
  split; first by move=> i; rewrite mxE eqxx ltr01. by rewrite T trmx1 mulmx1.
Qed.
(** the same factor with different numbers above the diagonal *)
Example garbage_ignored (a : R) : let F := (\matrix_(i, j) (if i == j then 1 else if (i <= j)%N then a else 2%:R)) : 'M[R]_2 in
  forall e o, o <> Some Unknown -> Chol_solve e o Gpu F 1%:M = Ok (chol_solve (\matrix_(i, j) (if i == j then 1 else if (i <= j)%N then 0 else 2%:R)) 1%:M).
Proof.
  move=> F e o Ho. have T : tril F = tril (\matrix_(i, j) (if i == j then 1 else if (i <= j)%N then 0 else 2%:R)).
    apply/matrixP => i j. rewrite !mxE. case: ifP => // ji. case: eqP => // /eqP N. case: ifP => // ij. by case/negP: N; rewrite -val_eqE eqn_leq ij ji.
  rewrite /Chol_solve /chol_solve -T. by case: o Ho => [[| |]|] //=; case: e => [g|] //=; rewrite ?triu_tr.
Qed.
End Possible.
