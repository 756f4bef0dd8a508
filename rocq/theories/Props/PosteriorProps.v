(** Properties of predictions: C42-C44, C75-C80. *)
From Coq Require Import Reals ZArith Lra Lia.
From mathcomp Require Import all_ssreflect all_algebra.
From Verif Require Import Proofs.RealMx Proofs.MxCalc Spec.CholSpec Proofs.CholP Proofs.PosDef.
From Verif Require Import Model.Likelihood Spec.LikelihoodSpec Spec.KernelSpec Proofs.LikelihoodP Model.Posterior Spec.PosteriorSpec Proofs.PosteriorP Proofs.PosteriorEx.
Set Implicit Arguments.
Unset Strict Implicit.
Unset Printing Implicit Defensive.
Import Order.TTheory GRing.Theory Num.Theory.
Local Open Scope ring_scope.

(** C42: whatever the solver and the stored inverse contain *)
Theorem posterior_variance_nonneg : forall X (kern : X -> X -> R) c n (x_data : 'I_n -> X) (noise_at : forall q, ('I_q -> X) -> noise q)
    (KVinv : option 'M[R]_n) q (product : 'M[R]_(n, q) -> 'M[R]_q) (x_pred : 'I_q -> X) variance_only noisy,
  (forall i, 0 <= noise_mx (noise_at q x_pred) i i) ->
  let r := posterior_covariance kern c x_data noise_at KVinv product x_pred variance_only noisy in
  (forall i, 0 <= r.1 i 0) /\
  (variance_only = false -> exists S, r.2 = Some S /\ forall i, S i i = r.1 i 0).
Proof.
move=> X kern c n x_data noise_at KVinv q product x_pred variance_only noisy N r.
have K (v : 'cV[R]_q) (S : option 'M[R]_q) : (forall i, 0 <= v i 0) -> (variance_only = false -> exists S', S = Some S' /\ forall i, S' i i = v i 0) ->
    let r := if noisy then add_noise noise_at x_pred v S else (v, S) in
    (forall i, 0 <= r.1 i 0) /\ (variance_only = false -> exists S', r.2 = Some S' /\ forall i, S' i i = r.1 i 0).
  case: (noisy)=> P D; last by []. rewrite /add_noise; case: (noise_at q x_pred) N=> [d|M] /= N; split=> [i|/D [S' [-> E]]].
  - by rewrite mxE addr_ge0 //; move: (N i); rewrite !mxE eqxx mulr1n.
  - by exists (S' + diag_mx d^T); split=> // i; rewrite !mxE eqxx mulr1n E.
  - by rewrite !mxE addr_ge0.
  - by exists (S' + M); split=> // i; rewrite !mxE E.
have C (v : 'cV[R]_q) (S : option 'M[R]_q) : (variance_only = false -> exists S', S = Some S' /\ forall i, S' i i = v i 0) ->
    let vS := if [exists i, v i 0 < 0] then let v := \col_i (if v i 0 < 0 then 0 else v i 0) in
         (v, if variance_only then S else if S is Some S0 then Some (fill_diagonal S0 v) else None) else (v, S) in
    (forall i, 0 <= vS.1 i 0) /\ (variance_only = false -> exists S', vS.2 = Some S' /\ forall i, S' i i = vS.1 i 0).
  move=> D; case: existsP=> [_|E] /=; split=> //.
  - by move=> i; rewrite mxE; case: ltP.
  - move=> e; have [S' [-> _]] := D e; rewrite e.
    by exists (fill_diagonal S' (\col_i (if v i 0 < 0 then 0 else v i 0))); split=> // i; rewrite [LHS]mxE eqxx.
  - by move=> i; rewrite leNgt; apply/negP=> lt; apply: E; exists i.
rewrite /r /posterior_covariance.
set vS := match KVinv with Some _ => _ | None => _ end.
have D : variance_only = false -> exists S', vS.2 = Some S' /\ forall i, S' i i = vS.1 i 0.
  move=> e; rewrite /vS e /=; case: (KVinv)=> [KVi|] /=; eexists; split=> // i; rewrite [in RHS]mxE //.
case: vS D=> v S D /=; have [] := C v S D; case: (if _ then _ else _)=> v' S' P' D'; exact: K.
Qed.
Print Assumptions posterior_variance_nonneg.

(** example: a solver whose round-off makes the variance -1; it is reported as 0, in both v and S *)
Example posterior_variance_ex :
  let r := posterior_covariance (fun _ _ : unit => 1%coqR) 1 (fun _ : 'I_1 => tt) (fun q _ => NDiag (0 : 'cV_q)) None
             (fun _ => const_mx 2%:R : 'M_1) (fun _ : 'I_1 => tt) false false in
  r.1 0 0 = 0 /\ exists S, r.2 = Some S /\ S 0 0 = 0.
Proof.
have v (i : 'I_1) : (\col_i (kmat (fun _ _ : unit => 1%coqR) (fun _ : 'I_1 => tt) (fun _ : 'I_1 => tt) - const_mx 2%:R) i i : 'cV[R]_1) i 0 < 0.
  by rewrite !mxE subr_lt0 ltr1n.
rewrite /= /posterior_covariance; case: existsP=> [_|[]]; last by exists 0.
by split; [rewrite mxE v | eexists; split; [reflexivity|rewrite mxE eqxx mxE v]].
Qed.

(** C75: the documented promise that no matrix comes back when only variances are asked for ... *)
Theorem variance_only_partial : forall X (kern : X -> X -> R) c n (x_data : 'I_n -> X) (noise_at : forall q, ('I_q -> X) -> noise q)
    (KVinv : option 'M[R]_n) q (product : 'M[R]_(n, q) -> 'M[R]_q) (x_pred : 'I_q -> X) noisy,
  (posterior_covariance kern c x_data noise_at KVinv product x_pred true noisy).2 = None
  <-> (exists M, KVinv = Some M) /\ c = 1%N.
Proof.
move=> X kern c n x_data noise_at KVinv q product x_pred noisy; rewrite /posterior_covariance.
have K v (S : option 'M[R]_q) : (if noisy then add_noise noise_at x_pred v S else (v, S)).2 = None <-> S = None.
  by case: noisy=> //; rewrite /add_noise; case: (noise_at q x_pred)=> [d|M] /=; case: S.
case: KVinv=> [M|] /=; last first.
  by case: ifP=> _; rewrite K; split=> // -[[]].
case: (eqVneq c 1%N)=> [->|N]; first by case: ifP=> _; rewrite K; split=> // _; split=> //; exists M.
by case: ifP=> _; rewrite K; split=> // -[_ e]; rewrite e eqxx in N.
Qed.
Print Assumptions variance_only_partial.
(** ... fails in the modes that do not store the inverse *)
Theorem variance_only_refuted : exists X (kern : X -> X -> R) c n (x_data : 'I_n -> X) (noise_at : forall q, ('I_q -> X) -> noise q)
    (KVinv : option 'M[R]_n) q (product : 'M[R]_(n, q) -> 'M[R]_q) (x_pred : 'I_q -> X) noisy,
  (posterior_covariance kern c x_data noise_at KVinv product x_pred true noisy).2 <> None.
Proof.
exists unit, (fun _ _ => 1%coqR), 1%N, 1%N, (fun _ => tt), (fun q _ => NDiag 0), None, 1%N, (fun _ => 0), (fun _ => tt), false.
by move/variance_only_partial=> [[]].
Qed.
Print Assumptions variance_only_refuted.

(** C43: the posterior of a valid covariance function and positive definite noise *)
Section Exact.
Variables (X : Type) (kern : X -> X -> R) (n : nat) (x_data : 'I_n -> X) (V : noise n) (noise_at : forall q, ('I_q -> X) -> noise q).
Let A : 'M[R]_n := gram kern x_data x_data + noise_mx V.
Lemma posterior_covariance_exact c q (x_pred : 'I_q -> X) (KVinv : option 'M[R]_n) product variance_only :
  valid_covariance kern -> (noise_mx V)^T = noise_mx V -> posdef (noise_mx V) ->
  KVinv = None \/ KVinv = Some (invmx A) -> (forall k, product k = k^T *m invmx A *m k) ->
  let S := gram kern x_pred x_pred - gram kern x_pred x_data *m invmx A *m gram kern x_data x_pred in
  posterior_covariance kern c x_data noise_at KVinv product x_pred variance_only false
  = (\col_i S i i, if (KVinv != None) && variance_only && (c == 1)%N then None else Some S).
Proof.
move=> Vk SV PV HK HP S.
have SE : schur kern x_data V x_pred = S by rewrite /S -(gram_sym x_data x_pred Vk).
have P i : ((\col_i S i i : 'cV_q) i 0 < 0) = false.
  by rewrite mxE -SE; apply: negbTE; rewrite -leNgt; apply: psd_diag; apply: schur_ge0.
have Ev M : M = invmx A -> \col_i (kmat kern x_pred x_pred i i - \sum_j \sum_l kmat kern x_data x_pred j i * M j l * kmat kern x_data x_pred l i)
    = \col_i S i i :> 'cV_q.
  by move=> ->; apply/colP=> i; rewrite [LHS]mxE [RHS]mxE -SE schur_ii.
have Ed : kmat kern x_pred x_pred - product (kmat kern x_data x_pred) = S by rewrite HP -SE.
rewrite /posterior_covariance Ed.
have N : [exists i, (\col_i S i i : 'cV_q) i 0 < 0] = false by apply/existsP=> -[i]; rewrite P.
case: HK=> -> /=; first by rewrite N.
case: (variance_only && _); last by rewrite N.
by rewrite Ev // N.
Qed.
End Exact.

Theorem posterior_below_prior : forall X (kern : X -> X -> R) n (x_data : 'I_n -> X) (V : noise n) (noise_at : forall q, ('I_q -> X) -> noise q)
    c q (x_pred : 'I_q -> X) (KVinv : option 'M[R]_n) product variance_only,
  valid_covariance kern -> (noise_mx V)^T = noise_mx V -> posdef (noise_mx V) ->
  let A : 'M[R]_n := gram kern x_data x_data + noise_mx V in
  KVinv = None \/ KVinv = Some (invmx A) -> (forall k, product k = k^T *m invmx A *m k) ->
  let r := posterior_covariance kern c x_data noise_at KVinv product x_pred variance_only false in
  (forall i, 0 <= r.1 i 0 <= kern (x_pred i) (x_pred i)) /\
  forall S, r.2 = Some S -> [/\ S^T = S, psd S & psd (gram kern x_pred x_pred - S)].
Proof.
move=> X kern n x_data V noise_at c q x_pred KVinv product variance_only Vk SV PV A HK HP r.
rewrite /r (posterior_covariance_exact noise_at c x_pred variance_only Vk SV PV HK HP) /=.
have SE : schur kern x_data V x_pred = gram kern x_pred x_pred - gram kern x_pred x_data *m invmx A *m gram kern x_data x_pred.
  by rewrite -(gram_sym x_data x_pred Vk).
rewrite -SE; split=> [i|S].
  rewrite mxE psd_diag; last exact: schur_ge0.
  by have := schur_le x_data Vk SV PV x_pred i; rewrite [X in _ <= X]mxE.
case: ifP=> // _ [<-]; split; [exact: schur_sym|exact: schur_ge0|].
rewrite SE opprB addrC subrK -(gram_sym x_data x_pred Vk).
by apply: psd_cong; apply: posdef_psd; apply: posdef_inv; [exact: KV_sym|exact: KV_pd].
Qed.
Print Assumptions posterior_below_prior.

(** C76: mean and covariance are those of the conditional distribution: the joint density of observations and predictions
    is the density of the observations times the Gaussian density with the returned mean and covariance *)
Theorem posterior_is_conditional : forall X (kern : X -> X -> R) (mean : X -> R) n (x_data : 'I_n -> X) (y : 'cV[R]_n) (V : noise n)
    (noise_at : forall q, ('I_q -> X) -> noise q) q (x_pred : 'I_q -> X) (KVinv : option 'M[R]_n) product (f : 'cV[R]_q) S,
  valid_covariance kern -> (noise_mx V)^T = noise_mx V -> posdef (noise_mx V) ->
  let A : 'M[R]_n := gram kern x_data x_data + noise_mx V in
  KVinv = None \/ KVinv = Some (invmx A) -> (forall k, product k = k^T *m invmx A *m k) ->
  (posterior_covariance kern 1 x_data noise_at KVinv product x_pred false false).2 = Some S -> 0 < \det S ->
  log_gauss (col_mx y f) (col_mx (mean_vec mean x_data) (mean_vec mean x_pred)) (block_mx A (gram kern x_data x_pred) (gram kern x_pred x_data) (gram kern x_pred x_pred))
  = log_gauss y (mean_vec mean x_data) A + log_gauss f (posterior_mean kern mean x_data y V x_pred) S.
Proof.
move=> X kern mean n x_data y V noise_at q x_pred KVinv product f S Vk SV PV A HK HP.
rewrite (posterior_covariance_exact noise_at 1 x_pred false Vk SV PV HK HP) /= andbF => -[<-].
rewrite -(gram_sym x_data x_pred Vk) => dS.
rewrite log_gauss_cond //; [|exact: KV_sym|by apply: posdef_det; [exact: KV_sym|exact: KV_pd]].
congr (_ + log_gauss _ _ _); apply/matrixP=> i j; rewrite [RHS]mxE ord1 [LHS]mxE [X in X + _]mxE; congr (_ + (_ *m (_ *m _)) _ _).
by apply/matrixP=> a b; rewrite !mxE ord1.
Qed.
Print Assumptions posterior_is_conditional.
(** without noise the prediction at the data points is the data, with covariance zero *)
Theorem posterior_interpolates : forall X (kern : X -> X -> R) (mean : X -> R) n c (x_data : 'I_n -> X) (y : 'M[R]_(n, c)) (V : noise n)
    (noise_at : forall q, ('I_q -> X) -> noise q) (KVinv : option 'M[R]_n) product variance_only,
  noise_mx V = 0 -> gram kern x_data x_data \in unitmx ->
  let A : 'M[R]_n := gram kern x_data x_data in
  KVinv = None \/ KVinv = Some (invmx A) -> (forall k, product k = k^T *m invmx A *m k) -> valid_covariance kern ->
  posterior_mean kern mean x_data y V x_data = y /\
  let r := posterior_covariance kern c x_data noise_at KVinv product x_data variance_only false in
  r.1 = 0 /\ forall S, r.2 = Some S -> S = 0.
Proof.
move=> X kern mean n c x_data y V noise_at KVinv product variance_only V0 U A HK HP Vk.
have sA : A^T = A by exact: gram_sym.
split.
  apply/matrixP=> i j; rewrite mxE /KVinvYp /KVmx V0 addr0 (_ : kmat _ _ _ = A) // sA mulKVmx // !mxE.
  by rewrite addrC subrK.
have Ed : kmat kern x_data x_data - product (kmat kern x_data x_data) = 0.
  by rewrite HP (_ : kmat _ _ _ = A) // sA mulmxV // mul1mx subrr.
have z : (\col_i (0 : 'M[R]_n) i i : 'cV[R]_n) = 0 by apply/colP=> i; rewrite !mxE.
have N : [exists i, (0 : 'cV[R]_n) i 0 < 0] = false by apply/existsP=> -[i]; rewrite mxE ltxx.
have Ev M : M = invmx A -> \col_i (kmat kern x_data x_data i i - \sum_j \sum_l kmat kern x_data x_data j i * M j l * kmat kern x_data x_data l i) = 0 :> 'cV_n.
  move=> ->; apply/colP=> i; rewrite 2!mxE [RHS]mxE.
  have -> : \sum_j \sum_l A j i * invmx A j l * A l i = (A^T *m invmx A *m A) i i.
    rewrite [RHS]mxE exchange_big /=; apply: eq_bigr=> l _; rewrite [X in _ = X * _]mxE mulr_suml.
    by apply: eq_bigr=> j _; rewrite [A^T _ _]mxE.
  by rewrite sA mulmxV // mul1mx mxE subrr.
rewrite /posterior_covariance Ed z; case: HK=> -> /=; first by rewrite N; split=> // S [].
case: (variance_only && _); last by rewrite N; split=> // S [].
by rewrite Ev // N; split.
Qed.
Print Assumptions posterior_interpolates.


(** example: a function a x with a of prior variance 1, one observation 2 at x = 1 with noise variance 1: at the points
    0 and 3 the mean is 0 and 3, the covariance matrix that of a/sqrt 2 *)
Definition lin (x y : R) : R := Rmult x y.
Lemma lin_valid : valid_covariance lin. Proof. exact: (rank1_valid id). Qed.
Definition V1 : noise 1 := NDiag (const_mx 1).
Lemma V1_mx : noise_mx V1 = 1%:M.
Proof. by apply/matrixP=> i j; rewrite !mxE !ord1. Qed.
Lemma V1_sym : (noise_mx V1)^T = noise_mx V1. Proof. by rewrite V1_mx trmx1. Qed.
Lemma V1_pd : posdef (noise_mx V1). Proof. by rewrite V1_mx; apply: posdef_scalar; exact: ltr01. Qed.
Definition at1 (_ : 'I_1) : R := 1.
Definition at03 (i : 'I_2) : R := if i == 0 then 0%coqR else 3%coqR.
Lemma lin_inv : invmx (gram lin at1 at1 + noise_mx V1) = (2%:R^-1)%:M.
Proof.
have -> : gram lin at1 at1 + noise_mx V1 = 2%:R%:M.
  by rewrite V1_mx; apply/matrixP=> i j; rewrite !ord1 !mxE !eqxx !mulr1n /lin /at1 Rmult_1_r.
exact: invmx_scalar.
Qed.
Example posterior_ex : posterior_mean lin (fun _ => 0%coqR) at1 (const_mx 2%coqR : 'cV_1) V1 at03 = \col_i at03 i /\
  let r := posterior_covariance lin 1 at1 (fun q _ => NDiag (0 : 'cV_q)) None
    (fun k => k^T *m invmx (gram lin at1 at1 + noise_mx V1) *m k) at03 false false in
  exists S, r.2 = Some S /\ forall i j, S i j = (at03 i * at03 j / 2)%coqR.
Proof.
split.
  have KI : KVinvYp lin (fun _ => 0%coqR) at1 (const_mx 2%coqR : 'cV_1) V1 = 1%:M.
    rewrite /KVinvYp (_ : KVmx _ _ _ = gram lin at1 at1 + noise_mx V1) // lin_inv mul_scalar_mx.
    apply/matrixP=> i j; rewrite !ord1 !mxE mulr1n rinvE ?pnatr_eq0 // r2E.
    have K : (/ 2 * (2 + - 0))%coqR = 1%coqR by field.
    exact: K.
  rewrite /posterior_mean KI mulmx1; apply/matrixP=> i j; rewrite !mxE !ord1 /lin /at1.
  have K (a : R) : (0 + 1 * a)%coqR = a by ring.
  exact: K.
move=> r; rewrite /r (posterior_covariance_exact (V := V1) _ 1 at03 false lin_valid V1_sym V1_pd (or_introl erefl)) //.
eexists; split; first reflexivity.
move=> i j; rewrite lin_inv mul_mx_scalar -scalemxAl !mxE big_ord1 !mxE /lin /at1 rinvE ?pnatr_eq0 // r2E.
have K (a b : R) : (a * b + - (/ 2 * (a * 1 * (1 * b))))%coqR = (a * b / 2)%coqR by field.
exact: K.
Qed.

(** C44 *)
Theorem kl_div_divergence : forall q (mu1 mu2 : 'cV[R]_q) (S1 S2 : 'M[R]_q),
  S1^T = S1 -> posdef S1 -> S2^T = S2 -> posdef S2 ->
  [/\ kl_div mu1 mu2 S1 S2 = (1 / 2%:R * (\tr (invmx S2 *m S1) - q%:R - (ln (\det S1) - ln (\det S2))
        + ((mu2 - mu1)^T *m invmx S2 *m (mu2 - mu1)) 0 0))%R,
      0 <= kl_div mu1 mu2 S1 S2 & kl_div mu1 mu2 S1 S2 = 0 <-> (mu1 = mu2 /\ S1 = S2)].
Proof.
move=> q mu1 mu2 S1 S2 Sy1 P1 Sy2 P2; rewrite kl_divE //.
have [T0 T1] := kl_trace Sy1 P1 Sy2 P2; have [M0 M1] := kl_mean mu1 mu2 Sy2 P2.
have h0 : 0 < 1 / 2%:R :> R by rewrite divr_gt0 ?ltr01 ?ltr0n.
split=> //; first by apply: mulr_ge0; [exact: ltW h0|exact: addr_ge0].
split=> [/eqP|[-> ->]].
  by rewrite mulf_eq0 gt_eqF //= paddr_eq0 // => /andP [/eqP/T1-> /eqP/M1->].
by rewrite tr_self ?posdef_unit // !subrr mulmx0 mxE addr0 mulr0.
Qed.
Print Assumptions kl_div_divergence.

(** the matrices of the mutual information: jittered Gram matrices, the noise of the prediction points on request *)
Definition J X (kern : X -> X -> R) jit n (x_data : 'I_n -> X) q (x_pred : 'I_q -> X) (N : 'M[R]_q) : 'M[R]_(n + q) :=
  block_mx (gram kern x_data x_data + jit%:M) (gram kern x_data x_pred) (gram kern x_pred x_data) (gram kern x_pred x_pred + jit%:M + N).
Section MI.
Variables (X : Type) (kern : X -> X -> R) (jit : R) (n : nat) (x_data : 'I_n -> X) (noise_at : forall q, ('I_q -> X) -> noise q).
Variables (q : nat) (x_pred : 'I_q -> X) (noisy : bool).
Let N : 'M[R]_q := if noisy then noise_mx (noise_at x_pred) else 0.
Hypothesis (Vk : valid_covariance kern) (j0 : 0 < jit) (SN : (noise_mx (noise_at x_pred))^T = noise_mx (noise_at x_pred))
  (PN : psd (noise_mx (noise_at x_pred))).
Lemma pred_covE : pred_cov kern noise_at jit x_pred noisy = gram kern x_pred x_pred + jit%:M + N.
Proof. by rewrite /pred_cov /N; case: noisy; rewrite ?addr0 // /add_noise; case: noise_at. Qed.
Lemma joint_covE : joint_cov kern x_data noise_at jit x_pred noisy = J kern jit x_data x_pred N.
Proof. by rewrite /joint_cov pred_covE /J -(gram_sym x_data x_pred Vk). Qed.
Lemma NS : N^T = N. Proof. by rewrite /N; case: noisy; rewrite ?trmx0. Qed.
Lemma NP : psd N. Proof. by rewrite /N; case: noisy=> //; exact: psd0. Qed.
Lemma J_pd : posdef (J kern jit x_data x_pred N).
Proof.
have -> : J kern jit x_data x_pred N = block_mx (gram kern x_data x_data) (gram kern x_data x_pred) (gram kern x_data x_pred)^T (gram kern x_pred x_pred)
   + (block_mx 0 0 0 N + jit%:M).
  rewrite scalar_mx_block !add_block_mx !addr0 !add0r gram_sym //; congr block_mx.
  by rewrite addrAC addrA.
apply: posdefD; first exact: gram_block.
by apply: posdefD; [apply: psd_blockdiag; [exact: psd0|exact: NP]|exact: posdef_scalar].
Qed.
Let A := gram kern x_data x_data + jit%:M.
Let d := gram kern x_pred x_pred + jit%:M + N.
Lemma A_sym : A^T = A. Proof. by rewrite [LHS]raddfD /= gram_sym // tr_scalar_mx. Qed.
Lemma d_sym : d^T = d. Proof. by rewrite [LHS]raddfD /= [X in X + _]raddfD /= gram_sym // tr_scalar_mx NS. Qed.
Lemma J_pd' : posdef (block_mx A (gram kern x_data x_pred) (gram kern x_data x_pred)^T d).
Proof. by rewrite gram_sym //; exact: J_pd. Qed.
End MI.

Theorem mutual_information_nonneg : forall X (kern : X -> X -> R) (jit : R) n (x_data : 'I_n -> X) (noise_at : forall q, ('I_q -> X) -> noise q)
    q (x_pred : 'I_q -> X) noisy,
  valid_covariance kern -> 0 < jit ->
  (noise_mx (noise_at q x_pred))^T = noise_mx (noise_at q x_pred) -> psd (noise_mx (noise_at q x_pred)) ->
  let N : 'M[R]_q := if noisy then noise_mx (noise_at q x_pred) else 0 in
  let A : 'M[R]_n := gram kern x_data x_data + jit%:M in
  let d : 'M[R]_q := gram kern x_pred x_pred + jit%:M + N in
  let I := gp_mutual_information kern x_data noise_at jit x_pred noisy in
  [/\ I = kl_div 0 0 (J kern jit x_data x_pred N) (block_mx A 0 0 d),
      I = (1 / 2%:R * (ln (\det A) + ln (\det d) - ln (\det (J kern jit x_data x_pred N))))%R,
      0 <= I & I = 0 <-> gram kern x_data x_pred = 0].
Proof.
move=> X kern jit n x_data noise_at q x_pred noisy Vk j0 SN PN N A d I.
have PJ := J_pd' x_data noisy Vk j0 PN; have SA := A_sym jit x_data Vk; have Sd := d_sym jit noisy Vk SN.
have JE : J kern jit x_data x_pred N = block_mx A (gram kern x_data x_pred) (gram kern x_data x_pred)^T d by rewrite gram_sym.
have IE : I = mutual_information (block_mx A (gram kern x_data x_pred) (gram kern x_data x_pred)^T d) d A.
  by rewrite /I /gp_mutual_information joint_covE // JE pred_covE.
have IK : I = kl_div 0 0 (J kern jit x_data x_pred N) (block_mx A 0 0 d) by rewrite IE mi_kl // JE.
have SD : (block_mx A 0 0 d)^T = block_mx A 0 0 d by rewrite tr_block_mx !trmx0 SA Sd.
have PD : posdef (block_mx A 0 0 d) by apply: posdef_blockdiag; [exact: posdef_lead PJ|exact: posdef_tail PJ].
have SJ : (J kern jit x_data x_pred N)^T = J kern jit x_data x_pred N by rewrite JE tr_block_mx trmxK SA Sd.
have PJ' : posdef (J kern jit x_data x_pred N) by rewrite JE.
have [_ K0 K1] := kl_div_divergence 0 0 SJ PJ' SD PD.
split=> //; first by rewrite IE mi_value // JE.
- by rewrite IK.
rewrite IK K1 JE; split=> [[_ /eq_block_mx[_ -> _ _]] //|->].
by rewrite trmx0.
Qed.
Print Assumptions mutual_information_nonneg.

Theorem total_correlation_nonneg : forall X (kern : X -> X -> R) (jit : R) n (x_data : 'I_n -> X) (noise_at : forall q, ('I_q -> X) -> noise q)
    q (x_pred : 'I_q -> X) noisy,
  valid_covariance kern -> 0 < jit ->
  (noise_mx (noise_at q x_pred))^T = noise_mx (noise_at q x_pred) -> psd (noise_mx (noise_at q x_pred)) ->
  let N : 'M[R]_q := if noisy then noise_mx (noise_at q x_pred) else 0 in
  let A : 'M[R]_n := gram kern x_data x_data + jit%:M in
  let d : 'M[R]_q := gram kern x_pred x_pred + jit%:M + N in
  let T := gp_total_correlation kern x_data noise_at jit x_pred noisy in
  [/\ T = (1 / 2%:R * (ln (\det A) + \sum_i ln (d i i) - ln (\det (J kern jit x_data x_pred N))))%R,
      gp_mutual_information kern x_data noise_at jit x_pred noisy <= T &
      T = 0 <-> (gram kern x_data x_pred = 0 /\ forall i j, i != j -> d i j = 0)].
Proof.
move=> X kern jit n x_data noise_at q x_pred noisy Vk j0 SN PN N A d T.
have PJ := J_pd' x_data noisy Vk j0 PN; have SA := A_sym jit x_data Vk; have Sd := d_sym jit noisy Vk SN.
have JE : J kern jit x_data x_pred N = block_mx A (gram kern x_data x_pred) (gram kern x_data x_pred)^T d by rewrite gram_sym.
have TE : T = kl_div 0 0 (J kern jit x_data x_pred N) (block_mx A 0 0 (diag_part d)).
  rewrite /T /gp_total_correlation joint_covE // pred_covE !scale0r; congr (kl_div _ _ _ (block_mx _ _ _ _)).
  by apply/matrixP=> i j; rewrite !mxE; case: (eqVneq i j)=> [->|_]; rewrite ?eqxx ?mulr1n ?mulr1 ?mulr0n ?mulr0.
have IE : gp_mutual_information kern x_data noise_at jit x_pred noisy = mutual_information (block_mx A (gram kern x_data x_pred) (gram kern x_data x_pred)^T d) d A.
  by rewrite /gp_mutual_information joint_covE // JE pred_covE.
split; [by rewrite TE JE tc_value|by rewrite IE TE JE tc_ge_mi|].
have SJ : (J kern jit x_data x_pred N)^T = J kern jit x_data x_pred N by rewrite JE tr_block_mx trmxK SA Sd.
have PJ' : posdef (J kern jit x_data x_pred N) by rewrite JE.
have SD : (block_mx A 0 0 (diag_part d))^T = block_mx A 0 0 (diag_part d) by rewrite tr_block_mx !trmx0 SA tr_diag_mx.
have PD : posdef (block_mx A 0 0 (diag_part d)).
  by apply: posdef_blockdiag; [exact: posdef_lead PJ|exact: Pdiag PJ].
have [_ _ K1] := kl_div_divergence 0 0 SJ PJ' SD PD.
rewrite TE K1 JE; split=> [[_ /eq_block_mx[_ -> _ E]]|[-> E]].
  by split=> // i j ij; rewrite E !mxE (negbTE ij).
split=> //; rewrite trmx0; congr block_mx; apply/matrixP=> i j; rewrite [RHS]mxE /diag_part; case: (eqVneq i j)=> [->|/E->//].
by rewrite mulr1n [RHS]mxE.
Qed.
Print Assumptions total_correlation_nonneg.

Section Given.
Variables (X : Type) (kern : X -> X -> R) (mean : X -> R) (n : nat) (x_data : 'I_n -> X) (V : noise n) (noise_at : forall q, ('I_q -> X) -> noise q).
Hypothesis (Vk : valid_covariance kern) (SV : (noise_mx V)^T = noise_mx V) (PV : posdef (noise_mx V)).
Variables (q : nat) (x_pred : 'I_q -> X).
Lemma add_noise_mx v (S0 : 'M[R]_q) : (add_noise noise_at x_pred v (Some S0)).2 = Some (S0 + noise_mx (noise_at x_pred)).
Proof. by rewrite /add_noise; case: noise_at. Qed.
Lemma post_SE noisy : post_S kern x_data V noise_at x_pred noisy
  = schur kern x_data V x_pred + (if noisy then noise_mx (noise_at x_pred) else 0).
Proof.
have E0 := posterior_covariance_exact noise_at 1 x_pred false Vk SV PV (or_introl erefl) (fun k => erefl).
have SE : gram kern x_pred x_pred - gram kern x_pred x_data *m invmx (gram kern x_data x_data + noise_mx V) *m gram kern x_data x_pred
   = schur kern x_data V x_pred by rewrite /schur -(gram_sym x_data x_pred Vk).
have {}E0 := E0 x_data; cbv zeta in E0; rewrite SE in E0; rewrite /post_S; case: noisy; last by rewrite E0 /= addr0.
move: E0; rewrite /posterior_covariance /=; set v0 := \col_i _; set b := [exists i, _].
case: b=> /(congr1 snd) /= ES; rewrite add_noise_mx /=; last by [].
by have -> := congr1 (fun o => if o is Some S0 then S0 else 0) ES.
Qed.
Lemma post_S_sym noisy : (noise_mx (noise_at x_pred))^T = noise_mx (noise_at x_pred) ->
  (post_S kern x_data V noise_at x_pred noisy)^T = post_S kern x_data V noise_at x_pred noisy.
Proof. by move=> SN; rewrite post_SE [LHS]raddfD /= schur_sym //; case: noisy; rewrite ?SN ?trmx0. Qed.
Lemma post_S_psd noisy : psd (noise_mx (noise_at x_pred)) -> psd (post_S kern x_data V noise_at x_pred noisy).
Proof. by move=> PN; rewrite post_SE; apply: psdD; [exact: schur_ge0|case: noisy=> //; exact: psd0]. Qed.
End Given.

Theorem gp_divergences_nonneg : forall X (kern : X -> X -> R) (mean : X -> R) n (x_data : 'I_n -> X) (y : 'cV[R]_n) (V : noise n)
    (noise_at : forall q, ('I_q -> X) -> noise q) (jit : R) q (x_pred : 'I_q -> X) (comp_mean : 'cV[R]_q) (comp_cov : 'M[R]_q) noisy,
  valid_covariance kern -> (noise_mx V)^T = noise_mx V -> posdef (noise_mx V) -> 0 < jit ->
  (noise_mx (noise_at q x_pred))^T = noise_mx (noise_at q x_pred) -> psd (noise_mx (noise_at q x_pred)) ->
  comp_cov^T = comp_cov -> psd comp_cov ->
  let m := posterior_mean kern mean x_data y V x_pred in
  let A : 'M[R]_n := gram kern x_data x_data + noise_mx V in
  let S : 'M[R]_q := gram kern x_pred x_pred - gram kern x_pred x_data *m invmx A *m gram kern x_data x_pred in
  let N : 'M[R]_q := if noisy then noise_mx (noise_at q x_pred) else 0 in
  let K := gp_kl_div kern mean x_data y V noise_at jit x_pred comp_mean comp_cov in
  let E := gp_relative_information_entropy kern mean x_data y V noise_at jit x_pred noisy in
  [/\ 0 <= K, K = 0 <-> (m = comp_mean /\ S = comp_cov), 0 <= E &
      E = 0 <-> (mean_vec mean x_pred = m /\ gram kern x_pred x_pred = S + N)].
Proof.
move=> X kern mean n x_data y V noise_at jit q x_pred comp_mean comp_cov noisy Vk SV PV j0 SN PN Sc Pc m A S N K E.
have SE : schur kern x_data V x_pred = S by rewrite /S -(gram_sym x_data x_pred Vk).
have SJ (B : 'M[R]_q) : B^T = B -> (jittered jit B)^T = jittered jit B.
  by move=> SB; rewrite /jittered [LHS]raddfD /= SB tr_scalar_mx.
have PJ (B : 'M[R]_q) : psd B -> posdef (jittered jit B).
  by move=> PB; apply: posdefD=> //; exact: posdef_scalar.
have ej (B C : 'M[R]_q) : jittered jit B = jittered jit C <-> B = C.
  by split=> [/addIr|->].
have Sk : (kmat kern x_pred x_pred)^T = kmat kern x_pred x_pred by apply: gram_sym.
have Pk : psd (kmat kern x_pred x_pred) by apply: gram_psd.
have SS b : (post_S kern x_data V noise_at x_pred b)^T = post_S kern x_data V noise_at x_pred b by exact: post_S_sym.
have PS b : psd (post_S kern x_data V noise_at x_pred b) by exact: post_S_psd.
have [_ K0 K1] := kl_div_divergence m comp_mean (SJ _ (SS false)) (PJ _ (PS false)) (SJ _ Sc) (PJ _ Pc).
have [_ E0 E1] := kl_div_divergence (meanv mean x_pred) m (SJ _ Sk) (PJ _ Pk) (SJ _ (SS noisy)) (PJ _ (PS noisy)).
split=> //.
  by rewrite /K /gp_kl_div K1 ej post_SE // addr0 SE.
by rewrite /E /gp_relative_information_entropy E1 ej post_SE // SE.
Qed.
Print Assumptions gp_divergences_nonneg.

Theorem relative_information_set_entries : forall X (kern : X -> X -> R) (mean : X -> R) n (x_data : 'I_n -> X) (y : 'cV[R]_n) (V : noise n)
    (noise_at : forall q, ('I_q -> X) -> noise q) (jit : R) q (x_pred : 'I_q -> X) noisy i,
  gp_relative_information_entropy_set kern mean x_data y V noise_at jit x_pred noisy i 0
  = gp_relative_information_entropy kern mean x_data y V noise_at jit (fun _ : 'I_1 => x_pred i) noisy.
Proof. by move=> *; rewrite mxE. Qed.
Print Assumptions relative_information_set_entries.

(** example: the mutual information of the observation at 1 and the prediction at 1, with "jitter" 1: 1/2 ln (4/3) *)
Example mutual_information_ex : gp_mutual_information lin at1 (fun q _ => NDiag (0 : 'cV_q)) 1 at1 false = (1 / 2 * (ln 2 + ln 2 - ln 3))%coqR.
Proof.
have P0 : psd (noise_mx (NDiag (0 : 'cV[R]_1))).
  by rewrite /= (_ : diag_mx _ = 0); [exact: psd0|apply/matrixP=> i j; rewrite !mxE mul0rn].
have S0 : (noise_mx (NDiag (0 : 'cV[R]_1)))^T = noise_mx (NDiag (0 : 'cV[R]_1)) by exact: tr_diag_mx.
have [_ -> _ _] := @mutual_information_nonneg _ lin 1 1 at1 (fun q _ => NDiag (0 : 'cV_q)) 1 at1 false lin_valid ltr01 S0 P0.
have G : gram lin at1 at1 = 1%:M by apply/matrixP=> i j; rewrite !ord1 !mxE eqxx /lin /at1 Rmult_1_r.
have J3 : J lin 1 at1 at1 (0 : 'M[R]_1) = \matrix_(i, j) (if i == j then 2%:R else 1 : R).
  rewrite /J G addr0; apply/matrixP=> i j; case: (split_ordP i)=> a ->; case: (split_ordP j)=> b ->.
  - by rewrite block_mxEul !mxE !ord1 !eqxx.
  - by rewrite block_mxEur !mxE !ord1.
  - by rewrite block_mxEdl !mxE !ord1.
  - by rewrite block_mxEdr !mxE !ord1 !eqxx.
have D3 : \det (\matrix_(i < 1 + 1, j < 1 + 1) (if i == j then 2%:R else 1 : R)) = 3%:R.
  rewrite (expand_det_row _ 0) !big_ord_recl big_ord0 /cofactor !det_mx11 !mxE /= addr0 expr0 expr1 !mul1r mulN1r.
  by rewrite -natrM -[X in _ - X]/(1%:R) -natrB.
have D2 : \det (1%:M + 1%:M : 'M[R]_1) = 2%:R by rewrite det_mx11 !mxE.
rewrite J3 D3 G addr0 D2.
have -> : 3%:R = 3%coqR :> R by rewrite rnatE /=; lra.
rewrite r2E; have K (a : R) : (1 * / 2 * a)%coqR = (1 / 2 * a)%coqR by [].
have i2 : (IZR 2)^-1 = (/ 2)%coqR by rewrite rinvE // -r2E pnatr_eq0.
by rewrite i2; exact: K.
Qed.

(** C77: for two or more points, mu, covariance and probability are the decomposition of the product of the two Gaussian
    densities: at every f, (posterior density) x (given density) = probability x (density with mu and covariance) *)
Theorem posterior_probability_partial : forall X (kern : X -> X -> R) (mean : X -> R) n (x_data : 'I_n -> X) (y : 'cV[R]_n) (V : noise n)
    (noise_at : forall q, ('I_q -> X) -> noise q) q (x_pred : 'I_q -> X) (comp_mean : 'cV[R]_q) (comp_cov : 'M[R]_q),
  valid_covariance kern -> (noise_mx V)^T = noise_mx V -> posdef (noise_mx V) ->
  (noise_mx (noise_at q x_pred))^T = noise_mx (noise_at q x_pred) -> posdef (noise_mx (noise_at q x_pred)) ->
  comp_cov^T = comp_cov -> posdef comp_cov -> q != 1%N ->
  let m := posterior_mean kern mean x_data y V x_pred in
  let A : 'M[R]_n := gram kern x_data x_data + noise_mx V in
  let S : 'M[R]_q := gram kern x_pred x_pred - gram kern x_pred x_data *m invmx A *m gram kern x_data x_pred + noise_mx (noise_at q x_pred) in
  exists mu cov p, [/\ posterior_probability kern mean x_data y V noise_at x_pred comp_mean comp_cov = Some (mu, cov, p),
    p = exp (log_gauss m comp_mean (S + comp_cov)), cov^T = cov, posdef cov &
    forall f, (exp (log_gauss f m S) * exp (log_gauss f comp_mean comp_cov) = p * exp (log_gauss f mu cov))%R].
Proof.
move=> X kern mean n x_data y V noise_at q x_pred comp_mean comp_cov Vk SV PV SN PN Sc Pc q1 m A S.
have SE : post_S kern x_data V noise_at x_pred true = S.
  by rewrite post_SE // /schur /S -(gram_sym x_data x_pred Vk).
have SS : S^T = S by rewrite -SE; exact: post_S_sym.
have PS : posdef S by rewrite -SE post_SE //; apply: posdefD=> //; exact: schur_ge0.
have PW' := PW SS PS Sc Pc.
have SW : (invmx S + invmx comp_cov)^T = invmx S + invmx comp_cov by rewrite [LHS]raddfD /= !trmx_inv SS Sc.
rewrite /posterior_probability (negbTE q1) SE -/m.
eexists; eexists; eexists; split; first reflexivity.
- by rewrite -(overlap_log m comp_mean SS PS Sc Pc).
- by rewrite trmx_inv SW.
- exact: posdef_inv.
move=> f; have EP (a b : R) : (exp a * exp b = exp (a + b))%R by exact/esym/exp_plus.
rewrite !EP.
have E := overlap_product m comp_mean SS PS Sc Pc f.
rewrite -(overlap_log m comp_mean SS PS Sc Pc) mulmxDr !mulmxA in E.
by apply: (congr1 exp); rewrite [RHS]Rplus_comm; exact: E.
Qed.
Print Assumptions posterior_probability_partial.
(** for one point there is no answer *)
Theorem posterior_probability_refuted : forall X (kern : X -> X -> R) (mean : X -> R) n (x_data : 'I_n -> X) (y : 'cV[R]_n) (V : noise n)
    (noise_at : forall q, ('I_q -> X) -> noise q) (x_pred : 'I_1 -> X) comp_mean comp_cov,
  posterior_probability kern mean x_data y V noise_at x_pred comp_mean comp_cov = None.
Proof. by []. Qed.
Print Assumptions posterior_probability_refuted.

(** C78 *)
Definition moving X (move : R -> X -> X) (kern : X -> X -> R) (mean : X -> R) (dk dkk : X -> X -> R) (dm : X -> R) :=
  [/\ forall x, move 0%coqR x = x,
      forall x x', derivable_pt_lim (fun t => kern (move t x) x') 0 (dk x x'),
      forall x x', derivable_pt_lim (fun t => kern (move t x) (move t x')) 0 (dkk x x') &
      forall x, derivable_pt_lim (fun t => mean (move t x)) 0 (dm x)].

Theorem posterior_mean_gradient : forall X (move : R -> X -> X) (kern : X -> X -> R) (mean : X -> R) dk dkk dm
    n c (x_data : 'I_n -> X) (y : 'M[R]_(n, c)) (V : noise n) q (x_pred : 'I_q -> X) component i,
  moving move kern mean dk dkk dm -> valid_covariance kern ->
  derivable_pt_lim (fun t => posterior_mean kern mean x_data y V (fun i => move t (x_pred i)) i component) 0
    (posterior_mean_grad kern mean x_data y V dk dm x_pred component i 0).
Proof.
move=> X move kern mean dk dkk dm n c x_data y V q x_pred j i [M0 Mk _ Mm] [Ks _].
set w := col j (KVinvYp kern mean x_data y V).
apply: (@dpl_eq (fun t => mean (move t (x_pred i)) + \sum_l kern (move t (x_pred i)) (x_data l) * w l 0) _ _
  (dm (x_pred i) + \sum_l dk (x_pred i) (x_data l) * w l 0)).
- apply: dplD; first exact: Mm.
  apply: dpl_sum=> l _.
  have := dplM (Mk (x_pred i) (x_data l)) (dpl_const (w l 0) 0); rewrite mulr0 addr0; exact.
- move=> t; rewrite [RHS]mxE; congr (_ + _); rewrite [RHS]mxE; apply: eq_bigr=> l _.
  by rewrite !mxE Ks.
- by rewrite [RHS]mxE; congr (_ + _); rewrite [RHS]mxE; apply: eq_bigr=> l _; rewrite [X in _ = X * _]mxE.
Qed.
Print Assumptions posterior_mean_gradient.

Section CovGrad.
Variables (X : Type) (move : R -> X -> X) (kern : X -> X -> R) (mean : X -> R) (dk dkk : X -> X -> R) (dm : X -> R).
Variables (n : nat) (x_data : 'I_n -> X) (V : noise n) (q : nat) (x_pred : 'I_q -> X).
Hypothesis (M : moving move kern mean dk dkk dm) (Vk : valid_covariance kern)
  (SV : (noise_mx V)^T = noise_mx V) (PV : posdef (noise_mx V)).
Let A : 'M[R]_n := gram kern x_data x_data + noise_mx V.
Let k_g : 'M[R]_(n, q) := \matrix_(i, j) dk (x_pred j) (x_data i).
Let kk_g : 'M[R]_q := \matrix_(i, j) dkk (x_pred i) (x_pred j).
Let k := gram kern x_data x_pred.
Lemma k_mxd : mxd (fun t => gram kern x_data (fun i => move t (x_pred i))) 0 k_g.
Proof.
case: M=> _ Mk _ _; case: (Vk)=> Ks _ i j.
by apply: (dpl_eq (Mk (x_pred j) (x_data i))) => [t|]; rewrite mxE // Ks.
Qed.
Lemma kk_mxd : mxd (fun t => gram kern (fun i => move t (x_pred i)) (fun i => move t (x_pred i))) 0 kk_g.
Proof. by case: M=> _ _ Mkk _ i j; apply: (dpl_eq (Mkk (x_pred i) (x_pred j))) => [t|]; rewrite mxE. Qed.
Lemma k_at0 : gram kern x_data (fun i => move 0%coqR (x_pred i)) = k.
Proof. by case: M=> M0 _ _ _; apply/matrixP=> i j; rewrite !mxE M0. Qed.
Lemma schur_mxd : mxd (fun t => schur kern x_data V (fun i => move t (x_pred i))) 0
  (kk_g - (k_g^T *m invmx A *m k + k^T *m invmx A *m k_g)).
Proof.
rewrite -{1 2}k_at0.
apply: (@mxd_eq _ _ (fun t => gram kern (fun i => move t (x_pred i)) (fun i => move t (x_pred i))
   - (gram kern x_data (fun i => move t (x_pred i)))^T *m (invmx A *m gram kern x_data (fun i => move t (x_pred i)))) _ _
  (kk_g - (k_g^T *m (invmx A *m gram kern x_data (fun i => move 0%coqR (x_pred i))) +
     (gram kern x_data (fun i => move 0%coqR (x_pred i)))^T *m (0 *m gram kern x_data (fun i => move 0%coqR (x_pred i)) + invmx A *m k_g)))).
- apply: mxdB; first exact: kk_mxd.
  apply: mxdM; first by apply: mxdT; exact: k_mxd.
  by apply: mxdM; [exact: mxd_const|exact: k_mxd].
- by move=> t; rewrite /schur mulmxA.
- by rewrite mul0mx add0r !mulmxA.
Qed.
Lemma kk_g_sym : kk_g^T = kk_g.
Proof.
apply: (mxd_uniq (x := 0) (A := fun t => gram kern (fun i => move t (x_pred i)) (fun i => move t (x_pred i)))); last exact: kk_mxd.
by apply: (mxd_eq (mxdT kk_mxd)) => // t; exact: gram_sym.
Qed.
Lemma k_swap : (k_g^T *m invmx A *m k)^T = k^T *m invmx A *m k_g.
Proof. by rewrite !trmx_mul trmxK trmx_inv (KV_sym x_data Vk SV) mulmxA. Qed.
Lemma cov_gradE : posterior_covariance_grad kern x_data V dk dkk x_pred
  = (\col_i (kk_g - 2%:R *: (k_g^T *m invmx A *m k)) i i, kk_g - 2%:R *: (k_g^T *m invmx A *m k)).
Proof.
have E : (\matrix_(i, j) dk (x_pred i) (x_data j))^T = k_g by apply/matrixP=> i j; rewrite !mxE.
by rewrite /posterior_covariance_grad E -mulmxA.
Qed.
End CovGrad.

(** the diagonal, and the symmetric part of the matrix *)
Theorem posterior_covariance_gradient_partial : forall X (move : R -> X -> X) (kern : X -> X -> R) (mean : X -> R) dk dkk dm
    n (x_data : 'I_n -> X) (V : noise n) noise_at q (x_pred : 'I_q -> X) (KVinv : option 'M[R]_n) product variance_only,
  moving move kern mean dk dkk dm -> valid_covariance kern -> (noise_mx V)^T = noise_mx V -> posdef (noise_mx V) ->
  let A : 'M[R]_n := gram kern x_data x_data + noise_mx V in
  KVinv = None \/ KVinv = Some (invmx A) -> (forall k, product k = k^T *m invmx A *m k) ->
  let r t := posterior_covariance kern 1 x_data noise_at KVinv product (fun i => move t (x_pred i)) variance_only false in
  let g := posterior_covariance_grad kern x_data V dk dkk x_pred in
  (forall i, derivable_pt_lim (fun t => (r t).1 i 0) 0 (g.1 i 0)) /\
  (variance_only = false -> exists S, (forall t, (r t).2 = Some (S t)) /\
     forall i j, derivable_pt_lim (fun t => S t i j) 0 ((g.2 i j + g.2 j i) / 2%:R)%R).
Proof.
move=> X move kern mean dk dkk dm n x_data V noise_at q x_pred KVinv product variance_only Mv Vk SV PV A HK HP r g.
have rE t := posterior_covariance_exact noise_at 1 (fun i => move t (x_pred i)) variance_only Vk SV PV HK HP.
have SE t : gram kern (fun i => move t (x_pred i)) (fun i => move t (x_pred i)) - gram kern (fun i => move t (x_pred i)) x_data *m invmx A *m gram kern x_data (fun i => move t (x_pred i))
  = schur kern x_data V (fun i => move t (x_pred i)) by rewrite /schur -(gram_sym x_data _ Vk).
set k_g : 'M[R]_(n, q) := \matrix_(i, j) dk (x_pred j) (x_data i).
set kk_g : 'M[R]_q := \matrix_(i, j) dkk (x_pred i) (x_pred j).
set B := k_g^T *m invmx A *m gram kern x_data x_pred.
have D : mxd (fun t => schur kern x_data V (fun i => move t (x_pred i))) 0 (kk_g - (B + B^T)).
  by rewrite /B (k_swap dk x_data x_pred Vk SV); exact: schur_mxd Mv Vk.
have Ks : kk_g^T = kk_g by exact: kk_g_sym Mv Vk.
have gE : g = (\col_i (kk_g - 2%:R *: B) i i, kk_g - 2%:R *: B) by rewrite /g cov_gradE.
split=> [i|vo].
  apply: (dpl_eq (D i i)) => [t|]; first by rewrite /r rE SE /= mxE.
  by rewrite gE /= mxE !mxE mulr_natl mulr2n.
exists (fun t => schur kern x_data V (fun i => move t (x_pred i))); split=> [t|i j].
  by rewrite /r rE SE vo andbF.
apply: (dpl_eq (D i j))=> //.
have -> : g.2 i j + g.2 j i = (kk_g i j - (B i j + B j i)) * 2%:R.
  rewrite gE /= !mxE -[dkk (x_pred j) _](_ : kk_g j i = _); last by rewrite mxE.
  have -> : kk_g j i = kk_g i j by rewrite -[in LHS]Ks mxE.
  by rewrite [kk_g i j]mxE; move: (dkk _ _) (B i j) (B j i)=> a b d; rewrite mulr_natr mulrnBl -addrACA -opprD -mulrDr mulr_natl mulr2n.
by rewrite mulfK ?pnatr_eq0 // !mxE.
Qed.
Print Assumptions posterior_covariance_gradient_partial.

(** the matrix itself is not the derivative: the entry for the points 0 and 3 of the example above *)
Definition shift (t x : R) : R := Rplus x t.
Lemma lin_moving : moving shift lin (fun _ => 0%coqR) (fun _ x' => x') (fun x x' => Rplus x x') (fun _ => 0%coqR).
Proof.
split=> [x|x x'|x x'|x]; rewrite /shift /lin.
- exact: Rplus_0_r.
- apply: (@dpl_eq (fun t => x * x' + t * x') _ _ (0 + (1 * x' + 0 * 0))).
  + apply: dplD; first exact: dpl_const.
    exact: (dplM (dpl_id 0) (dpl_const x' 0)).
  + by move=> t; have K (a b c : R) : (a * b + c * b = (a + c) * b)%coqR by ring; exact: K.
  + have K (a : R) : (0 + (1 * a + 0 * 0))%coqR = a by ring.
    exact: K.
- apply: (@dpl_eq (fun t => (x + t) * (x' + t)) _ _ ((0 + 1) * (x' + 0) + (x + 0) * (0 + 1))).
  + by apply: (@dplM (fun t => x + t) (fun t => x' + t)); apply: dplD; [exact: dpl_const|exact: dpl_id|exact: dpl_const|exact: dpl_id].
  + by [].
  + have K (a b : R) : ((0 + 1) * (b + 0) + (a + 0) * (0 + 1))%coqR = (a + b)%coqR by ring.
    exact: K.
- exact: dpl_const.
Qed.
Theorem posterior_covariance_gradient_refuted : exists (move : R -> R -> R) (kern : R -> R -> R) (mean : R -> R) dk dkk dm
    (x_data : 'I_1 -> R) (V : noise 1) (x_pred : 'I_2 -> R) S l,
  [/\ moving move kern mean dk dkk dm, valid_covariance kern, posdef (noise_mx V),
    forall t, (posterior_covariance kern 1 x_data (fun q _ => NDiag (0 : 'cV_q)) None
      (fun k => k^T *m invmx (gram kern x_data x_data + noise_mx V) *m k) (fun i => move t (x_pred i)) false false).2 = Some (S t) &
    derivable_pt_lim (fun t => S t 0 1) 0 l /\ (posterior_covariance_grad kern x_data V dk dkk x_pred).2 0 1 <> l].
Proof.
exists shift, lin, (fun _ => 0%coqR), (fun _ x' => x'), (fun x x' => Rplus x x'), (fun _ => 0%coqR), at1, V1, at03.
have [_ /(_ erefl) [S [ES DS]]] := posterior_covariance_gradient_partial (V := V1) (x_data := at1) (fun q _ => NDiag (0 : 'cV_q)) at03
   (KVinv := None) (product := fun k => k^T *m invmx (gram lin at1 at1 + noise_mx V1) *m k) false lin_moving lin_valid V1_sym V1_pd (or_introl erefl) (fun k => erefl).
exists S, (3 / 2)%coqR; split=> //; [exact: lin_moving|exact: lin_valid|exact: V1_pd|].
have G i j : (posterior_covariance_grad lin at1 V1 (fun _ x' => x') (fun x x' => Rplus x x') at03).2 i j = at03 i.
  rewrite cov_gradE /= lin_inv mul_mx_scalar -scalemxAl scalerA mulfV ?pnatr_eq0 // scale1r !mxE big_ord1 !mxE /lin /at1.
  have K (a b : R) : (a + b + - (1 * (1 * b)))%coqR = a by ring.
  exact: K.
have two : 2%:R^-1 = (/ 2)%coqR by rewrite rinvE ?pnatr_eq0 // r2E.
split.
  apply: (dpl_eq (DS 0 1))=> //; rewrite !G two /at03 /=.
  have K : ((0 + 3) * / 2)%coqR = (3 / 2)%coqR by field.
  exact: K.
rewrite G /at03 /=; lra.
Qed.
Print Assumptions posterior_covariance_gradient_refuted.

(** C79 *)
Theorem entropy_gradient : forall X (move : R -> X -> X) (kern : X -> X -> R) (mean : X -> R) dk dkk dm
    n (x_data : 'I_n -> X) q (x_pred : 'I_q -> X) (jit : R),
  moving move kern mean dk dkk dm -> valid_covariance kern -> 0 < jit ->
  derivable_pt_lim (fun t => gp_entropy kern mean x_data jit (fun i => move t (x_pred i))) 0
    (gp_entropy_grad kern mean x_data dk dkk jit x_pred).
Proof.
move=> X move kern mean dk dkk dm n x_data q x_pred jit Mv Vk j0.
pose Sg t := (joint_gp_prior kern mean x_data jit (fun i => move t (x_pred i))).2.
have [M0 _ _ _] := Mv.
have SgE t : Sg t = block_mx (gram kern x_data x_data) (gram kern x_data (fun i => move t (x_pred i)))
     (gram kern x_data (fun i => move t (x_pred i)))^T (gram kern (fun i => move t (x_pred i)) (fun i => move t (x_pred i)))
     + (block_mx jit%:M 0 0 0 + jit%:M).
  by rewrite /Sg /joint_gp_prior /= /jittered addrA add_block_mx !addr0.
have S0 t : (Sg t)^T = Sg t.
  rewrite SgE [LHS]raddfD /= [X in _ + X = _]raddfD /= tr_scalar_mx !tr_block_mx trmxK !trmx0 tr_scalar_mx.
  by rewrite !gram_sym.
have P t : posdef (Sg t).
  rewrite SgE; apply: posdefD; first exact: gram_block.
  apply: posdefD; last exact: posdef_scalar.
  by apply: psd_blockdiag; [apply: posdef_psd; exact: posdef_scalar|exact: psd0].
have d t := posdef_det (S0 t) (P t).
have D : mxd Sg 0 (joint_gp_prior_grad x_data dk dkk x_pred).
  have kd := k_mxd x_data x_pred Mv Vk; have kkd := kk_mxd x_pred Mv.
  have kdT := mxdT kd.
  have E : (\matrix_(i, j) dk (x_pred i) (x_data j))^T = \matrix_(i < n, j < q) dk (x_pred j) (x_data i) by apply/matrixP=> i j; rewrite !mxE.
  apply: (@mxd_eq _ _ (fun t => block_mx (gram kern x_data x_data) (gram kern x_data (fun i => move t (x_pred i)))
     (gram kern x_data (fun i => move t (x_pred i)))^T (gram kern (fun i => move t (x_pred i)) (fun i => move t (x_pred i)))
     + (block_mx jit%:M 0 0 0 + jit%:M)) _ _ (joint_gp_prior_grad x_data dk dkk x_pred + 0)).
  - apply: mxdD; last exact: mxd_const.
    rewrite /joint_gp_prior_grad E => i j; case: (split_ordP i)=> a ->; case: (split_ordP j)=> b ->.
    + apply: (dpl_eq (dpl_const (gram kern x_data x_data a b) 0))=> [t|]; first by rewrite block_mxEul.
      by rewrite block_mxEul [RHS]mxE.
    + by apply: (dpl_eq (kd a b))=> [t|]; rewrite block_mxEur.
    + by apply: (dpl_eq (kdT a b))=> [t|]; rewrite block_mxEdl.
    + by apply: (dpl_eq (kkd a b))=> [t|]; rewrite block_mxEdr.
  - by move=> t; rewrite SgE.
  - by rewrite addr0.
have L := dpl_lndet D (d 0).
have Sg0 : Sg 0 = (joint_gp_prior kern mean x_data jit x_pred).2.
  rewrite SgE; rewrite /joint_gp_prior /= /jittered -[X in _ = X]/(_ + _).
  have E1 : gram kern x_data (fun i => move 0%coqR (x_pred i)) = kmat kern x_data x_pred by apply/matrixP=> i j; rewrite !mxE M0.
  have E2 : gram kern (fun i => move 0%coqR (x_pred i)) (fun i => move 0%coqR (x_pred i)) = kmat kern x_pred x_pred by apply/matrixP=> i j; rewrite !mxE !M0.
  by rewrite E1 E2 addrA add_block_mx !addr0.
apply: (@dpl_eq (fun t => ((n + q)%:R * (1 / 2%:R + 1 / 2%:R * ln (2%:R * PI)%R) + 1 / 2%:R * ln (\det (Sg t)))%R) _ _
   (0 + 1 / 2%:R * \tr (invmx (Sg 0) *m joint_gp_prior_grad x_data dk dkk x_pred))%R).
- by apply: dplD; [exact: dpl_const|apply: (dplZ (1 / 2%:R)%R); exact: L].
- by move=> t; rewrite /gp_entropy -/(Sg t) entropyE.
- by rewrite add0r Sg0.
Qed.
Print Assumptions entropy_gradient.

(** C80 *)
Theorem prediction_chunks : forall n q (solve : forall m, 'M[R]_(n, m) -> 'M[R]_(n, m)) (B : 'M[R]_n) chunk gp2Scale batch garbage (k : 'M[R]_(n, q)),
  (forall m (M : 'M[R]_(n, m)), solve m M = B *m M) ->
  cross_solve_product solve chunk gp2Scale batch garbage k = k^T *m B *m k.
Proof. by move=> *; apply: cross_solve_l. Qed.
Print Assumptions prediction_chunks.

(** C81: variances with stored measurement noise added *)
Definition noisy_variance X (kern : X -> X -> R) n (x_data : 'I_n -> X) (nv : 'cV[R]_n) q (x : 'I_q -> X) : 'cV[R]_q :=
  (posterior_covariance kern 1 x_data (measured_noise_function nv (X := X)) None
     (fun k => k^T *m invmx (gram kern x_data x_data + diag_mx nv^T) *m k) x true true).1.
Section Noisy.
Variables (X : Type) (kern : X -> X -> R) (n : nat) (x_data : 'I_n -> X) (nv : 'cV[R]_n).
Hypothesis (Vk : valid_covariance kern) (nv0 : forall i, 0 < nv i 0).
Lemma nv_pd : posdef (noise_mx (NDiag nv)). Proof. by apply: posdef_diagmx=> i; rewrite mxE. Qed.
Lemma noisy_varianceE q (x : 'I_q -> X) i : noisy_variance kern x_data nv x i 0
  = schur kern x_data (NDiag nv) x i i + noise_mx (measured_noise_function nv x) i i.
Proof.
have E0 := posterior_covariance_exact (V := NDiag nv) (measured_noise_function nv (X := X)) 1 x true Vk (tr_diag_mx _) nv_pd (or_introl erefl) (fun k => erefl).
have {}E0 := congr1 fst (E0 x_data); cbv zeta in E0; move: E0.
have -> : gram kern x x - gram kern x x_data *m invmx (gram kern x_data x_data + noise_mx (NDiag nv)) *m gram kern x_data x
   = schur kern x_data (NDiag nv) x by rewrite /schur -(gram_sym x_data x Vk).
rewrite /noisy_variance /posterior_covariance /=; set v0 := \col_i _; set b := [exists i, _].
rewrite /add_noise /measured_noise_function; case: b=> /= E0; rewrite [LHS]mxE; congr (_ + _).
- by have := congr1 (fun M : 'cV[R]_q => M i 0) E0; rewrite [RHS]mxE.
- by rewrite !mxE eqxx mulr1n.
- by have := congr1 (fun M : 'cV[R]_q => M i 0) E0; rewrite [RHS]mxE.
- by rewrite !mxE eqxx mulr1n.
Qed.
End Noisy.
Theorem noisy_prediction_partial : forall X (kern : X -> X -> R) n (x_data : 'I_n -> X) (nv : 'cV[R]_n),
  valid_covariance kern -> (forall i, 0 < nv i 0) ->
  (forall q (x : 'I_q -> X) r (x' : 'I_r -> X) i j, x i = x' j -> q <> n -> r <> n ->
    noisy_variance kern x_data nv x i 0 = noisy_variance kern x_data nv x' j 0) /\
  (forall (x : 'I_n -> X) q (x' : 'I_q -> X) i j, x i = x' j -> q <> n ->
    noisy_variance kern x_data nv x i 0 - nv i 0 = noisy_variance kern x_data nv x' j 0 - (\sum_j nv j 0) / n%:R).
Proof.
move=> X kern n x_data nv Vk nv0.
have sE q (x : 'I_q -> X) r (x' : 'I_r -> X) i j : x i = x' j -> schur kern x_data (NDiag nv) x i i = schur kern x_data (NDiag nv) x' j j.
  move=> E; rewrite !schur_ii !mxE E; congr (_ - _); apply: eq_bigr=> a _; apply: eq_bigr=> b _.
  by rewrite !mxE E.
split=> [q x r x' i j E /eqP/negbTE qn /eqP/negbTE rn|x q x' i j E /eqP/negbTE qn]; rewrite !noisy_varianceE // (sE _ x _ x' _ _ E).
  by congr (_ + _); rewrite /= !mxE !eqxx !mulr1n qn rn.
rewrite /= !mxE !eqxx !mulr1n qn valK -!addrA; congr (_ + _).
by rewrite !subrr.
Qed.
Print Assumptions noisy_prediction_partial.
(** two data points with noise variances 1 and 3, asked for two points or for one of them *)
Theorem noisy_prediction_refuted : exists X (kern : X -> X -> R) n (x_data : 'I_n -> X) (nv : 'cV[R]_n) q (x : 'I_q -> X) i,
  [/\ valid_covariance kern, (forall i, 0 < nv i 0) &
      noisy_variance kern x_data nv x i 0 <> noisy_variance kern x_data nv (fun _ : 'I_1 => x i) 0 0].
Proof.
pose nv : 'cV[R]_2 := \col_i (if i == 0 then 1 else 3%:R).
have nv0 i : 0 < nv i 0 by rewrite mxE; case: ifP=> _; rewrite ?ltr01 ?ltr0n.
exists R, lin, 2%N, at03, nv, 2%N, at03, 0; split=> //; first exact: lin_valid.
have [_ P] := noisy_prediction_partial at03 lin_valid nv0.
have := P at03 1%N (fun _ => at03 0) 0 0 erefl (fun e => ltac:(discriminate e)).
rewrite !big_ord_recl big_ord0 !mxE /= addr0.
have -> : (1 + 3%:R) / 2%:R = 2%:R :> R by rewrite -(natrD _ 1 3) (natrM _ 2 2) mulfK ?pnatr_eq0.
move=> E0 E; move: E0; rewrite E => /addrI/eqP; rewrite eqr_opp -[1]/(1%:R) eqr_nat.
by [].
Qed.
Print Assumptions noisy_prediction_refuted.

(** examples *)
Example kl_div_ex : kl_div (0 : 'cV[R]_1) (const_mx 1) 1%:M 1%:M = (1 / 2)%coqR.
Proof.
have P : posdef (1%:M : 'M[R]_1) by apply: posdef_scalar; exact: ltr01.
have [-> _ _] := kl_div_divergence 0 (const_mx 1) (trmx1 _ _) P (trmx1 _ _) P.
rewrite invmx1 mul1mx mxtrace1 !subrr subr0 mulmx1 add0r !mxE big_ord1 !mxE mulr1 rinvE ?pnatr_eq0 // r2E.
have K : (1 * / 2 * 1)%coqR = (1 / 2)%coqR by field.
exact: K.
Qed.
Example posterior_probability_ex : exists mu cov p, (0 < p)%coqR /\
  posterior_probability lin (fun _ => 0%coqR) at1 (const_mx 2%coqR) V1 (fun q _ => NDiag (const_mx 1 : 'cV_q)) at03 0 1%:M = Some (mu, cov, p).
Proof.
have N1 : noise_mx (NDiag (const_mx 1 : 'cV[R]_2)) = 1%:M by apply/matrixP=> i j; rewrite !mxE.
have P : posdef (1%:M : 'M[R]_2) by apply: posdef_scalar; exact: ltr01.
have [||mu [cov [p [E Ep _ _ _]]]] := @posterior_probability_partial _ lin (fun _ => 0%coqR) 1 at1 (const_mx 2%coqR) V1
  (fun q _ => NDiag (const_mx 1 : 'cV_q)) 2 at03 0 1%:M lin_valid V1_sym V1_pd _ _ (trmx1 _ _) P isT.
- by rewrite N1 trmx1.
- by rewrite N1.
by exists mu, cov, p; split=> //; rewrite Ep; exact: exp_pos.
Qed.
Example prediction_chunks_ex : let k : 'M[R]_(1, 2) := \row_j (j.+1)%:R in
  cross_solve_product (fun _ M => M) (Some (Zpos xH)) false Z0 (const_mx 7%:R) k = cross_solve_product (fun _ M => M) None false Z0 0 k /\
  cross_solve_product (fun _ M => M) (Some (Zpos xH)) false Z0 (const_mx 7%:R) k 1 0 = 2%:R.
Proof.
move=> k; rewrite !(@prediction_chunks _ _ _ 1%:M) => [|m M|m M]; rewrite ?mul1mx //; split=> //.
by rewrite mulmx1 mxE big_ord1 !mxE mulr1.
Qed.
Example entropy_gradient_ex : exists l, derivable_pt_lim (fun t => gp_entropy lin (fun _ => 0%coqR) at1 1 (fun i => shift t (at03 i))) 0 l.
Proof. eexists; exact: entropy_gradient lin_moving lin_valid ltr01. Qed.
