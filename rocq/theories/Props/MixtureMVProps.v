(** Property C157: the log likelihood of a multivariate mixture is that of what its sampler draws. *)
From Coq Require Import Reals Lra.
From Verif Require Import Model.Prelude Model.MixtureMV Spec.MixtureMVSpec Proofs.MixtureMVP.
Local Open Scope R_scope.

(** a library: the Gaussian density in one dimension; the first component for every sample; zeros for normal numbers *)
Definition g_logpdf (m : vec) (A : mat) (y : vec) : option R :=
  if Rlt_dec 0 (A 0%nat 0%nat) then Some (- (1 / 2) * (y 0%nat - m 0%nat) ^ 2 / A 0%nat 0%nat - 1 / 2 * ln (2 * PI * A 0%nat 0%nat)) else None.

(** density of component k at y, as the likelihood evaluates it *)
Definition density_at (logpdf : vec -> mat -> vec -> option R) (reg : R) (parts : list part) (y : vec) (k : nat) : R :=
  let p := nth k parts (0, (fun _ => 0, fun _ _ => 0)) in
  match logpdf (fst (snd p)) (prepare reg (snd (snd p))) y with Some v => exp v | None => 0 end.

(** C157, what is true: exp of the reported value is the density of the two-stage draw of the sampler times the sum of
    the weights, if no weight is below 1e-300; so it is the density if the weights sum to one. *)
Theorem mixture_likelihood_partial :
  (forall logpdf reg parts ys vals, loglik logpdf reg parts ys = Ok vals ->
    (forall p, In p parts -> / 10 ^ 300 <= fst p) ->
    length vals = length ys /\ 0 < total (map fst parts) /\
    forall i d, (i < length ys)%nat ->
      let dens := two_stage_density (length parts) (fun k => nth k (probabilities parts) 0) (density_at logpdf reg parts (nth i ys d)) in
      0 < dens /\ nth i vals 0 = ln dens + ln (total (map fst parts)) /\ (total (map fst parts) = 1 -> nth i vals 0 = ln dens)) /\
  (forall choose normals reg parts n out, choice_contract choose -> normals_contract normals -> sample_gmm choose normals reg parts n = Ok out ->
    length out = n /\ total (probabilities parts) = 1 /\ (forall p, In p (probabilities parts) -> 0 <= p) /\
    let comp := choose (probabilities parts) n in
    let c i := nth i comp O in
    forall i d, (i < n)%nat -> exists p, nth_error parts (c i) = Some p /\
      (occurrences (c i) i c < occurrences (c i) n c)%nat /\
      nth i out d = nth (occurrences (c i) i c) (normals (c i) (fst (snd p)) (prepare reg (snd (snd p))) (occurrences (c i) n c)) d).
Proof.
  split.
  - intros logpdf reg parts ys vals H Hw. apply loglik_value in H as (Hy & Hp & L & H). split; [exact L|].
    assert (T : 0 < total (map fst parts)).
    { apply total_pos; [|now destruct parts]. intros a Ha. apply in_map_iff in Ha as (p & <- & Hin). specialize (Hw p Hin). eapply Rlt_le_trans; [|exact Hw]. exact weight_floor_pos. }
    split; [exact T|]. intros i d Hi dens. destruct (H i d Hi) as (f & Hf & V).
    assert (Ef : forall k, (k < length parts)%nat -> density_at logpdf reg parts (nth i ys d) k = f k).
    { intros k Hk. destruct (Hf k Hk) as (v & E1 & E2). unfold density_at. cbv zeta. change (0, (fun _ => 0, fun _ _ => 0)) with dpart. now rewrite E1. }
    assert (Ew : forall k, (k < length parts)%nat -> nth k (probabilities parts) 0 * total (map fst parts) = Rmax (fst (nth k parts dpart)) weight_floor).
    { intros k Hk. unfold probabilities. set (g := fun p : part => fst p / total (map fst parts)).
      rewrite (nth_indep _ 0 (g dpart)) by now rewrite map_length. rewrite map_nth. unfold g.
      rewrite Rmax_left by (apply Hw; now apply nth_In). field. lra. }
    assert (D : total (map fst parts) * dens = sum_to (length parts) (fun k => Rmax (fst (nth k parts dpart)) weight_floor * f k)).
    { unfold dens, two_stage_density. rewrite <- sum_to_scal. apply sum_to_ext. intros k Hk. rewrite Ef, <- Ew by exact Hk. ring. }
    assert (P : 0 < total (map fst parts) * dens).
    { rewrite D. apply sum_to_pos; [destruct parts; [congruence|cbn; lia]|]. intros k Hk. apply Rmult_lt_0_compat.
      - apply Rlt_le_trans with weight_floor; [apply weight_floor_pos|apply Rmax_r].
      - destruct (Hf k Hk) as (v & _ & ->). apply exp_pos. }
    assert (Pd : 0 < dens). { apply Rmult_lt_reg_l with (total (map fst parts)); [exact T|]. lra. }
    split; [exact Pd|]. rewrite V, <- D. rewrite ln_mult by assumption. split; [lra|]. intros ->. rewrite ln_1. lra.
  - intros choose normals reg parts n out Cc Cn H. unfold sample_gmm in H. destruct parts as [|p0 parts]; [discriminate|]. set (P := p0 :: parts) in *.
    destruct (Req_EM_T _ 0) as [|N]; [discriminate|]. destruct (existsb _ _) eqn:X; [discriminate|].
    assert (Eo : fill normals 0 reg P (choose (probabilities P) n) (repeat (fun _ => 0) n) = out) by congruence. clear H. subst out.
    assert (Lp : length (probabilities P) = length P) by (unfold probabilities; now rewrite map_length).
    destruct (Cc (probabilities P) n) as [L B]; [unfold P, probabilities; discriminate|].
    split; [now rewrite fill_length, repeat_length|]. split; [|split].
    + unfold probabilities. rewrite (total_map_ext _ (fun p => / total (map fst P) * fst p)) by (intros; unfold Rdiv; ring).
      rewrite total_map_scal. field. exact N.
    + intros p Hp. destruct (Rlt_dec p 0) as [Hn|Hn]; [|lra]. exfalso. rewrite <- not_true_iff_false in X. apply X. apply existsb_exists.
      exists p. split; [exact Hp|]. now destruct (Rlt_dec p 0).
    + intros comp c i d Hi. assert (Hc : (c i < length P)%nat) by (rewrite <- Lp; apply B, nth_In; unfold comp; lia).
      exists (nth (c i) P dpart). split; [now apply nth_error_nth'|]. split; [now apply (occ_lt (c i) n i c)|].
      rewrite (fill_spec normals reg (choose (probabilities P) n) d P Cn 0 (repeat (fun _ => 0) n)) by (rewrite ?repeat_length, ?L; lia).
      fold comp. fold (c i). rewrite (proj2 (Nat.ltb_lt (c i) (0 + length P))) by exact Hc. cbn [Nat.leb andb]. rewrite Nat.sub_0_r.
      unfold comp. rewrite L. reflexivity.
Qed.
Print Assumptions mixture_likelihood_partial.

(** C157 is false for weights that do not sum to one: the sampler normalises them, the likelihood does not *)
Theorem mixture_likelihood_refuted : ~ (forall logpdf reg parts ys vals i d, loglik logpdf reg parts ys = Ok vals ->
  (forall p, In p parts -> 0 < fst p) -> (i < length ys)%nat ->
  exp (nth i vals 0) = two_stage_density (length parts) (fun k => nth k (probabilities parts) 0) (density_at logpdf reg parts (nth i ys d))).
Proof.
  intros H. set (logpdf := fun (_ : vec) (_ : mat) (_ : vec) => Some 0).
  specialize (H logpdf 0 [(2, (fun _ => 0, fun _ _ => 1))] [fun _ => 0] [ln 2] O (fun _ => 0)).
  assert (E : loglik logpdf 0 [(2, (fun _ => 0, fun _ _ => 1))] [fun _ => 0] = Ok [ln 2]).
  { unfold loglik, logpdf, logsumexp. cbn. do 2 f_equal. rewrite Rmax_left.
    - replace (0 + ln 2 - (0 + ln 2)) with 0 by ring. rewrite exp_0. replace (1 + 0) with 1 by ring. rewrite ln_1. ring.
    - unfold weight_floor. rewrite <- (Rinv_inv 2) at 1. apply Rinv_le_contravar; [lra|].
      apply Rle_trans with (10 ^ 0); [lra|]. apply Rle_pow; [lra|lia]. }
  specialize (H E). cbn in H. rewrite exp_ln in H by lra.
  assert (F : 2 = two_stage_density 1 (fun k => nth k (probabilities [(2, (fun _ => 0, fun _ _ => 1))]) 0) (density_at logpdf 0 [(2, (fun _ => 0, fun _ _ => 1))] (fun _ => 0))).
  { apply H; [intros p [<-|[]]; cbn; lra|lia]. }
  cbn in F. unfold density_at, logpdf in F. rewrite exp_0 in F. cbn in F. lra.
Qed.
Print Assumptions mixture_likelihood_refuted.

(** two components 1/4 N(0, 1) + 3/4 N(1, 4) at the point 0, and three samples from components 1, 0, 1 *)
Definition ex_parts : list part := [(1 / 4, (fun _ => 0, fun _ _ => 1)); (3 / 4, (fun _ => 1, fun _ _ => 4))].
Example mixture_likelihood_ex : exists vals, loglik g_logpdf 0 ex_parts [fun _ => 0] = Ok vals /\
  (forall p, In p ex_parts -> / 10 ^ 300 <= fst p) /\ total (map fst ex_parts) = 1 /\
  exp (nth 0 vals 0) = 1 / 4 * exp (- (1 / 2) * 0 ^ 2 / 1 - 1 / 2 * ln (2 * PI * 1)) + 3 / 4 * exp (- (1 / 2) * (0 - 1) ^ 2 / 4 - 1 / 2 * ln (2 * PI * 4)).
Proof.
  assert (W : forall p, In p ex_parts -> weight_floor <= fst p).
  { assert (weight_floor <= / 10 ^ 1). { unfold weight_floor. apply Rinv_le_contravar; [lra|]. apply Rle_pow; [lra|lia]. }
    intros p [<-|[<-|[]]]; cbn [fst]; lra. }
  assert (T : total (map fst ex_parts) = 1) by (cbn; lra).
  assert (G : forall m v, 0 < v -> g_logpdf (fun _ => m) (prepare 0 (fun _ _ => v)) (fun _ => 0) = Some (- (1 / 2) * (0 - m) ^ 2 / v - 1 / 2 * ln (2 * PI * v))).
  { intros m v Hv. unfold g_logpdf, prepare. cbn [Nat.eqb]. replace (1 / 2 * (v + v) + 0 * 1) with v by lra. destruct (Rlt_dec 0 v); [reflexivity|lra]. }
  assert (E : exists vals, loglik g_logpdf 0 ex_parts [fun _ => 0] = Ok vals).
  { unfold loglik, ex_parts. cbn [rows row]. rewrite !G by lra. eauto. }
  destruct E as [vals E]. exists vals. split; [exact E|]. split; [exact W|]. split; [exact T|].
  destruct (proj1 mixture_likelihood_partial _ _ _ _ _ E W) as (_ & _ & H). destruct (H O (fun _ => 0) ltac:(cbn; lia)) as (P & _ & V).
  rewrite (V T), exp_ln by exact P. unfold two_stage_density, density_at, ex_parts. cbn [length sum_to nth fst snd]. rewrite !G by lra.
  unfold probabilities. cbn [map nth fst]. unfold ex_parts in T. cbn [map fst] in T. rewrite T. replace (0 - 0) with 0 by ring. field.
Qed.
Example mixture_sample_ex : exists out,
  sample_gmm (fun p n => match p with [] => repeat O n | _ => firstn n ([1; 0; 1]%nat ++ repeat O n) end)
    (fun k m A n => map (fun j _ => INR (10 * k + j)) (seq 0 n)) 0 ex_parts 3 = Ok out /\ map (fun v => v 0%nat) out = [INR 10; INR 0; INR 11].
Proof.
  unfold sample_gmm, ex_parts. destruct (Req_EM_T _ 0) as [Z|Z]; [cbn in Z; lra|]. unfold probabilities. cbn [map fst].
  replace (total [1 / 4; 3 / 4]) with 1 by (cbn; lra).
  cbn [existsb]. destruct (Rlt_dec (1 / 4 / 1) 0); [lra|]. destruct (Rlt_dec (3 / 4 / 1) 0); [lra|]. cbn [orb].
  eexists. split; [reflexivity|]. reflexivity.
Qed.
