(** Properties C158-C160: the trace files of MCMC training. *)
From Coq Require Import String Lra.
From Verif Require Import Model.Prelude Model.Ext Model.MCMC Model.TraceFiles Proofs.TraceFilesP Props.MCMCProps.
Local Open Scope string_scope.

(** gp.mcmc_info of a run, without the summary statistics *)
Definition info_of_run (f : info) : minfo (list ext) ext unit := MInfo (i_x f) (i_f f) tt.

(** C158, what is true: row j of x is the sample number j * thin of the run; entry j of f is the log likelihood of the sample
    AFTER it, number j * thin + 1; nothing is left out. *)
Theorem trace_file_pairs_partial : forall P Omega lik prior propose adapt x0 n rnd brk os t f k thin tag d,
  run_mcmc P Omega lik prior propose adapt x0 n rnd brk os = Ok (t, Some f) ->
  exists p, fst (save_info Written k thin tag (Some (info_of_run f)) d) (path k tag) = Some (Complete p) /\
    pl_k p = k /\ pl_tag p = tag /\ (1 <= pl_thin p)%Z /\ ((1 <= thin)%Z -> pl_thin p = thin) /\
    let m := Z.to_nat (pl_thin p) in
    (forall j x, nth_error (pl_x p) j = Some x -> nth_error (t_x t) (j * m) = Some x) /\
    (forall j, (j * m < length (t_x t) - 1)%nat -> nth_error (pl_x p) j <> None /\ nth_error (pl_f p) j <> None) /\
    (forall j v, nth_error (pl_f p) j = Some v -> exists x, nth_error (t_x t) (j * m + 1) = Some x /\ v = lik x).
Proof.
  intros P Omega lik prior propose adapt x0 n rnd brk os t f k thin tag d H.
  destruct (mcmc_trace _ _ _ _ _ _ _ _ _ _ _ _ _ H) as (_ & Lx & _ & _ & V & _).
  destruct (mcmc_info_complete_partial _ _ _ _ _ _ _ _ _ _ _ _ _ H) as (_ & C). destruct (C f eq_refl) as (Ef & C1 & C2 & _). clear C.
  assert (Pre : exists r, t_x t = (i_x f ++ r)%list /\ (length r <= 1)%nat).
  { destruct (brk t) eqn:B; [destruct (C2 eq_refl) as [x E]; exists [x]; cbn; auto|exists []; rewrite app_nil_r, C1; auto]. }
  destruct Pre as (r & Er & Lr). unfold save_info. cbv zeta.
  set (m := Z.to_nat (Z.max 1 thin)). assert (Hm : (0 < m)%nat) by (unfold m; lia).
  set (p := Payload _ _ _ _ _ _). exists p. destruct (savez_cases _ _ _ Written (path k tag) p d) as (_ & W & _).
  split; [apply W; reflexivity|]. cbn [p pl_k pl_tag pl_thin pl_x pl_f info_of_run mi_x mi_f].
  split; [reflexivity|]. split; [reflexivity|]. split; [lia|]. split; [lia|]. fold m.
  assert (Lt : length (t_x t) = (length (i_x f) + length r)%nat) by (rewrite Er; apply app_length).
  repeat match goal with |- _ /\ _ => split end.
  - intros j x Hj. rewrite every_nth in Hj by exact Hm. rewrite Er. rewrite nth_error_app1; [exact Hj|]. apply nth_error_Some. congruence.
  - intros j Hj. rewrite !every_nth by exact Hm. rewrite Ef. split; apply nth_error_Some; lia.
  - intros j v Hj. rewrite every_nth in Hj by exact Hm. rewrite Ef in Hj. destruct (V _ _ Hj) as (x & E1 & E2). exists x. split; [|exact E2].
    rewrite Nat.add_comm. exact E1.
Qed.
Print Assumptions trace_file_pairs_partial.

(** C158 is false: the value saved beside the first position is that of the second *)
Theorem trace_file_pairs_refuted : exists t f p, ex_run (fun i => match i with 1%nat => 2%R | _ => 60%R end) 3 (fun _ => false) = Ok (t, Some f) /\
  fst (save_info Written 0 1 "" (Some (info_of_run f)) (fun _ => None)) (path 0 "") = Some (Complete p) /\
  exists x v, nth_error (pl_x p) 0 = Some x /\ nth_error (pl_f p) 0 = Some v /\ v <> ex_lik x.
Proof.
  destruct mcmc_best_refuted as (t & f & E & _). 
  assert (E2 : exists t f, ex_run (fun i => match i with 1%nat => 2%R | _ => 60%R end) 3 (fun _ => false) = Ok (t, Some f) /\ nth_error (i_x f) 0 = Some [Fin 5] /\ nth_error (i_f f) 0 = Some (Fin (5 + 2))).
  { do 2 eexists. split.
    - unfold ex_run, run_mcmc. cbn [Nat.max Nat.sub loop sweep]. do 4 rstep. reflexivity.
    - cbn. auto. }
  clear t f E. destruct E2 as (t & f & E & Ex & Ev). exists t, f.
  destruct (trace_file_pairs_partial _ _ _ _ _ _ _ _ _ _ _ _ _ 0%Z 1%Z "" (fun _ => None) E) as (p & Ep & _). exists p. split; [exact E|]. split; [exact Ep|].
  unfold save_info in Ep. cbv zeta in Ep. match type of Ep with fst (atomic_savez _ _ ?q _) _ = _ => destruct (savez_cases _ _ _ Written (path 0 "") q (fun _ => None)) as (_ & W & _) end.
  destruct (W eq_refl) as (W1 & _). rewrite W1 in Ep. injection Ep as <-. cbn [pl_x pl_f].
  exists [Fin 5], (Fin (5 + 2)). rewrite !every_nth by lia. cbn [Nat.mul info_of_run mi_x mi_f]. split; [exact Ex|]. split; [exact Ev|].
  unfold ex_lik. cbn [nth]. intros [= H]. lra.
Qed.
Print Assumptions trace_file_pairs_refuted.

(** C159, what is true: whatever happens while a trace is saved, its own file holds either the new trace completely or
    what it held before, and every other file is left alone except the one temporary file "<name>.tmp"; the names of
    different (component, tag) differ, and no tag without a dot has the name of a temporary file. *)
Theorem trace_file_safe_partial : forall X F St o k thin tag (i : minfo X F St) d, let r := save_info o k thin tag (Some i) d in
  (snd r = true -> exists p, fst r (path k tag) = Some (Complete p) /\ pl_k p = k /\ pl_tag p = tag /\ pl_stats p = mi_stats i) /\
  (snd r = false -> fst r (path k tag) = d (path k tag)) /\
  (forall l tag', (l <> k \/ tag' <> tag) -> tag' <> tag ++ ".tmp" -> fst r (path l tag') = d (path l tag')) /\
  (forall l tag', no_dot tag' = true -> (l <> k \/ tag' <> tag) -> fst r (path l tag') = d (path l tag')).
Proof.
  intros X F St o k thin tag i d r. unfold r, save_info. cbv zeta. set (p := Payload _ _ _ _ _ _).
  destruct (savez_cases _ _ _ o (path k tag) p d) as (O & W & B).
  assert (Other : forall l tag', (l <> k \/ tag' <> tag) -> path l tag' <> path k tag).
  { intros l tag' H E. unfold path in E. injection E as E1 E2. apply suffix_inj in E2. tauto. }
  repeat match goal with |- _ /\ _ => split end.
  - intros S. destruct o; try (destruct (B ltac:(discriminate)); congruence). destruct (W eq_refl) as (W1 & _). exists p. auto.
  - intros S. destruct o; try (destruct (B ltac:(discriminate)); assumption). all: destruct (W eq_refl) as (_ & _ & W1); congruence.
  - intros l tag' H N. apply O; [now apply Other|]. intros E. unfold path, tmp_of in E. cbn [fst snd] in E. injection E as E1 E2. apply N.
    unfold suffix in E2. destruct (String.eqb_spec tag' "") as [->|Nt], (String.eqb_spec tag "") as [->|Nt2]; cbn in E2; try discriminate.
    injection E2 as E2. exact E2.
  - intros l tag' Hd H. apply O; [now apply Other|]. now apply plain_no_tmp.
Qed.
Print Assumptions trace_file_safe_partial.

(** C159 is false: saving the trace of tag "a" removes the saved trace of tag "a.tmp" *)
Theorem trace_file_safe_refuted : forall X F St (i j : minfo X F St), let d := fst (save_info Written 0 1 "a.tmp" (Some i) (fun _ => None)) in
  (exists p, d (path 0 "a.tmp") = Some (Complete p)) /\ fst (save_info Written 0 1 "a" (Some j) d) (path 0 "a.tmp") = None.
Proof. intros X F St i j. cbn. split; [eexists|]; reflexivity. Qed.
Print Assumptions trace_file_safe_refuted.

(** C160, what is true: with chunk saving on, every chunk that could be written is in the file of its own number of
    iterations; one that could not leaves the earlier file; the final file holds the last chunk. *)
Lemma save_chunks_other X F St k thin (chunks : list (N * option (minfo X F St) * outcome)) : forall d l tag, no_dot tag = true ->
  (l <> k \/ forall c, In c chunks -> tag <> chunk_tag (fst (fst c))) -> save_chunks true k thin chunks d (path l tag) = d (path l tag).
Proof.
  induction chunks as [|[[n i] o] chunks IH]; intros d l tag Hd H; cbn [save_chunks]; [reflexivity|].
  rewrite IH; [|exact Hd|destruct H as [H|H]; [auto|right; intros c Hc; apply H; now right]].
  destruct i as [i|]; [|reflexivity].
  destruct (trace_file_safe_partial X F St o k thin (chunk_tag n) i d) as (_ & _ & _ & K). apply K; [exact Hd|].
  destruct H as [H|H]; [auto|]. right. apply (H (n, Some i, o)). now left.
Qed.
(** [l'] is every [m]-th entry of [l], the first included *)
Definition thinned {A} (m : nat) (l l' : list A) : Prop := forall j, nth_error l' j = nth_error l (j * m).
(** what the component reports at the end: the last chunk's info, or the one it had before the first *)
Definition at_the_end {X F St} (start : option (minfo X F St)) (chunks : list (N * option (minfo X F St) * outcome)) (i : minfo X F St) : Prop :=
  (chunks = [] /\ start = Some i) \/ exists before n w, chunks = (before ++ [(n, Some i, w)])%list.
Lemma at_the_end_last {X F St} start (chunks : list (N * option (minfo X F St) * outcome)) i : at_the_end start chunks i <-> last_info start chunks = Some i.
Proof.
  unfold at_the_end, last_info. destruct chunks as [|c chunks] using rev_ind.
  - cbn. split; [intros [[_ H]|(b & n & w & H)]; [exact H|destruct b; discriminate H]|auto].
  - rewrite fold_left_app. cbn. split.
    + intros [[H _]|(b & n & w & H)]; [destruct chunks; discriminate H|]. apply app_inj_tail in H as [_ ->]. reflexivity.
    + intros H. right. destruct c as [[n j] w]. cbn in H. subst j. eauto.
Qed.
Theorem training_files_partial : forall X F St k thin start (chunks : list (N * option (minfo X F St) * outcome)) o d,
  NoDup (map (fun c => fst (fst c)) chunks) ->
  let r := train_files true true k thin start chunks o d in
  let m := Z.to_nat (Z.max 1 thin) in
  (forall n i, In (n, Some i, Written) chunks -> exists p, fst r (path k (chunk_tag n)) = Some (Complete p) /\ thinned m (mi_x i) (pl_x p) /\ thinned m (mi_f i) (pl_f p)) /\
  (forall n i w, In (n, i, w) chunks -> w <> Written -> fst r (path k (chunk_tag n)) = d (path k (chunk_tag n))) /\
  (forall i, at_the_end start chunks i -> o = Written -> exists p, fst r (path k "") = Some (Complete p) /\ thinned m (mi_x i) (pl_x p) /\ thinned m (mi_f i) (pl_f p)) /\
  (forall i, o <> Written -> at_the_end start chunks i -> snd r = false /\ fst r (path k "") = d (path k "")) /\
  (forall l tag, l <> k -> no_dot tag = true -> fst r (path l tag) = d (path l tag)).
Proof.
  intros X F St k thin start chunks o d ND r m. assert (Hm : (0 < m)%nat) by (unfold m; lia). unfold r, train_files. cbn [andb]. cbv zeta. clear r.
  set (d1 := save_chunks true k thin chunks d).
  assert (Fin : forall l tag, no_dot tag = true -> (l <> k \/ tag <> "") -> fst (save_info o k thin "" (last_info start chunks) d1) (path l tag) = d1 (path l tag)).
  { intros l tag Hd H. destruct (last_info start chunks) as [i|]; [|reflexivity].
    destruct (trace_file_safe_partial X F St o k thin "" i d1) as (_ & _ & _ & K). now apply K. }
  assert (NE : forall n, chunk_tag n <> "") by (intros n E; discriminate E).
  assert (Ch : forall n i w, In (n, i, w) chunks -> exists d0, d0 (path k (chunk_tag n)) = d (path k (chunk_tag n)) /\
      d1 (path k (chunk_tag n)) = fst (save_info w k thin (chunk_tag n) i d0) (path k (chunk_tag n))).
  { unfold d1. clear d1 Fin. revert d ND. induction chunks as [|[[n0 i0] o0] chunks IH]; intros d ND n i w []; cbn [save_chunks]; cbn in ND; apply NoDup_cons_iff in ND as [N1 ND].
    - injection H as -> -> ->. exists d. split; [reflexivity|]. apply save_chunks_other; [apply no_dot_tag|]. right. intros c Hc E. apply chunk_tag_inj in E.
      apply N1. apply in_map_iff. exists c. auto.
    - destruct (IH (fst (save_info o0 k thin (chunk_tag n0) i0 d)) ND n i w H) as (d0 & E1 & E2). exists d0. split; [|exact E2]. rewrite E1.
      destruct i0 as [i0|]; [|reflexivity]. destruct (trace_file_safe_partial X F St o0 k thin (chunk_tag n0) i0 d) as (_ & _ & _ & K).
      apply K; [apply no_dot_tag|]. right. intros E. apply chunk_tag_inj in E. subst. apply N1. apply in_map_iff. exists (n0, i, w). auto. }
  repeat match goal with |- _ /\ _ => split end.
  - intros n i Hin. rewrite Fin by (auto using no_dot_tag). destruct (Ch _ _ _ Hin) as (d0 & _ & ->). unfold save_info. cbv zeta. fold m.
    set (p := Payload _ _ _ _ _ _). destruct (savez_cases _ _ _ Written (path k (chunk_tag n)) p d0) as (_ & W & _). exists p. split; [now apply W|]. split; intros j; now apply every_nth.
  - intros n i w Hin Hw. rewrite Fin by (auto using no_dot_tag). destruct (Ch _ _ _ Hin) as (d0 & E & ->). rewrite <- E. destruct i as [i|]; [|reflexivity].
    unfold save_info. cbv zeta. set (p := Payload _ _ _ _ _ _). destruct (savez_cases _ _ _ w (path k (chunk_tag n)) p d0) as (_ & _ & B). now apply B.
  - intros i E%at_the_end_last ->. rewrite E. unfold save_info. cbv zeta. fold m. set (p := Payload _ _ _ _ _ _).
    destruct (savez_cases _ _ _ Written (path k "") p d1) as (_ & W & _). exists p. split; [now apply W|]. split; intros j; now apply every_nth.
  - intros i Ho Hl%at_the_end_last. rewrite Hl. unfold save_info. cbv zeta. set (p := Payload _ _ _ _ _ _).
    destruct (savez_cases _ _ _ o (path k "") p d1) as (_ & _ & B). destruct (B Ho) as [B1 B2]. split; [exact B2|]. rewrite B1.
    unfold d1. apply save_chunks_other; [reflexivity|]. right. intros c _ E. symmetry in E. now apply NE in E.
  - intros l tag Hl Hd. rewrite Fin by auto. unfold d1. apply save_chunks_other; auto.
Qed.
Print Assumptions training_files_partial.

(** C160 is false: after two chunks the final file lacks the samples of the first *)
Theorem training_files_refuted : let chunks := [(100%N, Some (MInfo [1; 2]%nat [10; 20]%nat tt), Written); (200%N, Some (MInfo [3; 4]%nat [30; 40]%nat tt), Written)] in
  exists p, fst (train_files true true 0 1 None chunks Written (fun _ => None)) (path 0 "") = Some (Complete p) /\ ~ In 1%nat (pl_x p).
Proof. cbv zeta. eexists. split; [reflexivity|]. vm_compute. intros [H|[H|[]]]; discriminate H. Qed.
Print Assumptions training_files_refuted.

(** the same training: the file of chunk 100 is gp00_mcmc_trace_chunk000100.npz and holds the first two samples *)
Example training_files_ex : exists p, fst (train_files true true 0 2 None
    [(100%N, Some (MInfo [1; 2; 5]%nat [10; 20]%nat tt), Written); (200%N, Some (MInfo [3; 4]%nat [30; 40]%nat tt), WriteFails)] Written (fun _ => None)) (0%Z, "_chunk000100") = Some (Complete p) /\
  pl_x p = [1; 5]%nat /\ pl_f p = [10]%nat /\ pl_thin p = 2%Z.
Proof. eexists. split; [reflexivity|]. cbn. auto. Qed.
