(** Properties C149 and C150: set_args. *)
From Coq Require Import String QArith Lia.
From Verif Require Import Model.Prelude Model.GPState Model.LinalgCfg Model.SetArgs Spec.GPStateSpec.
From Verif Require Import Props.GPStateProps Props.LinalgCfgProps.
Local Open Scope nat_scope.

Section Flush.
  Context {P F H A : Type} (f0 : F) (fadd fsub fmul : F -> F -> F) (fneg : F -> bool).
  Variable kernel : A -> list P -> list P -> H -> list (list F).
  Variable user_mean : option (A -> list P -> H -> list F).
  Variable favg defnoise : list F -> F.
  Variable noise : A -> @noise_model P F H.
  Variable rank_mode : bool.
  Variable solve : list (list F) -> list F -> list F.
  Let step := asteps f0 fadd kernel user_mean favg defnoise noise rank_mode.
  Let fresh := build_with f0 fadd kernel user_mean favg defnoise noise rank_mode.
  Let pmean := posterior_mean f0 fadd fsub fmul kernel user_mean favg defnoise noise solve.
  Let pvar := posterior_variance f0 fadd fsub fmul fneg kernel solve.

  (** the operations that recompute everything *)
  Definition flush (o : @gop P F H) : Prop := match o with GAppend _ _ _ _ => False | _ => True end.

  Lemma asteps_app os1 os2 s : step s (os1 ++ os2) = match step s os1 with Some t => step t os2 | None => None end.
  Proof. unfold step. revert s. induction os1 as [|o r IH]; intros s; simpl; [reflexivity|]. destruct (astep _ _ _ _ _ _ _ _ s o); [apply IH|reflexivity]. Qed.
  Lemma flush_fresh a s o t : flush o -> step (a, s) [AOp o] = Some t -> fst t = a /\ fresh a (xd (snd t)) (yd (snd t)) (nvar (snd t)) (hp (snd t)) = Some (snd t).
  Proof.
    unfold step, fresh, build_with. intros Ho. cbn [asteps astep fst snd]. destruct o as [r x y nv|x y nv|h]; [destruct Ho| |].
    - cbn [gstep]. unfold gp_overwrite, build, refresh. cbn [pK pV xd yd nvar hp pm].
      destruct (addKV _ _ _ _) eqn:E; [|discriminate]. intros [= <-]. cbn [fst snd xd yd nvar hp pm pK pV]. now rewrite E.
    - cbn [gstep]. unfold gp_set_hps, build, refresh. cbn [pK pV xd yd nvar hp pm].
      destruct (addKV _ _ _ _) eqn:E; [|discriminate]. intros [= <-]. cbn [fst snd xd yd nvar hp pm pK pV]. now rewrite E.
  Qed.
End Flush.

(** C149 after a full recomputation: whatever happened before, new args included, the first set_hyperparameters or
    non-appending update leaves a GP freshly built with the current args, so its mean and variance are those of one model.
    Appends that follow (with the hypotheses of C04/C05) keep it so.  A mean with explicit hyperparameters is that of a GP
    freshly built with the current args at any moment.  The mean at each point is the prior mean plus the column of covariances
    with the data times the cached weights, all with the current args. *)
Theorem set_args_consistent_partial : forall {P F H A : Type} (f0 : F) (fadd fsub fmul : F -> F -> F)
    (kernel : A -> list P -> list P -> H -> list (list F)) user_mean favg defnoise noise rank_mode solve,
  let step := asteps f0 fadd kernel user_mean favg defnoise noise rank_mode in
  let fresh := build_with f0 fadd kernel user_mean favg defnoise noise rank_mode in
  let pmean := posterior_mean f0 fadd fsub fmul kernel user_mean favg defnoise noise solve in
  (forall s0 os o a s, flush o -> step s0 (os ++ [AOp o]) = Some (a, s) -> fresh a (xd s) (yd s) (nvar s) (hp s) = Some s) /\
  ((forall a, symmetric_kernel (kernel a)) -> (forall a, match user_mean with Some f => pointwise_mean (f a) | None => True end) ->
   (forall a, stable_noise (noise a)) ->
   forall s0 os o a s os', flush o -> step s0 (os ++ [AOp o]) = Some (a, s) -> length (nvar s) = length (xd s) ->
     (forall o', In o' os' -> aligned o') -> forall a' s', step (a, s) (map AOp os') = Some (a', s') ->
     let d := history (DS (xd s) (yd s) (nvar s) (hp s)) os' in
     a' = a /\ fresh a (ds_x d) (ds_y d) (ds_nv d) (ds_h d) = Some s') /\
  (forall a s h xp t, fresh a (xd s) (yd s) (nvar s) h = Some t -> pmean (a, s) xp (Some h) = pmean (a, t) xp None) /\
  (forall a s xp j, j < length xp -> length (mean_of (mean_with user_mean a) favg xp (yd s) (hp s)) = length xp ->
     exists m, pmean (a, s) xp None = Some m /\ length m = length xp /\
       nth j m f0 = fadd (nth j (mean_of (mean_with user_mean a) favg xp (yd s) (hp s)) f0)
         (vdot f0 fadd fmul (map (fun r => nth j r f0) (kernel a (xd s) xp (hp s)))
            (solve (factored s) (map (fun p => fsub (fst p) (snd p)) (combine (yd s) (pm s)))))).
Proof.
  intros P F H A f0 fadd fsub fmul kernel user_mean favg defnoise noise rank_mode solve step fresh pmean.
  assert (FL : forall s0 os o a s, flush o -> step s0 (os ++ [AOp o]) = Some (a, s) -> fresh a (xd s) (yd s) (nvar s) (hp s) = Some s).
  { intros s0 os o a s Ho E. unfold step in E. rewrite asteps_app in E. destruct (asteps _ _ _ _ _ _ _ _ s0 os) as [[b t]|]; [|discriminate].
    destruct (flush_fresh _ _ _ _ _ _ _ _ _ _ _ _ Ho E) as [E1 E2]. simpl in E1, E2. subst b. exact E2. }
  split; [exact FL|]. split.
  - intros Ks Ms Ns s0 os o a s os' Ho E Hn Ha a' s' E' d. pose proof (FL _ _ _ _ _ Ho E) as B.
    assert (G : forall l u, step (a, u) (map AOp l) = match gsteps f0 fadd (kernel a) (mean_with user_mean a) favg defnoise (noise a) rank_mode u l with Some v => Some (a, v) | None => None end).
    { unfold step. induction l as [|x l IH]; intros u; [reflexivity|]. cbn [map asteps astep gsteps fst snd].
      destruct (gstep _ _ _ _ _ _ _ _ u x); [apply IH|reflexivity]. }
    rewrite G in E'. destruct (gsteps _ _ _ _ _ _ _ _ s os') as [v|] eqn:Ev; [|discriminate]. injection E' as <- <-. split; [reflexivity|].
    eapply (incremental_factor_partial f0 fadd (kernel a) (mean_with user_mean a) favg defnoise (noise a) rank_mode (Ks a)); [|apply Ns|exact B|exact Hn|exact Ha|exact Ev|reflexivity].
    unfold mean_with. specialize (Ms a). destruct user_mean; exact Ms.
  - split.
    + intros a s h xp t. unfold fresh, build_with, build, refresh, pmean, posterior_mean. cbn [pK pV xd yd nvar hp pm].
      destruct (addKV _ _ _ _) as [kv|]; [|discriminate]. intros [= <-]. reflexivity.
    + intros a s xp j Hj Hm. eexists. split; [reflexivity|]. unfold mean_from, vzip, transpose.
      set (w := solve _ _). set (mu := mean_of _ _ _ _ _) in *. set (K := kernel a (xd s) xp (hp s)). rewrite map_map. split.
      * rewrite map_length, combine_length, map_length, seq_length, Hm. lia.
      * set (f := fun x => vdot f0 fadd fmul (map (fun r => nth x r f0) K) w). set (g := fun p : F * F => fadd (fst p) (snd p)).
        rewrite (nth_indep _ f0 (g (f0, f j))) by (rewrite map_length, combine_length, map_length, seq_length, Hm; lia).
        rewrite map_nth, combine_nth by (rewrite map_length, seq_length; exact Hm). unfold g. cbn [fst snd]. f_equal.
        rewrite (map_nth f (seq 0 (length xp)) j). rewrite seq_nth by exact Hj. reflexivity.
Qed.
Print Assumptions set_args_consistent_partial.

(** C149 is false: args hold the amplitude of a constant kernel, one measured value 1 with noise variance 1.  After
    set_args from 1 to 3 the predicted mean is 3/2, the variance before clipping is negative (reported: 0); a GP with any
    amplitude t >= 0 predicts t/(t+1) < 1 and has a positive variance for t > 0. *)
Definition amp (a : Q) (xs ys : list unit) (h : unit) : list (list Q) := map (fun _ => map (fun _ => a) ys) xs.
Definition zero_mean (a : Q) (xs : list unit) (h : unit) : list Q := map (fun _ => 0%Q) xs.
Definition avg0 (l : list Q) : Q := 0%Q.
Definition negQ (q : Q) : bool := negb (Qle_bool 0 q).
Definition div1 (solve : list (list Q) -> list Q -> list Q) : Prop := forall a b, ~ (a == 0)%Q -> exists c, solve [[a]] [b] = [c] /\ (a * c == b)%Q.
Theorem set_args_consistent_refuted : forall rank solve, div1 solve ->
  let fresh t := build_with 0%Q Qplus amp (Some zero_mean) avg0 avg0 (fun _ => NoiseMeasured) rank t [tt] [1%Q] [1%Q] tt in
  let pmean s := posterior_mean 0%Q Qplus Qminus Qmult amp (Some zero_mean) avg0 avg0 (fun _ => NoiseMeasured) solve s [tt] None in
  let pvar s := posterior_variance 0%Q Qplus Qminus Qmult negQ amp solve s [tt] in
  exists s0 st m v, fresh 1%Q = Some s0 /\
    asteps 0%Q Qplus amp (Some zero_mean) avg0 avg0 (fun _ => NoiseMeasured) rank (1%Q, s0) [ASet 3%Q] = Some st /\
    pmean st = Some [m] /\ (m == 3 # 2)%Q /\ pvar st = [v] /\ (v == 0)%Q /\
    forall t, (0 <= t)%Q -> exists s m' v', fresh t = Some s /\ pmean (t, s) = Some [m'] /\ (m' < 1)%Q /\
      pvar (t, s) = [v'] /\ ((0 < t)%Q -> (0 < v')%Q).
Proof.
  intros rank solve Hs fresh pmean pvar.
  assert (Fr : forall t, exists s, fresh t = Some s /\ factored s = [[(t + 1)%Q]] /\ pm s = [0%Q] /\ yd s = [1%Q] /\ xd s = [tt] /\ hp s = tt).
  { intros t. eexists. split; [reflexivity|]. repeat split. }
  assert (Pm : forall a s t, factored s = [[t]] -> pm s = [0%Q] -> yd s = [1%Q] -> xd s = [tt] -> ~ (t == 0)%Q -> exists m, pmean (a, s) = Some [m] /\ (m * t == a)%Q).
  { intros a s t E1 E2 E3 E4 Nt. destruct (Hs t (1 - 0)%Q Nt) as (c & Ec & Hc).
    exists (0 + (a * c + 0))%Q. unfold pmean, posterior_mean, mean_from. rewrite E1, E2, E3, E4. cbv [vzip map combine fst snd transpose vdot mean_of mean_with zero_mean amp seq length nth mget]. rewrite Ec. split; [reflexivity|].
    assert (c * t == 1)%Q by (rewrite Qmult_comm, Hc; reflexivity).
    setoid_replace ((0 + (a * c + 0)) * t)%Q with (a * (c * t))%Q by ring. rewrite H. ring. }
  assert (Pv : forall a s t, factored s = [[t]] -> xd s = [tt] -> hp s = tt -> ~ (t == 0)%Q -> exists c, (t * c == a)%Q /\ pvar (a, s) = [if negQ (a - (a * c + 0))%Q then 0%Q else (a - (a * c + 0))%Q]).
  { intros a s t E1 E4 E5 Nt. destruct (Hs t a Nt) as (c & Ec & Hc). exists c. split; [exact Hc|].
    unfold pvar, posterior_variance, raw_variance. rewrite E1, E4. cbv [vzip map combine fst snd transpose vdot mean_of mean_with zero_mean amp seq length nth mget]. rewrite Ec. reflexivity. }
  destruct (Fr 1%Q) as (s0 & B0 & F1 & F2 & F3 & F4 & F5).
  destruct (Pm 3%Q s0 (1 + 1)%Q F1 F2 F3 F4) as (m & Em & Hm); [discriminate|].
  destruct (Pv 3%Q s0 (1 + 1)%Q F1 F4 F5) as (c & Hc & Ev); [discriminate|].
  exists s0, (3%Q, s0), m. eexists. split; [exact B0|]. split; [reflexivity|]. split; [exact Em|]. split.
  { apply (Qmult_inj_r _ _ (1 + 1)%Q); [discriminate|]. rewrite Hm. reflexivity. }
  split; [exact Ev|]. split.
  { assert (C : (c == 3 # 2)%Q) by (apply (Qmult_inj_l _ _ (1 + 1)%Q); [discriminate|rewrite Hc; reflexivity]).
    unfold negQ. destruct (Qle_bool 0 _) eqn:E; [|reflexivity]. exfalso. apply Qle_bool_iff in E. rewrite C in E. revert E. apply Qlt_not_le. reflexivity. }
  intros t Ht. destruct (Fr t) as (s & B & G1 & G2 & G3 & G4 & G5). assert (P1 : (0 < t + 1)%Q) by (apply Qlt_le_trans with 1%Q; [reflexivity|rewrite <- (Qplus_0_l 1) at 1; apply Qplus_le_compat; [exact Ht|apply Qle_refl]]).
  assert (N : ~ (t + 1 == 0)%Q) by (intros N; rewrite N in P1; discriminate).
  destruct (Pm t s _ G1 G2 G3 G4 N) as (m' & Em' & Hm'). destruct (Pv t s _ G1 G4 G5 N) as (c' & Hc' & Ev').
  exists s, m'. eexists. split; [exact B|]. split; [exact Em'|]. split.
  { apply (Qmult_lt_r _ _ _ P1). rewrite Hm', Qmult_1_l. rewrite <- (Qplus_0_r t) at 1. apply Qplus_lt_r. reflexivity. }
  split; [exact Ev'|]. intros Tp.
  assert (V : ((t - (t * c' + 0)) * (t + 1) == t)%Q).
  { setoid_replace ((t - (t * c' + 0)) * (t + 1))%Q with (t * (t + 1) - t * ((t + 1) * c'))%Q by ring. rewrite Hc'. ring. }
  assert (W : (0 < t - (t * c' + 0))%Q) by (apply (Qmult_lt_r _ _ _ P1); rewrite V, Qmult_0_l; exact Tp).
  unfold negQ. destruct (Qle_bool 0 _) eqn:E; [exact W|]. exfalso. apply Qlt_le_weak, Qle_bool_iff in W. congruence.
Qed.
Print Assumptions set_args_consistent_refuted.
Definition first_solve (A : list (list Q)) (b : list Q) : list Q := match A, b with [[a]], [x] => [(x / a)%Q] | _, _ => [] end.
Example div1_possible : div1 first_solve.
Proof. intros a b Ha. eexists. split; [reflexivity|]. field. exact Ha. Qed.
(** the flush repairs it *)
Example set_args_example : exists s0 st, build_with 0%Q Qplus amp (Some zero_mean) avg0 avg0 (fun _ => NoiseMeasured) true 1%Q [tt] [1%Q] [1%Q] tt = Some s0 /\
  asteps 0%Q Qplus amp (Some zero_mean) avg0 avg0 (fun _ => NoiseMeasured) true (1%Q, s0) [ASet 3%Q; AOp (GSetHps tt)] = Some st /\
  posterior_mean 0%Q Qplus Qminus Qmult amp (Some zero_mean) avg0 avg0 (fun _ => NoiseMeasured) first_solve st [tt] None = Some [(0 + (3 * ((1 - 0) / (3 + 1)) + 0))%Q].
Proof. eexists. eexists. split; [reflexivity|]. split; [reflexivity|]. reflexivity. Qed.

(** ** C150: the preconditioner named by the mode stays the one in use *)
Local Open Scope string_scope.
Definition names (mode t : string) : Prop := exists p c rest, In (p, c) prefixes /\ lower mode = p ++ rest /\ normalize_type rest = Some t.
Lemma canonical_self s t : normalize_type s = Some t -> normalize_type t = Some t.
Proof.
  unfold normalize_type. generalize (lower s). clear s. intros s. unfold aliases. cbn [assoc].
  repeat (match goal with |- context [if ?b then _ else _] => destruct b end; [intros [= <-]; reflexivity|]). discriminate.
Qed.
Lemma dget_dset d k v : dget (dset d k v) k = Some v.
Proof. induction d as [|[j w] r IH]; simpl; [now rewrite String.eqb_refl|]. destruct (String.eqb j k) eqn:E; simpl; rewrite E; auto. Qed.
(** C150 from construction until set_args, and beyond if the new args name the type again *)
Theorem named_preconditioner_partial : forall pystr mode t args s, names mode t -> kv_init pystr mode args = Ok s ->
  precond_used pystr s = Ok t /\
  forall args' w, dget args' "sparse_preconditioner_type" = Some (VStr w) -> normalize_type w = Some t -> precond_used pystr (kv_set_args s args') = Ok t.
Proof.
  intros pystr mode t args s (p & c & rest & Hp & Hm & Ht). split.
  - pose proof (proj1 (proj2 (mode_resolution pystr mode (Some 0%nat) [args])) p c rest Hp Hm) as O.
    unfold kv_init in H. destruct (resolve pystr mode (Some 0%nat) [args]) as [h [[m i]|e]]; [|discriminate]. injection H as <-.
    unfold LinalgCfgP.outcome in O. rewrite Ht in O. cbn [fst snd List.length] in O.
    assert (D : i = 1%nat /\ hget h 1 = dset (LinalgCfgP.copied [args] (Some 0%nat)) "sparse_preconditioner_type" (VStr t)).
    { destruct (LinalgCfgP.explicit_type _) as [v|].
      - destruct (normalize_type (to_str pystr v)) as [e|]; [|discriminate]. destruct (String.eqb e t); [|discriminate].
        destruct O as [[= _ ->] O]. split; [reflexivity|exact O].
      - destruct O as [[= _ ->] O]. split; [reflexivity|exact O]. }
    destruct D as [-> D]. unfold precond_used. cbn [snd]. rewrite D, dget_dset. cbn [to_str]. now rewrite (canonical_self _ _ Ht).
  - intros args' w E W. unfold precond_used, kv_set_args. cbn [snd]. rewrite E. cbn [to_str]. now rewrite W.
Qed.
Print Assumptions named_preconditioner_partial.
(** C150 is false: set_args with a dictionary that does not repeat the type silently falls back to ilu, and one that names
    another type -- refused at construction -- is accepted. *)
Theorem named_preconditioner_refuted : forall pystr, exists s,
  names "sparseCGpre_amg" "amg" /\ kv_init pystr "sparseCGpre_amg" [] = Ok s /\ precond_used pystr s = Ok "amg" /\
  precond_used pystr (kv_set_args s [("user", VInt 1)]) = Ok "ilu" /\
  (let other := [("sparse_preconditioner_type", VStr "ichol")] in
   kv_init pystr "sparseCGpre_amg" other = Err EConflict /\ precond_used pystr (kv_set_args s other) = Ok "ichol").
Proof.
  intros pystr. eexists. split; [exists "sparsecgpre_", "sparseCGpre", "amg"; split; [left; reflexivity|split; reflexivity]|].
  split; [vm_compute; reflexivity|]. repeat split; vm_compute; reflexivity.
Qed.
Print Assumptions named_preconditioner_refuted.
