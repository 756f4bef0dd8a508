(** C46-C48: multi-task data. *)
From Coq Require Import Sorting.Sorted Sorting.Permutation.
From Verif Require Import Model.Prelude Model.Data Model.FvGP Spec.DataSpec Spec.FvGPSpec Proofs.DataP Proofs.FvGPP.

(** * C46 *)
(** the single-task data are the observed (task, point) pairs, each once, by task and then by point, with the point and
    its task, the value and the noise variance of that pair *)
Theorem flattening_exact : forall {V Obj : Type} (isnan : V -> bool) (of_task : nat -> V) k (x : fx V Obj) ym nv f,
  transform_index_set2 isnan of_task k x (FYMat ym) nv = Ok f -> args_ok x (FYMat ym) nv ->
  exists idx, enumerates isnan k ym idx /\ StronglySorted lex idx /\
    map Some (flat_obs f) = map (observation of_task x ym nv) idx /\
    length (pyx_pts (fl_x f)) = length idx /\ length (pyy_rows (fl_y f)) = length idx /\
    (match fl_n f with NVec l => length l = length idx | _ => nv = FNNone end).
Proof.
intros V Obj isnan of_task k x ym nv f T A. destruct (transform_obs isnan of_task k x ym nv f T A) as [O [L1 [L2 L3]]].
exists (idxs isnan k (length (rows ym)) (rows ym)). split; [apply idxs_enum|]. split; [apply idxs_sorted|]. split; [exact O|]. split; [exact L1|]. split; [exact L2|].
unfold flat_noise in L3. destruct (fl_n f); try exact L3. apply L3.
Qed.
Print Assumptions flattening_exact.
(** and arrays of matching sizes are never rejected *)
Theorem flattening_total : forall {V Obj : Type} (isnan : V -> bool) (of_task : nat -> V) k (x : fx V Obj) ym nv,
  fx_len x = Some (length (rows ym)) -> ncols ym = k -> (nv = FNNone \/ exists m, nv = FNMat m /\ length (rows m) = length (rows ym) /\ ncols m = k) ->
  exists f, transform_index_set2 isnan of_task k x (FYMat ym) nv = Ok f.
Proof.
intros V Obj isnan of_task k x ym nv Lx Cy Hn. unfold transform_index_set2. destruct x as [m|l|]; cbn in Lx; [| |discriminate]; injection Lx as Lx;
cbn [fx_len fy_len opt_nat_eqb]; rewrite Lx, Nat.eqb_refl, Cy, Nat.eqb_refl; cbn [negb];
(destruct Hn as [->|[nm [-> [L C]]]]; cbn [fn_len opt_nat_eqb]; [|rewrite L, C, !Nat.eqb_refl; cbn [negb]]); rewrite ?andb_false_r; eexists; reflexivity.
Qed.
Definition znan (v : option Z) : bool := match v with None => true | Some _ => false end.
Definition ztask (i : nat) : option Z := Some (Z.of_nat i).
Definition zrow (l : list Z) : list (option Z) := map Some l.
(** two points, two tasks, one missing value *)
Example flattening_ex : exists f,
  transform_index_set2 znan ztask 2 (FXMat (Obj:=unit) (Mat 1 [zrow [5%Z]; zrow [6%Z]])) (FYMat (Mat 2 [[Some 1%Z; None]; [Some 2%Z; Some 3%Z]]))
    (FNMat (Mat 2 [zrow [10%Z; 11%Z]; zrow [12%Z; 13%Z]])) = Ok f /\
  flat_obs f = [(inl (zrow [5%Z; 0%Z]), zrow [1%Z], Some (Some 10%Z)); (inl (zrow [6%Z; 0%Z]), zrow [2%Z], Some (Some 12%Z)); (inl (zrow [6%Z; 1%Z]), zrow [3%Z], Some (Some 13%Z))].
Proof. eexists. split; [vm_compute; reflexivity|vm_compute; reflexivity]. Qed.

(** * C47 *)
(** after a construction and any accepted calls (batches non-empty, values as a 2-d array) the stored multi-task data
    are the batches one below the other since the last replacement, and the single-task data list exactly the
    observations of the stored multi-task data *)
Theorem appended_observations_partial : forall {V Obj : Type} (isnan : V -> bool) (of_task : nat -> V) (x : fx V Obj) ym nv s ops s' log,
  args_ok x (FYMat ym) nv -> rows ym <> [] -> 0 < ncols ym -> fv_init isnan of_task x (FYMat ym) nv = Ok s ->
  (forall o, In o ops -> args_ok (p_x o) (p_y o) (p_n o) /\ exists yo, p_y o = FYMat yo /\ rows yo <> []) ->
  fv_session isnan of_task s ops = (s', log) -> (forall o r, In (o, r) log -> r = Ok tt) ->
  f_k s' = ncols ym /\
  mt_points (f_x s') = fold_left mt_points_after ops (mt_points x) /\
  mt_values (f_y s') = fold_left mt_values_after ops (rows ym) /\
  mt_noise (f_n s') = fold_left mt_noise_after ops (mt_noise nv) /\
  exists ym', f_y s' = FYMat ym' /\ lists_observations isnan of_task (ncols ym) (f_x s') ym' (f_n s') (data_obs (f_data s')).
Proof.
intros V Obj isnan of_task x ym nv s ops s' log A Ne Kp I F E L.
destruct (init_inv isnan of_task x ym nv s (proj1 A) A Ne Kp I) as [II Ik].
destruct (session_inv isnan of_task ops s s' log II F E L) as [I' Ek]. destruct (session_stored isnan of_task ops s s' log II F E L) as [S1 [S2 S3]].
assert (St : f_x s = x /\ f_y s = FYMat ym /\ f_n s = nv).
{ clear -I. unfold fv_init in I. destruct (negb _); [discriminate|]. destruct (transform_index_set2 _ _ _ _ _ _); [|discriminate]. destruct (data_init _ _ _ _); [|discriminate]. injection I as <-. auto. }
destruct St as [Ex [Ey En]]. rewrite Ex in S1; rewrite Ey in S2; rewrite En in S3. split; [congruence|]. split; [exact S1|]. split; [exact S2|]. split; [exact S3|].
destruct I' as [_ [_ [ym' [Ey' [_ [_ [_ [idx [EN [OB _]]]]]]]]]]. exists ym'. split; [exact Ey'|]. exists idx. rewrite <- Ik, <- Ek. auto.
Qed.
Print Assumptions appended_observations_partial.
(** so they are, up to order, the data a GP built from all points at once would have; with one task, in the same order *)
Theorem appended_as_rebuilt_partial : forall {V Obj : Type} (isnan : V -> bool) (of_task : nat -> V) (x : fx V Obj) ym nv s ops s' log f,
  args_ok x (FYMat ym) nv -> rows ym <> [] -> 0 < ncols ym -> fv_init isnan of_task x (FYMat ym) nv = Ok s ->
  (forall o, In o ops -> args_ok (p_x o) (p_y o) (p_n o) /\ exists yo, p_y o = FYMat yo /\ rows yo <> []) ->
  fv_session isnan of_task s ops = (s', log) -> (forall o r, In (o, r) log -> r = Ok tt) ->
  args_ok (f_x s') (f_y s') (f_n s') ->
  transform_index_set2 isnan of_task (f_k s') (f_x s') (f_y s') (f_n s') = Ok f ->
  Permutation (data_obs (f_data s')) (flat_obs f) /\ (ncols ym = 1 -> data_obs (f_data s') = flat_obs f).
Proof.
intros V Obj isnan of_task x ym nv s ops s' log f A Ne Kp I F E L A' T.
destruct (init_inv isnan of_task x ym nv s (proj1 A) A Ne Kp I) as [II Ik].
destruct (session_inv isnan of_task ops s s' log II F E L) as [I' Ek].
destruct I' as [_ [_ [ym' [Ey' [_ [_ [_ [idx [EN [OB SO]]]]]]]]]]. rewrite Ey' in *.
destruct (flattening_exact isnan of_task _ _ _ _ _ T A') as [idx2 [EN2 [S2 [O2 _]]]]. split.
- apply (obs_perm isnan of_task (f_k s') (f_x s') ym' (f_n s')); [exists idx|exists idx2]; auto.
- intros K1. assert (idx = idx2). { apply sorted_unique; [apply SO; congruence|exact S2|]. intros [i j]. rewrite (proj2 EN), (proj2 EN2). reflexivity. }
  subst idx2. rewrite <- O2 in OB. clear -OB. revert OB. generalize (flat_obs f). induction (data_obs (f_data s')) as [|a l IH]; intros [|b m] H; try discriminate; [reflexivity|]. cbn in H. injection H as -> H. f_equal. exact (IH _ H).
Qed.
Print Assumptions appended_as_rebuilt_partial.
(** with two tasks the order is not the one of a GP built at once *)
Definition ex_x0 : fx (option Z) unit := FXMat (Mat 1 [zrow [5%Z]]).
Definition ex_op : fop (option Z) unit := FOp (FXMat (Mat 1 [zrow [6%Z]])) (FYMat (Mat 2 [zrow [3%Z; 4%Z]])) FNNone true.
Theorem append_order_refuted : exists s s' s2,
  fv_init znan ztask ex_x0 (FYMat (Mat 2 [zrow [1%Z; 2%Z]])) FNNone = Ok s /\ fv_update znan ztask s ex_op = (s', Ok tt) /\
  fv_init znan ztask (FXMat (Mat 1 [zrow [5%Z]; zrow [6%Z]])) (FYMat (Mat 2 [zrow [1%Z; 2%Z]; zrow [3%Z; 4%Z]])) FNNone = Ok s2 /\
  f_x s' = f_x s2 /\ f_y s' = f_y s2 /\
  map (fun o => snd (fst o)) (data_obs (f_data s')) = [zrow [1%Z]; zrow [2%Z]; zrow [3%Z]; zrow [4%Z]] /\
  map (fun o => snd (fst o)) (data_obs (f_data s2)) = [zrow [1%Z]; zrow [3%Z]; zrow [2%Z]; zrow [4%Z]].
Proof. do 3 eexists. repeat (split; [vm_compute; reflexivity|]). vm_compute; reflexivity. Qed.
Print Assumptions append_order_refuted.
(** a session of two accepted calls: an append and a replacement *)
Example appended_ex : exists s s' log,
  fv_init znan ztask ex_x0 (FYMat (Mat 2 [zrow [1%Z; 2%Z]])) FNNone = Ok s /\
  fv_session znan ztask s [ex_op; FOp (FXMat (Mat 1 [zrow [7%Z]])) (FYMat (Mat 2 [[None; Some 9%Z]])) FNNone true] = (s', log) /\
  map snd log = [Ok tt; Ok tt] /\
  mt_values (f_y s') = [zrow [1%Z; 2%Z]; zrow [3%Z; 4%Z]; [None; Some 9%Z]] /\
  map fst (data_obs (f_data s')) = [(inl (zrow [5%Z; 0%Z]), zrow [1%Z]); (inl (zrow [5%Z; 1%Z]), zrow [2%Z]); (inl (zrow [6%Z; 0%Z]), zrow [3%Z]);
                                    (inl (zrow [6%Z; 1%Z]), zrow [4%Z]); (inl (zrow [7%Z; 1%Z]), zrow [9%Z])].
Proof. do 3 eexists. repeat (split; [vm_compute; reflexivity|]). vm_compute; reflexivity. Qed.

(** * C48 *)
(** a call refused before the multi-task data are set changes nothing; the single-task data change only if the base
    class fails after it has begun to store; the number of tasks never changes *)
Definition early (e : fexn) : Prop := match e with FArgs | FNoiseType | FVstackNoise | FVstackX | FVstackY => True | _ => False end.
Definition fdirty (r : res fexn unit) : bool := match r with Err (FBase e) => dirty_error (Err e) | _ => false end.
Theorem rejected_fv_update_partial : forall {V Obj : Type} (isnan : V -> bool) (of_task : nat -> V) (x : fx V Obj) y nv s0 ops s log o s' e,
  fv_init isnan of_task x y nv = Ok s0 -> fv_session isnan of_task s0 ops = (s, log) -> (forall o r, In (o, r) log -> fdirty r = false) ->
  fv_update isnan of_task s o = (s', Err e) ->
  f_k s' = f_k s0 /\ (early e -> s' = s) /\ (fdirty (Err e) = false -> stored (f_data s') = stored (f_data s)).
Proof.
intros V Obj isnan of_task x y nv s0 ops s log o s' e I S L U.
destruct (fv_session_wf isnan of_task ops s0 s log (fv_init_wf isnan of_task x y nv s0 I) S L) as [W K]. rewrite <- K.
exact (fv_rejected isnan of_task s o s' e W U).
Qed.
Print Assumptions rejected_fv_update_partial.
(** but later refusals leave the multi-task data grown, and then they no longer describe the single-task data *)
Definition mt_disagree {V Obj} isnan of_task (s : fstate V Obj) : Prop :=
  match f_y s with FYMat ym => ~ lists_observations isnan of_task (f_k s) (f_x s) ym (f_n s) (data_obs (f_data s)) | _ => True end.
Definition ex_n0 : fn (option Z) := FNMat (Mat 2 [zrow [10%Z; 11%Z]]).
Theorem rejected_fv_update_refuted :
  exists s0, fv_init znan ztask ex_x0 (FYMat (Mat 2 [zrow [1%Z; 2%Z]])) ex_n0 = Ok s0 /\
  (* noise variances forgotten: the stored multi-task noise is gone, the point is stored, and calls with noise fail from now on *)
  (exists s1, fv_update znan ztask s0 ex_op = (s1, Err (FBase ENoiseMissing)) /\ f_data s1 = f_data s0 /\ f_n s1 = FNNone /\ length (mt_values (f_y s1)) = 2 /\
     mt_disagree znan ztask s1 /\
     forall o, p_append o = true -> p_n o = FNMat (Mat 2 [zrow [12%Z; 13%Z]]) -> p_x o = FXMat (Mat 1 [zrow [7%Z]]) -> p_y o = FYMat (Mat 2 [zrow [3%Z; 4%Z]]) ->
       fv_update znan ztask s1 o = (s1, Err FVstackNoise)) /\
  (* a batch with the wrong shape of noise: refused, stored *)
  (exists o s1, fv_update znan ztask s0 o = (s1, Err FTransform) /\ f_data s1 = f_data s0 /\ length (mt_values (f_y s1)) = 2 /\ mt_disagree znan ztask s1).
Proof.
eexists. split; [vm_compute; reflexivity|]. split.
- eexists. split; [vm_compute; reflexivity|]. split; [vm_compute; reflexivity|]. split; [reflexivity|]. split; [reflexivity|]. split.
  + cbn [mt_disagree f_y]. intros [idx [[N E] M]]. apply (f_equal (@length _)) in M. rewrite !map_length in M. cbn in M.
    assert (K : incl [(0, 0); (0, 1); (1, 0)] idx). { intros q Hq. cbn in Hq. destruct Hq as [<-|[<-|[<-|[]]]]; apply E; cbn; (split; [lia|]); (split; [lia|]); eexists; split; reflexivity. }
    apply NoDup_incl_length in K; [cbn in K; lia|]. repeat constructor; cbn; intuition discriminate.
  + intros [ox oy on oa]; cbn [p_append p_n p_x p_y]; intros -> -> -> ->. vm_compute. reflexivity.
- exists (FOp (FXMat (Mat 1 [zrow [6%Z]])) (FYMat (Mat 2 [zrow [3%Z; 4%Z]])) (FNVec (zrow [12%Z; 13%Z])) true).
  eexists. split; [vm_compute; reflexivity|]. split; [vm_compute; reflexivity|]. split; [reflexivity|].
  cbn [mt_disagree f_y]. intros [idx [[N E] M]]. apply (f_equal (@length _)) in M. rewrite !map_length in M. cbn in M.
  assert (K : incl [(0, 0); (0, 1); (1, 0)] idx). { intros q Hq. cbn in Hq. destruct Hq as [<-|[<-|[<-|[]]]]; apply E; cbn; (split; [lia|]); (split; [lia|]); eexists; split; reflexivity. }
  apply NoDup_incl_length in K; [cbn in K; lia|]. repeat constructor; cbn; intuition discriminate.
Qed.
Print Assumptions rejected_fv_update_refuted.
(** a batch without any observation: refused by the base class, stored *)
Theorem rejected_all_nan_refuted : exists s0 s1,
  fv_init znan ztask ex_x0 (FYMat (Mat 2 [zrow [1%Z; 2%Z]])) FNNone = Ok s0 /\
  fv_update znan ztask s0 (FOp (FXMat (Mat 1 [zrow [6%Z]])) (FYMat (Mat 2 [[None; None]])) FNNone true) = (s1, Err (FBase EAssertData)) /\
  f_data s1 = f_data s0 /\ mt_points (f_x s1) = [inl (zrow [5%Z]); inl (zrow [6%Z])].
Proof. do 2 eexists. repeat (split; [vm_compute; reflexivity|]). vm_compute; reflexivity. Qed.
Print Assumptions rejected_all_nan_refuted.
(** a call refused early *)
Example rejected_fv_update_ex : exists s0,
  fv_init znan ztask ex_x0 (FYMat (Mat 2 [zrow [1%Z; 2%Z]])) FNNone = Ok s0 /\
  fv_update znan ztask s0 (FOp (FXMat (Mat 2 [zrow [6%Z; 6%Z]])) (FYMat (Mat 2 [zrow [3%Z; 4%Z]])) FNNone true) = (s0, Err FVstackX).
Proof. eexists. split; vm_compute; reflexivity. Qed.
