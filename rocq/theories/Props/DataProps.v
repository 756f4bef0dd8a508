(** Properties C01-C03: the data a GP stores. *)
From Verif Require Import Model.Prelude Model.Data Spec.DataSpec Proofs.DataP.

(** Entries for the examples: [None] is NaN. *)
Definition exnan (v : option Z) : bool := match v with None => true | Some _ => false end.
Definition exrow (l : list Z) : list (option Z) := map Some l.

(** C01 *)
Theorem stored_data_history : forall {V Obj : Type} (isnan : V -> bool) (x : pyx V Obj) y nv s0 ops s log,
  data_init isnan x y nv = Ok s0 ->
  session isnan s0 ops = (s, log) ->
  (forall o r, In (o, r) log -> dirty_error r = false) ->
  length (stored_x s) = length (stored_y s) /\ g_n s = length (stored_x s) /\
  (forallb o_append (accepted log) = true ->
     stored_x s = pyx_pts x ++ concat (map op_xpts (accepted log)) /\
     stored_y s = pyy_rows y ++ concat (map op_yrows (accepted log))) /\
  (forall pre o apps, accepted log = pre ++ o :: apps -> o_append o = false -> forallb o_append apps = true ->
     stored_x s = op_xpts o ++ concat (map op_xpts apps) /\
     stored_y s = op_yrows o ++ concat (map op_yrows apps)).
Proof. exact (@stored_data_history_l). Qed.
Print Assumptions stored_data_history.

(** two points, then an append, a rejected call, an overwrite and another append *)
Example stored_data_history_ex :
  let x0 := XMat (Obj:=unit) (Mat 1 [exrow [1%Z]; exrow [2%Z]]) in
  let ops := [ Op (XMat (Mat 1 [exrow [3%Z]])) (YVec (exrow [30%Z])) NNone true;
               Op (XMat (Mat 2 [exrow [3%Z; 4%Z]])) (YVec (exrow [30%Z])) NNone true;
               Op (XMat (Mat 1 [exrow [5%Z]])) (YVec (exrow [50%Z])) NNone false;
               Op (XMat (Mat 1 [exrow [6%Z]; exrow [7%Z]])) (YVec (exrow [60%Z; 70%Z])) NNone true ] in
  exists s0 s log, data_init exnan x0 (YVec (exrow [10%Z; 20%Z])) NNone = Ok s0 /\
    session exnan s0 ops = (s, log) /\ (forall o r, In (o, r) log -> dirty_error r = false) /\
    length (accepted log) = 3 /\
    stored_y s = [exrow [50%Z]; exrow [60%Z]; exrow [70%Z]].
Proof.
  cbv zeta. eexists. eexists. eexists. split; [vm_compute; reflexivity|].
  split; [vm_compute; reflexivity|]. split; [|split; vm_compute; reflexivity].
  cbn. intros o r H. repeat (destruct H as [H|H]; [injection H as <- <-; reflexivity|]). contradiction.
Qed.

(** C02: refuted -- an update whose noise vector has the wrong length is accepted. *)
Theorem noise_alignment_refuted :
  exists (x : pyx (option Z) unit) y l0 s0 o s,
    data_init exnan x y (NVec l0) = Ok s0 /\
    gp_update exnan s0 o = (s, Ok tt) /\
    exists l, g_noise s = Some l /\ length l <> length (stored_x s).
Proof.
  exists (XMat (Mat 1 [exrow [1%Z]; exrow [2%Z]])), (YVec (exrow [10%Z; 20%Z])), (exrow [1%Z; 1%Z]).
  eexists. exists (Op (XMat (Mat 1 [exrow [3%Z]])) (YVec (exrow [30%Z])) (NVec (exrow [1%Z; 1%Z; 1%Z])) true).
  eexists. split; [vm_compute; reflexivity|]. split; [vm_compute; reflexivity|].
  eexists. split; [vm_compute; reflexivity|]. vm_compute. lia.
Qed.
Print Assumptions noise_alignment_refuted.

(** C02, the part that holds: if every accepted update supplied one noise value per point, the stored
    noise is aligned with the stored points and is the history of the supplied values.
    Missing: the code does not enforce that hypothesis (see [noise_alignment_refuted]). *)
Theorem noise_alignment_partial : forall {V Obj : Type} (isnan : V -> bool) (x : pyx V Obj) y l0 s0 ops s log,
  data_init isnan x y (NVec l0) = Ok s0 ->
  session isnan s0 ops = (s, log) ->
  (forall o r, In (o, r) log -> dirty_error r = false) ->
  (forall o, In o (accepted log) -> length (op_noise_vals o) = length (op_xpts o)) ->
  exists l, g_noise s = Some l /\ length l = length (stored_x s) /\
    (forallb o_append (accepted log) = true -> l = l0 ++ concat (map op_noise_vals (accepted log))) /\
    (forall pre o apps, accepted log = pre ++ o :: apps -> o_append o = false -> forallb o_append apps = true ->
       l = op_noise_vals o ++ concat (map op_noise_vals apps)).
Proof. exact (@noise_alignment_l). Qed.
Print Assumptions noise_alignment_partial.

Example noise_alignment_ex :
  let x0 := XMat (Obj:=unit) (Mat 1 [exrow [1%Z]; exrow [2%Z]]) in
  let ops := [ Op (XMat (Mat 1 [exrow [3%Z]])) (YVec (exrow [30%Z])) (NVec (exrow [3%Z])) true;
               Op (XMat (Mat 1 [exrow [4%Z]])) (YVec (exrow [40%Z])) NNone true ] in
  exists s0 s log, data_init exnan x0 (YVec (exrow [10%Z; 20%Z])) (NVec (exrow [1%Z; 2%Z])) = Ok s0 /\
    session exnan s0 ops = (s, log) /\ (forall o r, In (o, r) log -> dirty_error r = false) /\
    (forall o, In o (accepted log) -> length (op_noise_vals o) = length (op_xpts o)) /\
    g_noise s = Some (exrow [1%Z; 2%Z; 3%Z]).
Proof.
  cbv zeta. eexists. eexists. eexists. split; [vm_compute; reflexivity|].
  split; [vm_compute; reflexivity|]. split; [|split].
  - cbn. intros o r H. repeat (destruct H as [H|H]; [injection H as <- <-; reflexivity|]). contradiction.
  - vm_compute. intros o [<-|[]]. reflexivity.
  - reflexivity.
Qed.

(** C03: refuted -- a rejected append (wrong number of y columns, or a NaN) has already grown x
    (in the NaN case the whole data set). *)
Theorem rejected_update_unchanged_refuted :
  exists (x : pyx (option Z) unit) y s0,
    data_init exnan x y NNone = Ok s0 /\
    (exists o s, gp_update exnan s0 o = (s, Err EVstackY) /\ length (stored_x s) <> length (stored_x s0)
                 /\ length (stored_x s) <> length (stored_y s)) /\
    (exists o s, gp_update exnan s0 o = (s, Err ENaN) /\ length (stored_x s) <> length (stored_x s0)).
Proof.
  exists (XMat (Mat 1 [exrow [1%Z]; exrow [2%Z]])), (YVec (exrow [10%Z; 20%Z])).
  eexists. split; [vm_compute; reflexivity|]. split.
  - exists (Op (XMat (Mat 1 [exrow [3%Z]])) (YMat (Mat 2 [exrow [30%Z; 31%Z]])) NNone true).
    eexists. split; [vm_compute; reflexivity|]. split; vm_compute; lia.
  - exists (Op (XMat (Mat 1 [exrow [3%Z]])) (YVec [None]) NNone true).
    eexists. split; [vm_compute; reflexivity|]. vm_compute; lia.
Qed.
Print Assumptions rejected_update_unchanged_refuted.

(** C03, the part that holds: every other rejection leaves x, y, noise and the count as they were. *)
Theorem rejected_update_unchanged_partial :
  forall {V Obj : Type} (isnan : V -> bool) (x : pyx V Obj) y nv s0 ops s log o s' e,
  data_init isnan x y nv = Ok s0 -> session isnan s0 ops = (s, log) ->
  (forall o r, In (o, r) log -> dirty_error r = false) ->
  gp_update isnan s o = (s', Err e) -> e <> EVstackY -> e <> ENaN -> stored s' = stored s.
Proof. exact (@rejected_update_session_l). Qed.
Print Assumptions rejected_update_unchanged_partial.

Example rejected_update_unchanged_ex :
  let x0 := XMat (Obj:=unit) (Mat 1 [exrow [1%Z]; exrow [2%Z]]) in
  exists s0 s', data_init exnan x0 (YVec (exrow [10%Z; 20%Z])) NNone = Ok s0 /\
    gp_update exnan s0 (Op (XMat (Mat 2 [exrow [3%Z; 3%Z]])) (YVec (exrow [30%Z])) NNone true) = (s', Err EVstackX)
    /\ g_xnew s' <> g_xnew s0.
Proof. cbv zeta. eexists. eexists. split; [vm_compute; reflexivity|]. split; [vm_compute; reflexivity|]. discriminate. Qed.

(** C60: refuted -- with non-Euclidean inputs (a list) the NaN check is skipped altogether, so NaN
    values are stored by the constructor and by updates. *)
Theorem no_nan_stored_refuted :
  exists (x : pyx (option Z) unit) y s0, data_init exnan x y NNone = Ok s0 /\ ~ nan_free exnan s0 /\
  exists y' s1 o s2, data_init exnan x y' NNone = Ok s1 /\ nan_free exnan s1 /\ gp_update exnan s1 o = (s2, Ok tt) /\ ~ nan_free exnan s2.
Proof.
  exists (XLst [tt]), (YVec [None]). eexists. split; [vm_compute; reflexivity|]. split.
  - intros [_ H]. specialize (H [None] None). discriminate H; cbn; auto.
  - exists (YVec (exrow [1%Z])). eexists. exists (Op (XLst [tt]) (YVec [None]) NNone true). eexists.
    split; [vm_compute; reflexivity|]. split; [|split; [vm_compute; reflexivity|]].
    + split; intros r v; cbn; [intros [?|[]]; discriminate|intros [<-|[]] [<-|[]]; reflexivity].
    + intros [_ H]. specialize (H [None] None). discriminate H; cbn; auto.
Qed.
Print Assumptions no_nan_stored_refuted.

(** C60, what holds: with array inputs, whatever was called (and failed) before, a constructor or an
    update that returns normally leaves no NaN in the stored points and values. *)
Theorem no_nan_stored_partial : forall {V Obj : Type} (isnan : V -> bool) (x : mat V) y nv s0,
  data_init isnan (XMat (Obj:=Obj) x) y nv = Ok s0 ->
  nan_free isnan s0 /\
  forall ops s log, session isnan s0 ops = (s, log) ->
  forall o s', gp_update isnan s o = (s', Ok tt) -> nan_free isnan s'.
Proof.
  intros V Obj isnan x y nv s0. exact (nan_session isnan x y nv s0).
Qed.
Print Assumptions no_nan_stored_partial.

(** a rejected NaN stays in the container until the data are overwritten: the next append is refused too *)
Example no_nan_stored_ex :
  exists s0, data_init exnan (XMat (Obj:=unit) (Mat 1 [exrow [1%Z]])) (YVec (exrow [10%Z])) NNone = Ok s0 /\
  map snd (snd (session exnan s0
    [Op (XMat (Mat 1 [exrow [2%Z]])) (YVec [None]) NNone true;
     Op (XMat (Mat 1 [exrow [3%Z]])) (YVec (exrow [30%Z])) NNone true;
     Op (XMat (Mat 1 [exrow [3%Z]])) (YVec (exrow [30%Z])) NNone false;
     Op (XMat (Mat 1 [[None]])) (YVec (exrow [30%Z])) NNone true])) = [Err ENaN; Err ENaN; Ok tt; Err ENaN].
Proof. eexists. split; [vm_compute; reflexivity|]. vm_compute. reflexivity. Qed.
