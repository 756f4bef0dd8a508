(** C57: pickling a GP. *)
From Coq Require Import String.
From Verif Require Import Model.Prelude Model.Pickle Spec.PickleSpec Proofs.PickleP.
Open Scope string_scope.

(** every chain of attributes (of objects and of bound methods) and dictionary keys that does not pass through something dropped reads the same on the copy, up to the
    identity of the objects, which is preserved: what was one object is one object; nothing of a class is missing on the copy *)
Theorem unpickled_reads_same_partial : forall {D : Type} (d0 : D) (h : heap D) r h' r', sound h r -> restores d0 h r h' r' ->
  exists f, (forall a b, visited h r a -> visited h r b -> f a = f b -> a = b) /\
    (forall p v, avoids h (VRef r) p -> read h (VRef r) p = Some v -> read h' (VRef r') p = Some (rename f v)) /\
    sound h' r'.
Proof.
intros D d0 h r h' r' S [f [<- [I F]]]. exists f. split; [exact I|]. split; [|exact (sound_copy d0 h h' r f S F)].
intros p v A R. apply (read_copy d0 h h' r f S F p (VRef r)); auto. intros b [<-|[]]. constructor.
Qed.
Print Assumptions unpickled_reads_same_partial.
(** so data are equal and sharing is kept *)
Corollary unpickled_data_same_partial : forall {D : Type} (d0 : D) (h : heap D) r h' r' p d, sound h r -> restores d0 h r h' r' ->
  avoids h (VRef r) p -> read h (VRef r) p = Some (VData d) -> read h' (VRef r') p = Some (VData d).
Proof. intros D d0 h r h' r' p d S R A E. destruct (unpickled_reads_same_partial d0 h r h' r' S R) as [f [_ [K _]]]. exact (K p _ A E). Qed.
Print Assumptions unpickled_data_same_partial.
Corollary unpickled_sharing_partial : forall {D : Type} (d0 : D) (h : heap D) r h' r' p q a, sound h r -> restores d0 h r h' r' ->
  avoids h (VRef r) p -> avoids h (VRef r) q -> read h (VRef r) p = Some (VRef a) -> read h (VRef r) q = Some (VRef a) ->
  exists a', read h' (VRef r') p = Some (VRef a') /\ read h' (VRef r') q = Some (VRef a').
Proof.
intros D d0 h r h' r' p q a S R A A' E E'. destruct (unpickled_reads_same_partial d0 h r h' r' S R) as [f [_ [K _]]]. exists (f a). split; [exact (K p _ A E)|exact (K q _ A' E')].
Qed.
(** what is dropped reads None, and the surrogate is gone *)
Theorem unpickled_dropped : forall {D : Type} (d0 : D) (h : heap D) r h' r' , sound h r -> restores d0 h r h' r' ->
  exists f, f r = r' /\ forall a o, visited h r a -> h a = Some o ->
    (forall k, lost (o_cls o) k = true -> In k (assigned (o_cls o)) -> exists o', h' (f a) = Some o' /\ o_cls o' = o_cls o /\ get (o_dict o') k = Some VNone) /\
    (forall l s, o_cls o = CTrainer -> get (o_dict o) "bo_info" = Some (VDict l) -> get l "surrogate" = Some s -> s <> VNone ->
       exists o' l', h' (f a) = Some o' /\ get (o_dict o') "bo_info" = Some (VDict l') /\ get l' "surrogate" = None).
Proof.
intros D d0 h r h' r' S [f [E [I F]]]. exists f. split; [exact E|]. intros a o V H. split.
- intros k L A. exact (lost_copy d0 h h' r f S F a k V o H L A).
- intros l s T B Sg Ns. exact (surrogate_gone d0 h h' r f S F a V o H T l s B Sg Ns).
Qed.
Print Assumptions unpickled_dropped.
(** a GP pickles if what cannot be pickled is only where it is dropped *)
Theorem clean_gp_pickles_partial : forall {D : Type} (h : heap D) r, sound h r -> (forall a o, visited h r a -> h a = Some o -> clean o) -> pickles h r.
Proof. exact @clean_pickles. Qed.
Print Assumptions clean_gp_pickles_partial.
(** the factorization of mode sparseLU is a SuperLU object and is not dropped: such a GP cannot be pickled *)
Theorem sparse_lu_pickle_refuted : forall {D : Type} (h : heap D) r o kv okv, h r = Some o -> o_cls o = CGP -> complete o -> get (o_dict o) "kv" = Some (VRef kv) ->
  h kv = Some okv -> o_cls okv = CKV -> complete okv -> get (o_dict okv) "LU_factor" = Some VBad -> ~ pickles h r.
Proof.
intros D h r o kv okv H C K G Hk Ck Kk L P.
destruct (getstate_ok o K) as [st S]. assert (Gs : get st "kv" = Some (VRef kv)). { rewrite (getstate_get o st "kv" _ S G); rewrite C; [reflexivity|cbn; tauto|reflexivity]. }
assert (V : visited h r kv) by (exact (visit_ref h r r o st "kv" (VRef kv) kv (visit_root h r) H S (get_in _ _ _ Gs) (or_introl eq_refl))).
destruct (P kv V) as [o' [st' [H' [S' Q]]]]. rewrite Hk in H'. injection H' as <-.
assert (Gl : get st' "LU_factor" = Some VBad). { rewrite (getstate_get okv st' "LU_factor" _ S' L); rewrite Ck; [reflexivity|cbn; tauto|reflexivity]. }
specialize (Q _ _ (get_in _ _ _ Gl)). discriminate.
Qed.
Print Assumptions sparse_lu_pickle_refuted.

(** a GP trained by Bayesian optimization on a Dask client with a preconditioner *)
Definition fill (over : list (string * value Z)) (c : cls) : object Z :=
  Object c (map (fun k => (k, match get over k with Some v => v | None => VNone end)) (assigned c)).
Definition ex_heap (lu : value Z) : heap Z := fun a =>
  match a with
  | 0 => Some (fill [("data", VRef 1); ("trainer", VRef 2); ("prior", VRef 3); ("likelihood", VRef 4); ("kv", VRef 5); ("marginal_likelihood", VRef 6); ("posterior", VRef 7)] CGP)
  | 1 => Some (fill [("x_data", VData 11%Z); ("y_data", VData 12%Z); ("dask_client", VBad); ("args", VDict [("a", VData 2%Z)])] CData)
  | 2 => Some (fill [("data", VRef 1); ("hyperparameters", VData 13%Z); ("bo_info", VDict [("surrogate", VBad); ("x", VData 14%Z)])] CTrainer)
  | 3 => Some (fill [("data", VRef 1); ("trainer", VRef 2); ("kernel", VMeth 3 "_default_kernel"); ("K", VData 15%Z); ("x_data_scatter_future", VBad)] CPrior)
  | 4 => Some (fill [("data", VRef 1); ("trainer", VRef 2); ("V", VData 16%Z)] CLik)
  | 5 => Some (fill [("data", VRef 1); ("prior", VRef 3); ("likelihood", VRef 4); ("Chol_factor", VData 17%Z); ("LU_factor", lu); ("Preconditioner_operator", VBad)] CKV)
  | 6 => Some (fill [("data", VRef 1); ("prior", VRef 3); ("likelihood", VRef 4); ("trainer", VRef 2); ("kv", VRef 5)] CML)
  | 7 => Some (fill [("data", VRef 1); ("prior", VRef 3); ("likelihood", VRef 4); ("trainer", VRef 2); ("kv", VRef 5)] CPost)
  | _ => None
  end.
Definition copied (h : heap Z) : heap Z := fun a =>
  match h a with Some o => match getstate o with Ok st => Some (Object (o_cls o) (setstate 0%Z (o_cls o) st)) | Err _ => None end | None => None end.
Lemma rename_id {D} : forall v : value D, rename (fun a => a) v = v.
Proof. fix IH 1. intros [| | | | |l]; try reflexivity. cbn. f_equal. induction l as [|[k v] l IHl]; [reflexivity|]. cbn. rewrite IH, IHl. reflexivity. Qed.
Example pickle_ex : let h := ex_heap VNone in
  sound h 0 /\ pickles h 0 /\ restores 0%Z h 0 (copied h) 0 /\
  read (copied h) (VRef 0) ["kv"; "Chol_factor"] = Some (VData 17%Z) /\
  read (copied h) (VRef 0) ["prior"; "kernel"; "__self__"; "K"] = Some (VData 15%Z) /\
  read (copied h) (VRef 0) ["posterior"; "prior"; "data"] = Some (VRef 1) /\
  read (copied h) (VRef 0) ["trainer"; "bo_info"; "x"] = Some (VData 14%Z) /\
  read (copied h) (VRef 0) ["trainer"; "bo_info"; "surrogate"] = None /\
  read (copied h) (VRef 0) ["data"; "dask_client"] = Some VNone.
Proof.
cbv zeta.
assert (C : forall a o, ex_heap VNone a = Some o -> complete o).
{ intros a o E. do 8 (destruct a as [|a]; [injection E as <-; split; cbn [o_dict fill o_cls]; [apply nodupb_ok; vm_compute; reflexivity|intros k; unfold fill; cbn [o_dict]; rewrite map_map, map_id; reflexivity]|]). discriminate. }
assert (X : forall a, reached (ex_heap VNone) 0 a -> a < 8).
{ induction 1 as [|a o k v b R IH H I B]; [lia|].
  assert (Y : forallb (fun a => match ex_heap VNone a with Some o => forallb (fun e => forallb (fun b => Nat.ltb b 8) (refs (snd e))) (o_dict o) | None => true end) (seq 0 8) = true) by (vm_compute; reflexivity).
  rewrite forallb_forall in Y. specialize (Y a ltac:(apply in_seq; lia)). rewrite H in Y. rewrite forallb_forall in Y. specialize (Y _ I). rewrite forallb_forall in Y. apply Nat.ltb_lt, Y, B. }
assert (S : sound (ex_heap VNone) 0).
{ intros a R. apply X in R. destruct (ex_heap VNone a) as [o|] eqn:H; [exists o; split; [reflexivity|exact (C a o H)]|]. do 8 (destruct a as [|a]; [discriminate|]). lia. }
split; [exact S|]. split.
{ apply clean_pickles; [exact S|]. intros a o V H k v I L.
  do 8 (destruct a as [|a]; [injection H as <-; cbn in I; repeat (destruct I as [I|I]; [injection I as <- <-;
    first [left; reflexivity|discriminate L|right; split; [reflexivity|]; split; [reflexivity|]; exists [("surrogate", VBad); ("x", VData 14%Z)], VBad; split; [reflexivity|]; split; [reflexivity|]; split; [discriminate|];
      intros k' w [[= <- <-]|[[= <- <-]|[]]]; [contradiction|reflexivity]]|]); contradiction|]); discriminate. }
split.
{ exists (fun a => a). split; [reflexivity|]. split; [auto|]. intros a o st V H G. unfold copied. rewrite H, G. do 3 f_equal. symmetry. rewrite <- map_id. apply map_ext. intros [k v]; cbn. rewrite rename_id. reflexivity. }
repeat split; vm_compute; reflexivity.
Qed.
Example sparse_lu_ex : ~ pickles (ex_heap VBad) 0.
Proof.
eapply sparse_lu_pickle_refuted; try reflexivity.
- split; [apply nodupb_ok; vm_compute; reflexivity|]. intros k. unfold fill; cbn [o_dict o_cls]. rewrite map_map, map_id. reflexivity.
- split; [apply nodupb_ok; vm_compute; reflexivity|]. intros k. unfold fill; cbn [o_dict o_cls]. rewrite map_map, map_id. reflexivity.
Qed.
