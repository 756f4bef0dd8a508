(** C178: copies of a GGMP. *)
From Coq Require Import String List Bool.
From Verif Require Import Model.Copying.
Import ListNotations.
Local Open Scope string_scope.

(** fields are ordinary names: none of them is one of the protocol's *)
Definition ordinary {V} (l : list (string * V)) : Prop :=
  forall n, In n ["__getstate__"; "__setstate__"; "__deepcopy__"] -> find (fun kv => String.eqb (fst kv) n) l = None.
(** a copy agrees with the original on every field, values up to [f] *)
Definition same_fields {V} (f : V -> V) (o : obj V) (c : value V) : Prop :=
  exists o', c = Object o' /\ permissive o' = permissive o /\ methods o' = methods o /\ forall n, get o' n = option_map f (get o n).

Lemma get_dup : forall V (f : V -> V) l n, option_map snd (find (fun kv => String.eqb (fst kv) n) (dup_fields V f l)) = option_map f (option_map snd (find (fun kv : string * V => String.eqb (fst kv) n) l)).
Proof. intros V f l n. induction l as [|[k v] l IH]; [reflexivity|]. cbn. destruct (String.eqb k n); [reflexivity|exact IH]. Qed.

(** False for a GGMP, whatever it contains: deepcopy returns None, copy.copy and a round trip through pickle return a GGMP without any field, whose
    attributes all read as a function that does nothing. *)
Theorem ggmp_copies_refuted : forall V (dup : V -> V) py311 l, ordinary l ->
  deepcopy dup py311 (ggmp l) = NoneV /\ copy_copy py311 (ggmp l) = Object (ggmp []) /\ pickled dup py311 (ggmp l) = Object (ggmp []) /\
  attribute (of_object py311) (ggmp (V := V) []) "likelihood_terms" = Ignore /\
  (l <> [] -> ~ same_fields (fun v => v) (ggmp l) (copy_copy py311 (ggmp l)) /\ ~ same_fields dup (ggmp l) (pickled dup py311 (ggmp l)) /\
    ~ same_fields dup (ggmp l) (deepcopy dup py311 (ggmp l))).
Proof.
  intros V dup py l O.
  assert (D : deepcopy dup py (ggmp l) = NoneV).
  { unfold deepcopy, attribute, get, ggmp; cbn [fields]. rewrite (O "__deepcopy__") by (cbn; auto). destruct py; reflexivity. }
  assert (C : copy_copy py (ggmp l) = Object (ggmp [])).
  { unfold copy_copy, rebuild, state_of, attribute, get, ggmp; cbn [fields]. rewrite (O "__getstate__") by (cbn; auto). destruct py; reflexivity. }
  assert (P : pickled dup py (ggmp l) = Object (ggmp [])).
  { unfold pickled, rebuild, state_of, attribute, get, ggmp; cbn [fields]. rewrite (O "__getstate__") by (cbn; auto). destruct py; reflexivity. }
  split; [exact D|]. split; [exact C|]. split; [exact P|]. split; [destruct py; reflexivity|]. intros N. rewrite D, C, P.
  assert (G : forall f, ~ same_fields f (ggmp l) (Object (ggmp []))).
  { intros f (o' & E & _ & _ & H). injection E as <-. destruct l as [|[k v] l]; [congruence|]. specialize (H k). unfold get, ggmp in H. cbn [fields find fst] in H. rewrite String.eqb_refl in H. discriminate. }
  repeat match goal with |- _ /\ _ => split end; auto. intros (o' & E & _). discriminate.
Qed.
Print Assumptions ggmp_copies_refuted.

(** True for the objects around it, which have no __getattr__, in every version. *)
Theorem ggmp_copies_partial : forall V (dup : V -> V) py311 l o, ordinary l -> o = hyperparameters l \/ o = normal_likelihood l ->
  same_fields (fun v => v) o (copy_copy py311 o) /\ same_fields dup o (pickled dup py311 o) /\ same_fields dup o (deepcopy dup py311 o).
Proof.
  intros V dup py l o O H.
  assert (I : forall x : option V, option_map (fun v => v) x = x) by (intros [x|]; reflexivity).
  destruct H as [-> | ->]; repeat match goal with |- _ /\ _ => split end;
    unfold copy_copy, pickled, deepcopy, rebuild, state_of, attribute, get, hyperparameters, normal_likelihood; cbn [fields permissive methods];
    rewrite ?(O "__getstate__"), ?(O "__deepcopy__") by (cbn; auto); destruct py; cbn -[find dup_fields];
    (eexists; split; [reflexivity|]; split; [reflexivity|]; split; [reflexivity|]; intros n; unfold get; cbn [fields find option_map]; rewrite ?get_dup, ?I; reflexivity).
Qed.
Print Assumptions ggmp_copies_partial.

Example ggmp_copies_ex : let l := [("likelihood_terms", 5); ("number_of_GPs", 5)] in ordinary l /\
  get (ggmp l) "likelihood_terms" = Some 5 /\ copy_copy true (ggmp l) = Object (ggmp []) /\ copy_copy true (hyperparameters l) = Object (hyperparameters l).
Proof. intros l. split; [intros n [<-|[<-|[<-|[]]]]; reflexivity|]. split; [reflexivity|]. split; reflexivity. Qed.
