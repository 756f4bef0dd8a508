(** What a user reads off a GP and its copy. *)
From Coq Require Import String.
From Verif Require Import Model.Prelude Model.Pickle.
Open Scope string_scope.

Section PickleSpec.
Context {D : Type}.
(** follow attributes and dictionary keys; __self__ of a bound method is its object *)
Fixpoint read (h : heap D) (v : value D) (p : list string) : option (value D) :=
  match p with
  | [] => Some v
  | k :: p' =>
      match v with
      | VRef a => match h a with
                  | Some o => match get (o_dict o) k with Some w => read h w p' | None => None end
                  | None => None end
      | VMeth a _ => if String.eqb k "__self__" then read h (VRef a) p' else None
      | VDict l => match get l k with Some w => read h w p' | None => None end
      | _ => None
      end
  end.
(** what does not survive: the Dask client, the future on the workers, the preconditioner, the surrogate of the last Bayesian optimization *)
Definition lost (c : cls) (k : string) : bool :=
  match c with
  | CData => String.eqb k "dask_client"
  | CPrior => String.eqb k "x_data_scatter_future"
  | CKV => String.eqb k "Preconditioner_factor" || String.eqb k "Preconditioner_operator"
  | _ => false
  end.
Definition past_surrogate (c : cls) (k : string) (w : value D) (p : list string) : Prop :=
  match c with
  | CTrainer => k = "bo_info" -> match w with
                                 | VDict l => (match get l "surrogate" with None | Some VNone => True | _ => False end) \/ exists k' p', p = k' :: p' /\ k' <> "surrogate"
                                 | _ => True end
  | _ => True
  end.
Fixpoint avoids (h : heap D) (v : value D) (p : list string) : Prop :=
  match p with
  | [] => True
  | k :: p' =>
      match v with
      | VRef a => match h a with
                  | Some o => lost (o_cls o) k = false /\
                      match get (o_dict o) k with Some w => past_surrogate (o_cls o) k w p' /\ avoids h w p' | None => True end
                  | None => True end
      | VMeth a _ => if String.eqb k "__self__" then avoids h (VRef a) p' else True
      | VDict l => match get l k with Some w => avoids h w p' | None => True end
      | _ => True
      end
  end.
(** every object that can be reached has the attributes its class assigns, each once *)
Inductive reached (h : heap D) (r : nat) : nat -> Prop :=
| reach_root : reached h r r
| reach_ref a o k v b : reached h r a -> h a = Some o -> In (k, v) (o_dict o) -> In b (refs v) -> reached h r b.
Definition complete (o : object D) : Prop :=
  NoDup (map fst (o_dict o)) /\ forall k, In k (map fst (o_dict o)) <-> In k (assigned (o_cls o)).
Definition sound (h : heap D) (r : nat) : Prop := forall a, reached h r a -> exists o, h a = Some o /\ complete o.
(** unpicklable things only where they are dropped *)
Definition clean (o : object D) : Prop :=
  forall k v, In (k, v) (o_dict o) -> lost (o_cls o) k = false ->
    picklable v = true \/ (o_cls o = CTrainer /\ k = "bo_info" /\ exists l s, v = VDict l /\ get l "surrogate" = Some s /\ s <> VNone /\
                           forall k' w, In (k', w) l -> k' <> "surrogate" -> picklable w = true).
End PickleSpec.
