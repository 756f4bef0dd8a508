(** Copies of a GGMP and of its helper objects: /repo/fvgp/ggmp.py GGMP.__getattr__ 125-128 (no __getstate__, __setstate__, __copy__,
    __deepcopy__ is defined), hyperparameters 781-859 and NormalLikelihood 862-902 (no __getattr__), under the protocols of the Python
    standard library: copy.copy, copy.deepcopy, pickle.dumps and pickle.loads (protocol 2 or later).

    The protocols, as in Lib/copy.py, Lib/pickle.py and Objects/typeobject.c: __copy__ is looked up in the class, __deepcopy__,
    __getstate__ and __setstate__ with getattr on the object, so that __getattr__ answers for them.  From Python 3.11 on
    ([py311]) object has a method __getstate__.

    Simplifications: an object is its dictionary of fields; the attributes found in a class besides those of object are its methods, none of which
    has one of the names above; values are copied faithfully ([dup] for deepcopy and pickle).  Printing of the message is left out.
    No proofs here. *)
From Coq Require Import String List Bool.
Import ListNotations.
Local Open Scope string_scope.

Section Copying.
  Variable V : Type.
  Variable dup : V -> V.

  (** [permissive]: the class defines the __getattr__ of 125-128 *)
  Record obj := Obj { permissive : bool; methods : list string; fields : list (string * V) }.
  Definition get (o : obj) (n : string) : option V := option_map snd (find (fun kv => String.eqb (fst kv) n) (fields o)).
  (** what reading an attribute gives: a field, a method, the function of __getattr__ that ignores its arguments and returns None, or
      AttributeError *)
  Inductive read := Field (v : V) | Method | Ignore | AttributeError.
  Definition attribute (of_object : list string) (o : obj) (n : string) : read :=
    match get o n with
    | Some v => Field v
    | None => if existsb (String.eqb n) (methods o ++ of_object) then Method else if permissive o then Ignore else AttributeError
    end.
  (** the names object has, as far as they matter here *)
  Definition of_object (py311 : bool) : list string := "__reduce_ex__" :: (if py311 then ["__getstate__"] else []).

  Inductive value := NoneV | Object (o : obj).

  (** object.__reduce_ex__: the state that goes with the class; None if __getstate__ answered None *)
  Definition state_of (py311 : bool) (o : obj) : option (list (string * V)) :=
    match attribute (of_object py311) o "__getstate__" with
    | Ignore => None                                       (* called, returns None *)
    | _ => Some (fields o)
    end.
  (** copy._reconstruct and pickle's load_build: an object of the class without fields, then the state *)
  Definition rebuild (py311 : bool) (o : obj) (state : option (list (string * V))) : obj :=
    let fresh := Obj (permissive o) (methods o) [] in
    match state with
    | None => fresh
    | Some st => match attribute (of_object py311) fresh "__setstate__" with
                 | Ignore => fresh                         (* called with the state, does nothing *)
                 | _ => Obj (permissive o) (methods o) st
                 end
    end.
  Definition dup_fields (l : list (string * V)) : list (string * V) := map (fun kv => (fst kv, dup (snd kv))) l.

  Definition copy_copy (py311 : bool) (o : obj) : value := Object (rebuild py311 o (state_of py311 o)).
  Definition pickled (py311 : bool) (o : obj) : value := Object (rebuild py311 o (option_map dup_fields (state_of py311 o))).
  Definition deepcopy (py311 : bool) (o : obj) : value :=
    match attribute (of_object py311) o "__deepcopy__" with
    | Ignore => NoneV                                      (* called with the memo, returns None *)
    | _ => Object (rebuild py311 o (option_map dup_fields (state_of py311 o)))
    end.
End Copying.
Arguments Obj {V}. Arguments fields {V}. Arguments permissive {V}. Arguments methods {V}. Arguments get {V}. Arguments NoneV {V}. Arguments Object {V}.
Arguments attribute {V}. Arguments copy_copy {V}. Arguments pickled {V}. Arguments deepcopy {V}. Arguments Ignore {V}.

(** the methods of the three classes *)
Definition ggmp_methods : list string :=
  ["__init__"; "__getattr__"; "build_pairwise_data_generating_normals"; "initLikelihoods"; "initGPs"; "_gpu_device"; "_as_float"; "_gp_log_likelihood";
   "_safe_set_hyperparameters"; "train"; "posterior_mean"; "posterior_variance"].
Definition hyperparameters_methods : list string := ["__init__"; "set"; "vectorize_hps"; "devectorize_hps"; "vectorize_bounds"; "devectorize_bounds"].
Definition normal_methods : list string := ["__init__"; "set_moments"; "set_weight"; "unravel"; "ravel"].
Definition ggmp {V} (l : list (string * V)) := Obj true ggmp_methods l.
Definition hyperparameters {V} (l : list (string * V)) := Obj false hyperparameters_methods l.
Definition normal_likelihood {V} (l : list (string * V)) := Obj false normal_methods l.
