(** Model of pickling a GP: __getstate__ and __setstate__ of GP (/repo/fvgp/gp.py 2253-2266), fvGP (fvgp.py 663-671),
    GPdata (gp_data.py 124-153), GPtraining (gp_training.py 675-691), GPprior (gp_prior.py 477-500), GPlikelihood
    (gp_likelihood.py 146-158), GPkv (gp_kv.py 718-765), GPMarginalLikelihood (gp_marginal_likelihood.py 370-384), GPposterior
    (gp_posterior.py 608-620).

    Objects live on a heap and have a class and a dictionary of attributes.  The pickle library itself is not modelled but
    described: it follows the references in the states that __getstate__ returns, raises if one of them holds something that
    cannot be pickled, and otherwise builds a copy of the object graph, one new object per old one, on which __setstate__ is called.
    No proofs here. *)
From Coq Require Import String.
From Verif Require Import Model.Prelude.
Open Scope string_scope.

Section Pickle.
Context {D : Type}.                       (* arrays, numbers, strings, importable functions, ... *)

Inductive value :=
| VNone | VData (d : D)
| VRef (a : nat)                          (* one of the objects below *)
| VMeth (a : nat) (name : string)         (* a bound method of such an object, e.g. prior._default_kernel *)
| VBad                                    (* Dask clients and futures, SuperLU objects, closures: pickle raises TypeError *)
| VDict (l : list (string * value)).
Inductive cls := CGP | CFvGP | CData | CTrainer | CPrior | CLik | CKV | CML | CPost.
Record object := Object { o_cls : cls; o_dict : list (string * value) }.
Definition heap := nat -> option object.
Definition get (d : list (string * value)) (k : string) : option value := option_map snd (find (fun e => String.eqb k (fst e)) d).

(** the attributes that the classes assign: gp.py 483-564, fvgp.py 504, gp_data.py 29-59, gp_training.py 15-18, gp_prior.py 23-99,
    gp_likelihood.py 15-52, gp_kv.py 101-146 and 422, gp_marginal_likelihood.py 15-23, gp_posterior.py 16-21 *)
Definition assigned (c : cls) : list string :=
  match c with
  | CGP => ["data"; "trainer"; "prior"; "likelihood"; "kv"; "marginal_likelihood"; "posterior"]
  | CFvGP => ["output_num"; "data"; "trainer"; "prior"; "likelihood"; "kv"; "marginal_likelihood"; "posterior"]
  | CData => ["index_set_dim"; "input_set_dim"; "Euclidean"; "x_data"; "y_data"; "noise_variances"; "x_new"; "y_new"; "noise_variances_new";
              "x_old"; "y_old"; "noise_variances_old"; "point_number"; "fvgp_x_data"; "fvgp_y_data"; "fvgp_noise_variances"; "x_out"; "args"; "ram_economy";
              "gp2Scale"; "compute_device"; "dask_client"; "compute_workers"]
  | CTrainer => ["mcmc_info"; "bo_info"; "data"; "hyperparameters"]
  | CPrior => ["kernel_function"; "prior_mean_function"; "batch_size"; "gp2Scale_distribution"; "data"; "trainer"; "k_n_params"; "kernel"; "d_kernel_dx";
               "_dk_dh"; "m_n_params"; "_default_mean"; "mean_function"; "_dm_dh"; "x_data_scatter_future"; "m"; "K"]
  | CLik => ["data"; "trainer"; "v_n_params"; "noise_function"; "noise_function_grad"; "V"]
  | CKV => ["data"; "prior"; "likelihood"; "last_logdet_variance"; "last_logdet_info"; "Preconditioner_fingerprint"; "Warm_start_fingerprint"; "linalg_mode";
            "KVinv"; "KV"; "Chol_factor"; "LU_factor"; "logdet_KV"; "custom_obj"; "cached_solve"; "cached_precond"; "Preconditioner_factor"; "Preconditioner_operator";
            "Preconditioner_signature"; "Preconditioner_KV_shape"; "Preconditioner_reuse_counter"; "Last_preconditioner_error"; "allowed_modes"; "mode"; "KVinvY"]
  | CML => ["data"; "prior"; "likelihood"; "trainer"; "kv"; "_warm_start_KVinvY"]
  | CPost => ["kv"; "prior"; "likelihood"; "data"; "trainer"; "noise_function_available"]
  end.

Inductive pexn := PAttribute (name : string) | PUnpicklable.

(** the attributes that a __getstate__ copies *)
Definition gp_attrs := ["data"; "prior"; "likelihood"; "kv"; "marginal_likelihood"; "trainer"; "posterior"].
Definition kept (c : cls) : list string :=
  match c with
  | CGP => gp_attrs
  | CFvGP => "output_num" :: gp_attrs
  | CData => ["x_data"; "y_data"; "noise_variances"; "Euclidean"; "index_set_dim"; "x_new"; "y_new"; "noise_variances_new"; "x_old"; "y_old";
              "noise_variances_old"; "point_number"; "fvgp_x_data"; "fvgp_y_data"; "fvgp_noise_variances"; "x_out"; "input_set_dim"; "args";
              "ram_economy"; "gp2Scale"; "compute_device"; "compute_workers"]
  | CTrainer => ["data"; "mcmc_info"; "hyperparameters"]
  | CPrior => ["kernel_function"; "prior_mean_function"; "m_n_params"; "k_n_params"; "batch_size"; "gp2Scale_distribution"; "data"; "trainer";
               "kernel"; "d_kernel_dx"; "_dk_dh"; "mean_function"; "_dm_dh"; "m"; "K"; "_default_mean"]
  | CLik => ["data"; "trainer"; "V"; "noise_function"; "noise_function_grad"; "v_n_params"]
  | CKV => ["mode"; "linalg_mode"; "data"; "prior"; "likelihood"; "KVinv"; "KV"; "Chol_factor"; "LU_factor"; "KVinvY"; "cached_solve"; "cached_precond";
            "Preconditioner_signature"; "Preconditioner_KV_shape"; "Preconditioner_reuse_counter"; "Last_preconditioner_error"; "custom_obj";
            "allowed_modes"; "last_logdet_variance"; "last_logdet_info"; "Preconditioner_fingerprint"; "Warm_start_fingerprint"; "logdet_KV"]
  | CML => ["data"; "prior"; "likelihood"; "trainer"; "kv"; "_warm_start_KVinvY"]
  | CPost => ["prior"; "likelihood"; "data"; "trainer"; "noise_function_available"; "kv"]
  end.
(** the attributes that it sets to None *)
Definition nulled (c : cls) : list string :=
  match c with
  | CData => ["dask_client"]
  | CPrior => ["x_data_scatter_future"]
  | CKV => ["Preconditioner_factor"; "Preconditioner_operator"]
  | _ => []
  end.
(** gp_training.py 679-681 *)
Definition bo_state (v : value) : value :=
  match v with
  | VDict l => match get l "surrogate" with
               | None | Some VNone => v
               | Some _ => VDict (filter (fun e => negb (String.eqb "surrogate" (fst e))) l)
               end
  | _ => v
  end.
Fixpoint getattrs (d : list (string * value)) (names : list string) : res pexn (list (string * value)) :=
  match names with
  | [] => Ok []
  | n :: r => match get d n with
              | None => Err (PAttribute n)
              | Some v => match getattrs d r with Ok l => Ok ((n, v) :: l) | Err e => Err e end
              end
  end.
Definition getstate (o : object) : res pexn (list (string * value)) :=
  match getattrs (o_dict o) (kept (o_cls o)) with
  | Err e => Err e
  | Ok l =>
      let l' := (l ++ map (fun n => (n, VNone)) (nulled (o_cls o)))%list in
      match o_cls o with
      | CTrainer => match get (o_dict o) "bo_info" with None => Err (PAttribute "bo_info") | Some v => Ok (("bo_info", bo_state v) :: l') end
      | _ => Ok l'
      end
  end.
(** __dict__.update on a new object, and the defaults of gp_kv.py 754-765 and gp_marginal_likelihood.py 383-384 ([d0]: the number zero) *)
Definition defaults (d0 : D) (c : cls) : list (string * value) :=
  match c with
  | CKV => [("Preconditioner_factor", VNone); ("Preconditioner_operator", VNone); ("Preconditioner_signature", VNone); ("Preconditioner_KV_shape", VNone);
            ("Preconditioner_reuse_counter", VData d0); ("Last_preconditioner_error", VNone); ("Preconditioner_fingerprint", VNone); ("Warm_start_fingerprint", VNone)]
  | CML => [("_warm_start_KVinvY", VNone)]
  | _ => []
  end.
Definition setstate (d0 : D) (c : cls) (st : list (string * value)) : list (string * value) :=
  fold_left (fun d e => match get d (fst e) with Some _ => d | None => (d ++ [e])%list end) (defaults d0 c) st.

(** the references and the unpicklable things in a value *)
Fixpoint refs (v : value) : list nat :=
  match v with VRef a | VMeth a _ => [a] | VDict l => flat_map (fun e => refs (snd e)) l | _ => [] end.
Fixpoint picklable (v : value) : bool :=
  match v with VBad => false | VDict l => forallb (fun e => picklable (snd e)) l | _ => true end.
Fixpoint rename (f : nat -> nat) (v : value) : value :=
  match v with VRef a => VRef (f a) | VMeth a n => VMeth (f a) n | VDict l => VDict (map (fun e => (fst e, rename f (snd e))) l) | _ => v end.

(** what pickle.dumps visits *)
Inductive visited (h : heap) (r : nat) : nat -> Prop :=
| visit_root : visited h r r
| visit_ref a o st k v b : visited h r a -> h a = Some o -> getstate o = Ok st -> In (k, v) st -> In b (refs v) -> visited h r b.
(** it succeeds *)
Definition pickles (h : heap) (r : nat) : Prop :=
  forall a, visited h r a -> exists o st, h a = Some o /\ getstate o = Ok st /\ forall k v, In (k, v) st -> picklable v = true.
(** [h', r'] is what pickle.loads builds from pickle.dumps of [h, r] *)
Definition restores (d0 : D) (h : heap) (r : nat) (h' : heap) (r' : nat) : Prop :=
  exists f, f r = r' /\ (forall a b, visited h r a -> visited h r b -> f a = f b -> a = b) /\
    forall a o st, visited h r a -> h a = Some o -> getstate o = Ok st ->
      h' (f a) = Some (Object (o_cls o) (setstate d0 (o_cls o) (map (fun e => (fst e, rename f (snd e))) st))).
End Pickle.
Arguments value : clear implicits.
Arguments object : clear implicits.
Arguments heap : clear implicits.
