(** What is tried and what is advised when a preconditioner cannot be built: the dispatch of calculate_sparse_preconditioner
    (/repo/fvgp/gp_lin_alg.py 898-923), sparse_preconditioner_failure_guidance (440-471) and the warning of
    _build_sparse_preconditioner_or_none (/repo/fvgp/gp_kv.py 339-353).  No proofs here.

    Simplifications: of the warning only the specific sentence is kept (the general ones are the same for everybody); the builders are
    an oracle that may raise; args holds the values of LinalgCfg.v. *)
From Coq Require Import String.
From Verif Require Import Model.Prelude Model.LinalgCfg.
Local Open Scope string_scope.

Inductive advice := AdviseILU | AdviseIC | AdviseBlocks.
Section Guidance.
  Variable pystr : aval -> string.
  Definition type_key : string := "sparse_preconditioner_type".
  (** 900-902: args.get(key, "ilu"), then the table of aliases; None: ValueError *)
  Definition tried (args : dict) : option string :=
    normalize_type (match dget args type_key with Some v => to_str pystr v | None => "ilu" end).
  (** 442-446: args.get(key), then the table of aliases, str() if that raises *)
  Definition advised_type (args : dict) : string :=
    let v := match dget args type_key with Some v => v | None => VNone end in
    match normalize_type (to_str pystr v) with Some t => t | None => to_str pystr v end.
  (** 453-464 *)
  Definition guidance (args : dict) : option advice :=
    let t := advised_type args in
    if String.eqb t "ilu" then Some AdviseILU
    else if String.eqb t "ichol" || String.eqb t "ichol0" then Some AdviseIC
    else if String.eqb t "block_jacobi" || String.eqb t "additive_schwarz" then Some AdviseBlocks
    else None.
  (** 339-353: the operator, or the specific sentence of the warning; [build] a builder, None: it raised *)
  Definition build_or_warn {Op} (build : string -> option Op) (args : dict) : Op + option advice :=
    match (match tried args with Some t => build t | None => None end) with
    | Some op => inl op
    | None => inr (guidance args)
    end.
End Guidance.
