(** How the linear-algebra functions read their options from args.  /repo/fvgp/gp_lin_alg.py: per-operation devices of
    calculate_Chol_factor 240, update_Chol_factor 272-286, calculate_Chol_solve 295, calculate_Chol_logdet 334;
    _resolve_krylov_mode 937-952, _resolve_krylov_maxiter 955-963, calculate_random_logdet 1128-1156,
    calculate_sparse_minres 1191-1197, calculate_sparse_conj_grad 1222-1245.  No proofs here.

    Values as in Model/LinalgCfg.v; an option handed on unread is kept as the value it is. *)
From Coq Require Import String QArith.
From Verif Require Import Model.Prelude Model.LinalgCfg.
Local Open Scope nat_scope.
Local Open Scope string_scope.

(** args.get(k, v) *)
Definition get (d : dict) (k : string) (v : aval) : aval := match dget d k with Some w => w | None => v end.
(** bool(v) *)
Definition truthy (v : aval) : bool :=
  match v with
  | VNone => false | VBool b => b | VInt z => negb (Z.eqb z 0) | VFloat q => negb (Qeq_bool q 0) | VStr s => negb (String.eqb s "")
  | VObj _ => true end.
Definition tol0 : aval := VFloat (1 # 100000).

Section Opts.
  Variable pystr : aval -> string.
  (** 937-952; true: block *)
  Definition krylov_mode (d : dict) : res lexn bool :=
    if truthy (get d "sparse_block_krylov" (VBool false)) then Ok true else
    let mode := lower (to_str pystr (get d "sparse_krylov_mode" (VStr "single"))) in
    if String.eqb mode "single" then Ok false else if String.eqb mode "columnwise" then Ok false
    else if String.eqb mode "block" then Ok true else if String.eqb mode "block_cg" then Ok true else Err EType.
  (** 955-963 *)
  Definition as_limit (v : aval) : res lexn (option Z) :=
    match v with VNone => Ok None | _ => match to_int v with Ok z => Ok (Some z) | Err e => Err e end end.
  Definition krylov_maxiter (d : dict) (solver_key : string) : res lexn (option Z) :=
    match dget d solver_key with
    | Some v => as_limit v
    | None => match dget d "sparse_krylov_maxiter" with Some v => as_limit v | None => Ok None end
    end.
  (** 1191-1197 *)
  Definition minres_tol (d : dict) : aval := match dget d "sparse_minres_tol" with Some v => v | None => tol0 end.
  Definition minres_maxiter (d : dict) := krylov_maxiter d "sparse_minres_maxiter".
  (** 1225-1236 *)
  Definition cg_tol (d : dict) : aval :=
    match dget d "sparse_cg_tol" with
    | Some v => v
    | None => match dget d "cg_minres_tol" with
              | Some v => v
              | None => match dget d "sparse_minres_tol" with Some v => v | None => tol0 end end
    end.
  Definition cg_maxiter (d : dict) := krylov_maxiter d "sparse_cg_maxiter".
  (** 1243-1244, for k columns *)
  Definition cg_block_size (d : dict) (k : Z) : res lexn Z :=
    match to_int (get d "sparse_krylov_block_size" (VInt k)) with Ok b => Ok (Z.max 1 (Z.min b k)) | Err e => Err e end.
  (** 1132-1156: the settings handed to imate; [dev] is the GP's compute_device, [gpu_seen] what imate reports *)
  Record slq := Slq { s_degree : aval; s_rtol : aval; s_verbose : aval; s_min : aval; s_max : aval; s_gpu : bool }.
  Definition logdet_settings (dev : string) (gpu_seen : bool) (d : dict) : slq :=
    Slq (get d "random_logdet_lanczos_degree" (VInt 20)) (get d "random_logdet_error_rtol" (VFloat (1 # 100)))
        (get d "random_logdet_verbose" (VBool false)) (get d "random_logdet_min_num_samples" (VInt 10))
        (get d "random_logdet_max_num_samples" (VInt 5000)) (String.eqb dev "gpu" && gpu_seen).
  (** the device of a Cholesky operation *)
  Inductive cop := CFactor | CUpdate | CSolve | CLogdet.
  Definition chol_device (dev : string) (d : dict) (o : cop) : aval :=
    match o with
    | CFactor => get d "Chol_factor_compute_device" (VStr dev)
    | CUpdate => VStr "cpu"
    | CSolve => get d "Chol_solve_compute_device" (VStr dev)
    | CLogdet => get d "Chol_logdet_compute_device" (VStr dev)
    end.
End Opts.
