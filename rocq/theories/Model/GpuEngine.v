(** Which GPU a linear-algebra call runs on.  /repo/fvgp/gp_lin_alg.py: _normalize_args 65-66, _torch_gpu_device 69-100,
    _cupy_gpu_available and _cupy_device_count_positive 104-117, gpu_engine_unavailable_reason 124-145, get_gpu_engine 148-181;
    /repo/fvgp/gp_marginal_likelihood.py 274 and 300 (the calls of solve without args).  No proofs here.

    Simplifications: the machine is a record of what the probed packages answer, and it does not change during a call.
    args["GPU_engine"] and args["GPU_device"] are strings (str() of them), GPU_device_index an integer.  torch.device(s) is
    the parameter [parse]; torch.device("cuda:i") raises for i < 0.  Importing torch succeeds if it is found. *)
From Coq Require Import String.
From Verif Require Import Model.Prelude Model.LinalgCfg.
Local Open Scope nat_scope.
Local Open Scope string_scope.

(** torch.device(...): its type and, if given, its index; [Other]: cpu and all further types *)
Inductive kind := Cuda | Mps | Other.
Record device := Device { d_kind : kind; d_index : option Z }.
Record machine := Machine {
  torch_found : bool;                   (* importlib.util.find_spec("torch") is not None *)
  parse : string -> option device;      (* torch.device; None: it raises *)
  cuda_available : bool; cuda_count : nat; cuda_current : nat;
  mps_backend : bool; mps_available : bool;
  cupy_found : bool;
  cupy_count : option nat               (* getDeviceCount(); None: importing or asking raises *)
}.
Record gargs := GArgs { g_engine : option string; g_device : option string; g_index : option Z }.
(** args=None, 65-66 *)
Definition no_args : gargs := GArgs None None None.

Inductive gexn := BadDevice.
Inductive engine := Torch | Cupy.

(** 69-100 *)
Definition torch_gpu_device (m : machine) (a : gargs) : res gexn (option device) :=
  if torch_found m then
    match g_device a with
    | Some s =>
      match parse m s with
      | None => Ok None
      | Some d =>
        match d_kind d with
        | Cuda => Ok (if cuda_available m then Some d else None)
        | Mps => Ok (if mps_backend m && mps_available m then Some d else None)
        | Other => Ok (Some d)
        end
      end
    | None =>
      if cuda_available m then
        let i := match g_index a with
                 | Some i => i
                 | None => if Nat.ltb 0 (cuda_count m) then Z.of_nat (cuda_current m) else 0%Z end in
        if (i <? 0)%Z then Err BadDevice else Ok (Some (Device Cuda (Some i)))
      else if mps_backend m && mps_available m then Ok (Some (Device Mps None))
      else Ok None
    end
  else Ok None.

(** 104-117 *)
Definition cupy_gpu_available (m : machine) : bool :=
  if cupy_found m then match cupy_count m with Some n => Nat.ltb 0 n | None => false end else false.

(** 121 *)
Definition engine_of (s : string) : option engine :=
  if String.eqb (lower s) "torch" then Some Torch
  else if String.eqb (lower s) "pytorch" then Some Torch
  else if String.eqb (lower s) "cupy" then Some Cupy else None.

Inductive reason := Unsupported | NotInstalled | NoDevice.
(** 124-145; None: the engine can be used *)
Definition unavailable_reason (m : machine) (s : string) (a : gargs) : res gexn (option reason) :=
  match engine_of s with
  | None => Ok (Some Unsupported)
  | Some Torch =>
    if torch_found m then
      match torch_gpu_device m a with
      | Err e => Err e
      | Ok None => Ok (Some NoDevice)
      | Ok (Some _) => Ok None
      end
    else Ok (Some NotInstalled)
  | Some Cupy =>
    if cupy_found m then Ok (if cupy_gpu_available m then None else Some NoDevice) else Ok (Some NotInstalled)
  end.

Inductive warning := WRequested (r : reason) | WNoBackend.
(** 148-181; the engine and the warnings issued *)
Definition get_gpu_engine (m : machine) (a : gargs) : res gexn (option engine * list warning) :=
  match g_engine a with
  | Some s =>
    match unavailable_reason m s a with
    | Err e => Err e
    | Ok None => Ok (engine_of s, [])
    | Ok (Some r) => Ok (None, [WRequested r])
    end
  | None =>
    match torch_gpu_device m a with
    | Err e => Err e
    | Ok (Some _) => Ok (Some Torch, [])
    | Ok None => if cupy_gpu_available m then Ok (Some Cupy, []) else Ok (None, [WNoBackend])
    end
  end.

(** Where the arrays of a call live (e.g. 246-257): torch gets the device chosen above, cupy arrays go to cupy's current
    device, which fvGP never sets (device 0); without an engine numpy computes on the CPU. *)
Inductive place := OnTorch (d : device) | OnCupy | OnCpu.
Definition place_of (m : machine) (a : gargs) : res gexn (place * list warning) :=
  match get_gpu_engine m a with
  | Err e => Err e
  | Ok (Some Torch, w) =>
    match torch_gpu_device m a with
    | Err e => Err e
    | Ok (Some d) => Ok (OnTorch d, w)
    | Ok None => Ok (OnTorch (Device Other None), w)   (* device=None: torch's default device *)
    end
  | Ok (Some Cupy, w) => Ok (OnCupy, w)
  | Ok (None, w) => Ok (OnCpu, w)
  end.

(** The operations of a training step with compute_device = "gpu": factorizations and solves get the GP's args, the
    gradient's solve (gp_marginal_likelihood.py 274, 300) does not. *)
Inductive call := Likelihood | Gradient.
Definition call_args (a : gargs) (c : call) : gargs := match c with Likelihood => a | Gradient => no_args end.
Definition call_place (m : machine) (a : gargs) (c : call) := place_of m (call_args a c).
