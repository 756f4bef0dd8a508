(** Model of how the GGMP builds and trains its component GPs.  /repo/fvgp/ggmp.py: _normalize_gp_kwargs 240-266, choice of the devices in initGPs
    275-346, _safe_gp_init 356-379, _make_component_gp 384-436, _gpu_device 468-500, train_gp_mcmc_until_converged 2089-2148,
    train_component_gps_mcmc 2159-2298.

    The GP constructor, the training of a GP, the CUDA libraries and the body of a with statement are oracles; numbers are real, sizes
    integers.  Logging, printing, the BLAS thread limits, the warning filters and the files with traces are left out.  No proofs here. *)
From Coq Require Import Reals String Ascii.
From Verif Require Import Model.Prelude.
Local Open Scope R_scope.

(** ** _gpu_device 468-500 as a generator under contextlib.contextmanager *)
Inductive exn := Exc (n : nat) | Base (n : nat) | DidNotYield | DidNotStop | DidNotStopAfterThrow | GenExit.
(** except Exception catches it: the three RuntimeErrors of contextlib, but not KeyboardInterrupt and its like, nor GeneratorExit *)
Definition caught (e : exn) : bool := match e with Base _ | GenExit => false | _ => true end.
Record devices := { torch_dev : Z; cupy_dev : Z }.
(** a generator that owns the devices between the yields: it stops, raises, or yields and waits for a resumption or an exception *)
Inductive gen := Stops (s : devices) | Raises (s : devices) (e : exn) | Yields (s : devices) (k : devices -> option exn -> gen).
Inductive engine := Torch | Cupy | Auto | OtherEngine.       (* self._gpu_engine; Auto is None *)
Section Device.
(** [torch], [cupy]: number of devices if the library is importable and answers *)
Context (torch cupy : option Z).
Definition usable (lib : option Z) (d : Z) : bool := match lib with Some n => (0 <=? d)%Z && (d <? n)%Z | None => false end.
Definition set_torch (s : devices) (d : Z) := {| torch_dev := d; cupy_dev := cupy_dev s |}.
Definition set_cupy (s : devices) (d : Z) := {| torch_dev := torch_dev s; cupy_dev := d |}.
(** 500: the last yield *)
Definition last_yield (s : devices) : gen := Yields s (fun s' r => match r with None => Stops s' | Some e => Raises s' e end).
(** the try block of a library: switch, yield, switch back in the finally block; [rest] is what follows except Exception: pass *)
Definition try_block (lib : option Z) (get : devices -> Z) (set : devices -> Z -> devices) (d : Z) (rest : devices -> gen) (s : devices) : gen :=
  if usable lib d then
    let prev := get s in
    Yields (set s d) (fun s' r => match r with
      | None => Stops (set s' prev)
      | Some e => if caught e then rest (set s' prev) else Raises (set s' prev) e
      end)
  else rest s.
Definition gpu_device (eng : engine) (device_id : option Z) (s : devices) : gen :=
  match device_id with
  | None => last_yield s
  | Some d =>
      let cupy_part s := match eng with Cupy | Auto => try_block cupy cupy_dev set_cupy d last_yield s | _ => last_yield s end in
      match eng with Torch | Auto => try_block torch torch_dev set_torch d cupy_part s | _ => cupy_part s end
  end.
End Device.
(** with statement over a @contextmanager generator (contextlib, PEP 343): devices at the end, exception that leaves the statement, devices seen by the body *)
Definition close (g : gen) : devices :=
  match g with
  | Stops s => s | Raises s _ => s
  | Yields s k => match k s (Some GenExit) with Stops s' => s' | Raises s' _ => s' | Yields s' _ => s' end
  end.
Definition with_stmt (g : gen) (body : devices -> devices * option exn) : devices * option exn * option devices :=
  match g with
  | Stops s => (s, Some DidNotYield, None)
  | Raises s e => (s, Some e, None)
  | Yields s k =>
      let '(s1, r) := body s in
      match k s1 r, r with
      | Stops s2, _ => (s2, None, Some s)                          (* no exception, or the generator swallowed it *)
      | Raises s2 e, _ => (s2, Some e, Some s)
      | Yields _ _ as g', None => (close g', Some DidNotStop, Some s)
      | Yields _ _ as g', Some _ => (close g', Some DidNotStopAfterThrow, Some s)
      end
  end.

(** ** train_gp_mcmc_until_converged 2112-2148 *)
Definition vec := list R.
Fixpoint sumsq (v : vec) : R := match v with [] => 0 | x :: r => x * x + sumsq r end.
Definition norm (v : vec) : R := sqrt (sumsq v).
Definition vsub (v w : vec) : vec := map (fun p => fst p - snd p) (combine v w).
Definition rel_change (new old : vec) : R := norm (vsub new old) / (norm old + / 1000000000000).
Record hentry := { h_iters : Z; h_rel : R; h_hps : vec }.
Inductive outcome := Done (hps : vec) (hist : list hentry) | Failed (hist : list hentry) | OutOfFuel.
Section Converge.
(** [train i h]: hyperparameters of the GP after the i-th call of gp.train, started at h; None: it raises *)
Context (train : nat -> vec -> option vec) (chunk max_total patience : Z) (tol : R).
Fixpoint mcmc_loop (fuel : nat) (total stable : Z) (hps : vec) (hist : list hentry) : outcome :=
  match fuel with
  | O => OutOfFuel
  | S f =>
      if (total <? max_total)%Z then
        match train (length hist) hps with
        | None => Failed hist
        | Some new =>
            let rel := rel_change new hps in
            let total' := (total + chunk)%Z in
            let stable' := if Rlt_dec rel tol then (stable + 1)%Z else 0%Z in
            let hist' := hist ++ [{| h_iters := total'; h_rel := rel; h_hps := new |}] in
            if (patience <=? stable')%Z then Done new hist' else mcmc_loop f total' stable' new hist'
        end
      else Done hps hist
  end.
End Converge.
(** 2112-2114: the three sizes are made positive first *)
Definition until_converged (train : nat -> vec -> option vec) (chunk max_total patience : Z) (tol : R) (fuel : nat) (init : vec) : outcome :=
  let chunk := Z.max chunk 1 in let max_total := Z.max max_total chunk in let patience := Z.max patience 1 in
  mcmc_loop train chunk max_total patience tol fuel 0 0 init [].

(** ** the loop over the components, 2261-2289.  [one k]: what the training of component k ends with; the GPs share nothing *)
Section Components.
Context {E V : Type} (one : nat -> res E V).
Fixpoint train_in_order (ks : list nat) : res E (list V) :=
  match ks with
  | [] => Ok []
  | k :: r => match one k with Err e => Err e | Ok v => match train_in_order r with Err e => Err e | Ok vs => Ok (v :: vs) end end
  end.
(** 2272-2276: results in the order of completion; the first exception that turns up is raised *)
Fixpoint gather (done : list nat) (results : list (nat * V)) : res E (list (nat * V)) :=
  match done with
  | [] => Ok results
  | k :: r => match one k with Err e => Err e | Ok v => gather r ((k, v) :: results) end
  end.
Fixpoint lookup (k : nat) (results : list (nat * V)) : option V :=
  match results with [] => None | (j, v) :: r => if (j =? k)%nat then Some v else lookup k r end.
Fixpoint read_all (results : list (nat * V)) (ks : list nat) : option (list V) :=
  match ks with
  | [] => Some []
  | k :: r => match lookup k results, read_all results r with Some v, Some vs => Some (v :: vs) | _, _ => None end
  end.
(** [done]: the order of completion; None: KeyError at 2279 *)
Definition train_components (parallel : bool) (K : nat) (done : list nat) : res E (option (list V)) :=
  if parallel && (1 <? K)%nat then
    match gather done [] with Err e => Err e | Ok results => Ok (read_all results (seq 0 K)) end
  else match train_in_order (seq 0 K) with Err e => Err e | Ok vs => Ok (Some vs) end.
End Components.
(** 2262-2263 *)
Definition workers (gp_workers : option Z) (K : Z) : Z := Z.max 1 (Z.min K (match gp_workers with Some w => w | None => K end)).
(** 2201-2205: round robin; None: no device *)
Definition device_of (devs : option (list Z)) (k : nat) : option Z :=
  match devs with Some (d :: r) => Some (nth (k mod length (d :: r)) (d :: r) 0%Z) | _ => None end.

(** ** keyword arguments *)
Definition dict (V : Type) := list (string * V).
Fixpoint get {V} (k : string) (d : dict V) : option V := match d with [] => None | (j, v) :: r => if String.eqb j k then Some v else get k r end.
Definition has_key {V} (k : string) (d : dict V) : bool := match get k d with Some _ => true | None => false end.
Fixpoint put {V} (k : string) (v : V) (d : dict V) : dict V :=
  match d with [] => [(k, v)] | (j, w) :: r => if String.eqb j k then (j, v) :: r else (j, w) :: put k v r end.
Definition setdefault {V} (k : string) (v : V) (d : dict V) : dict V := if has_key k d then d else d ++ [(k, v)].
Fixpoint pop {V} (k : string) (d : dict V) : dict V := match d with [] => [] | (j, v) :: r => if String.eqb j k then r else (j, v) :: pop k r end.
(** {**d, **e} *)
Definition update {V} (d e : dict V) : dict V := fold_left (fun d p => put (fst p) (snd p) d) e d.

(** *** 240-346: the compute devices.  The other keyword arguments play no part; values of args are strings here *)
Definition device_keys : list string :=
  ["random_logdet_lanczos_compute_device"; "Chol_factor_compute_device"; "update_Chol_factor_compute_device"; "Chol_solve_compute_device"; "Chol_logdet_compute_device"]%string.
Definition lower_char (c : ascii) : ascii := let n := nat_of_ascii c in if (65 <=? n)%nat && (n <=? 90)%nat then ascii_of_nat (n + 32) else c.
Fixpoint lower (s : string) : string := match s with EmptyString => EmptyString | String c r => String (lower_char c) (lower r) end.
Definition is_gpu (o : option string) : bool := match o with Some s => String.eqb (lower s) "gpu" | None => false end.
Record gkw := { kw_device : option string; kw_args : dict string }.       (* compute_device, args *)
Definition normalize_kwargs (k : gkw) : gkw :=
  match kw_device k with
  | None => k
  | Some dev => {| kw_device := Some dev; kw_args := fold_left (fun a key => setdefault key dev a) device_keys (kw_args k) |}
  end.
Inductive request := NoRequest | AutoIds | Ids (l : list Z).               (* gp_device_ids *)
Definition zrange (n : Z) : list Z := map Z.of_nat (seq 0 (Z.to_nat n)).
(** [n_gpu]: what _gpu_count returns; result: keyword arguments for the GPs and _effective_gp_device_ids *)
Definition choose_devices (k : gkw) (req : request) (n_gpu : Z) : gkw * option (list Z) :=
  let k := normalize_kwargs k in
  if existsb (fun key => is_gpu (get key (kw_args k))) device_keys then
    if (0 <? n_gpu)%Z then
      (k, Some match req with
               | NoRequest => [0%Z]
               | AutoIds => zrange n_gpu
               | Ids l => match filter (fun i => (0 <=? i)%Z && (i <? n_gpu)%Z) l with [] => [0%Z] | ids => ids end
               end)
    else
      let cpu a key := if is_gpu (get key a) then put key "cpu"%string a else a in
      ({| kw_device := Some "cpu"%string; kw_args := fold_left cpu device_keys (kw_args k) |}, None)
  else (k, None).

(** *** 356-441: the constructor calls of one component *)
Section Build.
Context {V G X : Type}.
(** what GP(x, y, hps, **kwargs) does: a GP, a TypeError naming an unexpected keyword, or another exception *)
Inductive ctor := Built (g : G) | Unexpected (key : string) | Other (e : X).
Context (construct : dict V -> ctor).
Inductive built := Gp (g : G) (kwargs : dict V) (removed : list string) | Alias (removed : list string) | BuildErr (e : option X) | BuildFuel.  (* BuildErr None: the TypeError is raised again *)
Fixpoint safe_init (fuel : nat) (kwargs : dict V) (required removed : list string) : built :=
  match fuel with
  | O => BuildFuel
  | S f =>
      match construct kwargs with
      | Built g => Gp g kwargs removed
      | Unexpected bad =>
          if existsb (String.eqb bad) required then Alias (removed ++ [bad])
          else if has_key bad kwargs then safe_init f (pop bad kwargs) required (removed ++ [bad])
          else BuildErr None
      | Other e => BuildErr (Some e)
      end
  end.
(** 407-407, 414-415: the names in the signature first *)
Definition order_keys (signature : option (list string)) (keys : list string) : list string :=
  match signature with
  | None => keys
  | Some s => let known := fun k => existsb (String.eqb k) s in filter known keys ++ filter (fun k => negb (known k)) keys
  end.
Definition tries (signature : option (list string)) (keys : list string) (f : option V) : list (dict V) :=
  match f with None => [[]] | Some f => map (fun k => [(k, f)]) (order_keys signature keys) ++ [[]] end.
Definition kernel_keys : list string := ["kernel_function"; "gp_kernel_function"; "kernel"]%string.
Definition mean_keys : list string := ["prior_mean_function"; "prior_mean"; "mean_function"]%string.
Definition keys_of (d : dict V) : list string := map fst d.
Fixpoint first_built (combos : list (dict V * dict V)) (base gp_kwargs : dict V) : built :=
  match combos with
  | [] => let kw := update base gp_kwargs in safe_init (S (length kw)) kw [] []
  | (kk, mk) :: r =>
      let kw := update (update (update base kk) mk) gp_kwargs in
      match safe_init (S (length kw)) kw (keys_of kk ++ keys_of mk) [] with
      | Alias _ => first_built r base gp_kwargs
      | b => b
      end
  end.
Definition make_component (signature : option (list string)) (noise : V) (kernel mean : option V) (gp_kwargs : dict V) : built :=
  let base := [("noise_variances"%string, noise)] in
  let filtered := match signature with Some s => filter (fun p => existsb (String.eqb (fst p)) s) gp_kwargs | None => gp_kwargs end in
  first_built (flat_map (fun kk => map (fun mk => (kk, mk)) (tries signature mean_keys mean)) (tries signature kernel_keys kernel)) base filtered.
End Build.
Arguments ctor : clear implicits.
Arguments built : clear implicits.
