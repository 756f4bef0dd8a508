(** gp.py train 990-1141: what a call of train() asks which optimizer to do; gp_training.py train 53-196 and train_async 226-271:
    what each optimizer is handed; stop_training 474-488, kill_client 492-506 with gp_actor.py AsyncOptimizer 246-256; gp.py
    _get_default_hyperparameter_bounds 752-774; gp_prior.py 44-52, 68-76, 236-240 and gp_likelihood.py 40-51, 96-99 with
    gp_marginal_likelihood.py 244-305: which derivative callables are called how.

    Simplifications: functions are opaque values of types [F], [Gr], [He]; warnings, logging and the settings passed through
    unchanged are left out; the starting point and the effect of the result are in Model/Training.v; HGDL's own methods are
    arguments; that gp2Scale sets a kernel is taken to hold for both compute devices. *)
From Coq Require Import Reals.
From Verif Require Import Model.Prelude Model.Ext Model.Training.
Local Open Scope R_scope.

Inductive meth := MGlobal | MLocal | MHgdl | MMcmc | MAdam | MBo | MCall | MOther.
Definition is_async_method (m : meth) : bool := match m with MHgdl | MMcmc | MAdam | MBo => true | _ => false end.
Definition gp2Scale_method (m : meth) : bool := match m with MMcmc | MBo => true | _ => false end.
Inductive plan_err := PNoClient | PNoBounds | PNeedGradient | PNoMethod.

Section Plan.
Variables F Gr He : Type.
Variables (log_lik neg_log_lik : F) (neg_log_lik_gradient : Gr) (neg_log_lik_hessian : He).

Record request := Req {
  r_method : meth; r_async : bool; r_client : bool;      (* dask_client given *)
  r_bounds : bool;                                       (* hyperparameter_bounds given *)
  r_obj : option F; r_grad : option Gr; r_hess : option He;
  r_accept : bool;                                       (* accept_only_if_improved *)
  r_noise : bool }.                                      (* bo_args has noise_function or noise_variance *)
Record plan := Plan {
  p_method : meth; p_async : bool; p_obj : F; p_grad : Gr; p_hess : He; p_guarded : bool; p_estimator_noise : bool }.

Definition or_else {A} (o : option A) (d : A) : A := match o with Some a => a | None => d end.
Definition given {A} (o : option A) : bool := match o with Some _ => true | None => false end.

(** 990-1086; [gp2] the GP is a gp2Scale GP, [own] it has a client of its own, [dflt] default bounds exist *)
Definition make_plan (gp2 own dflt : bool) (r : request) : res plan_err plan :=
  let asy1 := r_async r && negb gp2 in
  let m := if gp2 && negb (gp2Scale_method (r_method r)) then MMcmc else r_method r in
  let asy := asy1 && is_async_method m in
  if asy && negb (r_client r) && negb own then Err PNoClient
  else if negb (r_bounds r) && negb dflt then Err PNoBounds
  else
    let obj := match m with MMcmc => log_lik | _ => or_else (r_obj r) neg_log_lik end in
    if given (r_obj r) && negb (given (r_grad r)) && match m with MLocal | MHgdl => true | _ => false end then Err PNeedGradient
    else
      let guarded := r_accept r && negb asy && negb (given (r_obj r)) && match m with MCall | MLocal | MHgdl | MAdam => true | _ => false end in
      let noise := match m with MBo => negb (given (r_obj r)) && negb (r_noise r) | _ => false end in
      Ok (Plan m asy obj (or_else (r_grad r) neg_log_lik_gradient) (or_else (r_hess r) neg_log_lik_hessian) guarded noise).

(** what the optimizer receives: objective, gradient, Hessian *)
Record handed := Handed { h_obj : option F; h_grad : option Gr; h_hess : option He }.
(** gp_training.py train *)
Definition run_sync (p : plan) : res plan_err handed :=
  match p_method p with
  | MGlobal => Ok (Handed (Some (p_obj p)) None None)
  | MLocal => Ok (Handed (Some (p_obj p)) (Some (p_grad p)) (Some (p_hess p)))
  | MHgdl => Ok (Handed (Some (p_obj p)) (Some (p_grad p)) (Some (p_hess p)))
  | MMcmc => Ok (Handed (Some (p_obj p)) None None)
  | MAdam => Ok (Handed (Some (p_obj p)) (Some (p_grad p)) None)
  | MBo => Ok (Handed (Some (p_obj p)) None None)
  | MCall => Ok (Handed None None None)
  | MOther => Err PNoMethod
  end.
(** gp_training.py train_async; the assertion of 226-227 as PNoMethod *)
Definition run_async (p : plan) : res plan_err handed :=
  match p_method p with
  | MHgdl => Ok (Handed (Some (p_obj p)) (Some (p_grad p)) (Some (p_hess p)))
  | MMcmc => Ok (Handed (Some (p_obj p)) None None)
  | MAdam => Ok (Handed (Some (p_obj p)) (Some (p_grad p)) None)
  | MBo => Ok (Handed (Some (p_obj p)) None None)
  | _ => Err PNoMethod
  end.
Definition run_plan (p : plan) : res plan_err handed := if p_async p then run_async p else run_sync p.
Definition train (gp2 own dflt : bool) (r : request) : res plan_err (plan * handed) :=
  match make_plan gp2 own dflt r with
  | Err e => Err e
  | Ok p => match run_plan p with Err e => Err e | Ok h => Ok (p, h) end
  end.
End Plan.

(** ** Stopping: the object returned by an asynchronous call *)
Record running := Running { t_runs : bool; t_client_alive : bool }.
Inductive opt_obj := OActor | OHgdl | ONone.    (* AsyncOptimizer; HGDL's object; anything without the methods *)
(** gp_training.py 228-271 with hgdl_async, mcmc_async, adam_async, bo_async *)
Definition returned_by (m : meth) : opt_obj := match m with MHgdl => OHgdl | MMcmc | MAdam | MBo => OActor | _ => ONone end.
Section Stop.
Variables hgdl_cancel hgdl_kill : running -> running.
Definition stop_training (o : opt_obj) (s : running) : running :=
  match o with OActor => Running false (t_client_alive s) | OHgdl => hgdl_cancel s | ONone => s end.
Definition kill_client (o : opt_obj) (s : running) : running :=
  match o with OActor => Running false (t_client_alive s) | OHgdl => hgdl_kill s | ONone => s end.
End Stop.

(** ** Default bounds; [y] all entries of y_data, [cols] the coordinates of x_data *)
Fixpoint rmax_list (a : R) (l : list R) : R := match l with [] => a | b :: l' => Rmax a (rmax_list b l') end.
Fixpoint rmin_list (a : R) (l : list R) : R := match l with [] => a | b :: l' => Rmin a (rmin_list b l') end.
Definition col_range (c : list R) : R := match c with [] => 0 | a :: l => rmax_list a l - rmin_list a l end.
Definition rsuml (l : list R) : R := fold_right Rplus 0 l.
Definition np_mean (l : list R) : R := rsuml l / INR (length l).
Definition np_var (l : list R) : R := np_mean (map (fun v => (v - np_mean l) ^ 2) l).
Inductive bounds_err := BNonEuclidean | BCount.
Definition default_bounds (euclidean : bool) (n_hps : nat) (y : list R) (cols : list (list R)) : res bounds_err (list (R * R)) :=
  if negb euclidean then Err BNonEuclidean
  else if negb (Nat.eqb n_hps (length cols + 1)) then Err BCount
  else Ok ((np_var y / 100, np_var y * 10) :: map (fun c => (col_range c / 100, col_range c * 10)) cols).

(** ** Derivative callables: how many arguments they take, and how they are called *)
Inductive form := Full | Econ.      (* f(x, .., h) returning all components; f(x, .., h, direction) returning one *)
Record setup := Setup {
  u_ram : bool;                      (* ram_economy=True passed by the user *)
  u_kernel : bool;                   (* the user passed a kernel *)
  u_gp2 : bool;                      (* gp2Scale: a missing kernel is replaced by the Wendland kernel before the test of 65-69 *)
  u_kgrad : option form;             (* kernel_function_grad, written in this form *)
  u_noise : bool;                    (* noise_function *)
  u_ngrad : option form }.           (* noise_function_grad *)
(** gp_prior.py 65-76; the likelihood is built afterwards and reads the changed flag *)
Definition ram_in_force (u : setup) : bool :=
  match u_kgrad u with
  | Some _ => u_ram u
  | None => if u_kernel u || u_gp2 u then u_ram u else false
  end.
Definition kernel_form (u : setup) : form :=
  match u_kgrad u with
  | Some f => f
  | None => if u_kernel u || u_gp2 u then (if u_ram u then Econ else Full) else Full
  end.
(** gp_likelihood.py 41-52 *)
Definition noise_form (u : setup) : form :=
  match u_ngrad u with
  | Some f => f
  | None => if ram_in_force u then Econ else Full
  end.
(** gp_prior.py 236-240, gp_likelihood.py 97-99: with the direction iff ram_economy is in force *)
Definition called (u : setup) : form := if ram_in_force u then Econ else Full.
