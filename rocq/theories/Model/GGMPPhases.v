(** What GGMP.train does to the component GPs, the mixture weights and the stored hyperparameters.  /repo/fvgp/ggmp.py:
    _safe_set_hyperparameters 545-569, train 571-693 with the re-installation of the hyperparameters in
    prepare_station_terms_density 2314-2316 and 663-664.

    The component GPs are those of Model/Training.v.  Simplifications: the reshaping of y_data 561-565 and the presence of GPs
    621-622 (Model/GGMP.v) are left out; the weight optimizers are oracles that return as many weights as there are components
    or raise; the optimizer of a GP, the random draws and whether an asynchronous run can be submitted are oracles; the lengths
    of what is stored fit the container, whose checks are in Model/GGMP.v.  No proofs here. *)
From Coq Require Import Reals.
From Verif Require Import Model.Prelude Model.Ext Model.Training.
Local Open Scope R_scope.

(** np.array_equal *)
Definition eeqb (a b : ext) : bool := eleb a b && eleb b a.
Fixpoint array_equal (x y : vec) : bool :=
  match x, y with
  | [], [] => true
  | a :: x', b :: y' => eeqb a b && array_equal x' y'
  | _, _ => false
  end.

Inductive weight_method := Density | Samples | OtherWeights.
Record call := Call {
  t_bounds : option (list box); t_init : option (list vec);
  t_async : bool; t_guarded : bool;                        (* forwarded to GP.train; guarded as decided there *)
  t_weights : bool; t_method : weight_method; t_samples : bool }.   (* train_weights, weight_method, y_samples given *)

Section Phases.
Variables (Pr No Kv : Type).
Variable prior_of : nat -> vec -> option Pr.
Variable noise_of : nat -> vec -> option No.
Variable kv_of : nat -> Pr -> No -> option Kv.
Variable loglik : nat -> gp Pr No Kv -> ext.
Variable variance : nat -> gp Pr No Kv -> option R.
Variable optimize : nat -> vec -> option vec.
Variable draws : nat -> nat -> R.
Variable submitted : nat -> bool.
Variables em_density em_samples : list (gp Pr No Kv) -> list R -> option (list R).

(** 545-569; the second component: it returned normally *)
Definition safe_set (k : nat) (g : gp Pr No Kv) (h : vec) : gp Pr No Kv * bool :=
  if array_equal (g_hps g) h then (g, true) else set_hps Pr No Kv (prior_of k) (noise_of k) (kv_of k) g h.

(** gp.py train for one component *)
Definition gp_train (c : call) (k : nat) (b : box) (h : vec) (g : gp Pr No Kv) : gp Pr No Kv * bool :=
  if t_async c then
    match choose_init (Some h) (g_hps g) b (draws k) with Err _ => (g, false) | Ok _ => (g, submitted k) end
  else
    match start_point (Some h) (g_hps g) b (draws k) with
    | Err _ => (g, false)
    | Ok x0 => let (g', r) := train_sync Pr No Kv (prior_of k) (noise_of k) (kv_of k) (loglik k) (variance k) (t_guarded c) g (optimize k x0) in
               (g', match r with Some _ => true | None => false end)
    end.

(** 625-640, one turn of the loop *)
Definition component (c : call) (stored : list box) (k : nat) (g : gp Pr No Kv) : gp Pr No Kv * bool :=
  match nth_error (match t_bounds c with Some l => l | None => stored end) k with
  | None => (g, false)
  | Some b =>
      match match t_init c with Some l => nth_error l k | None => Some (g_hps g) end with
      | None => (g, false)
      | Some h => let (g1, ok) := safe_set k g h in if ok then gp_train c k b h g1 else (g1, false)
      end
  end.
(** a loop over the components that stops when one raises *)
Fixpoint each (f : nat -> gp Pr No Kv -> gp Pr No Kv * bool) (k : nat) (gs : list (gp Pr No Kv)) : list (gp Pr No Kv) * bool :=
  match gs with
  | [] => ([], true)
  | g :: gs' => let (g', ok) := f k g in
                if ok then (let (r, ok') := each f (S k) gs' in (g' :: r, ok')) else (g' :: gs', false)
  end.

Record ggmp := GGMP {
  gg_gps : list (gp Pr No Kv); gg_weights : list R;         (* the weights of the likelihoods *)
  gg_bounds : list box; gg_stored_weights : list R; gg_stored_hps : list vec }.   (* hps_obj *)

(** 643-686: the GPs afterwards and the new weights *)
Definition weight_phase (c : call) (synced : list vec) (gs : list (gp Pr No Kv)) (w0 : list R) : list (gp Pr No Kv) * option (list R) :=
  let install k g := match nth_error synced k with Some h => safe_set k g h | None => (g, false) end in
  let run (em : list (gp Pr No Kv) -> list R -> option (list R)) : list (gp Pr No Kv) * option (list R) :=
    let (gs', ok) := each install 0%nat gs in (gs', if ok then em gs' w0 else None) in
  match t_method c with
  | Density => run em_density
  | Samples => if t_samples c then run em_samples else (gs, None)
  | OtherWeights => (gs, None)
  end.

(** 624-693; None: it raised *)
Definition train (c : call) (s : ggmp) : ggmp * option (list vec) :=
  let (gs, ok) := each (component c (gg_bounds s)) 0%nat (gg_gps s) in
  if negb ok then (GGMP gs (gg_weights s) (gg_bounds s) (gg_stored_weights s) (gg_stored_hps s), None)
  else
    let synced := map g_hps gs in
    if t_weights c then
      match weight_phase c synced gs (gg_weights s) with
      | (gs', None) => (GGMP gs' (gg_weights s) (gg_bounds s) (gg_stored_weights s) (gg_stored_hps s), None)
      | (gs', Some w) => (GGMP gs' w (gg_bounds s) w synced, Some synced)
      end
    else (GGMP gs (gg_weights s) (gg_bounds s) (gg_weights s) synced, Some synced).
End Phases.
