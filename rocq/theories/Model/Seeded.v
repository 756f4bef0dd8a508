(** Random numbers of a seeded Bayesian optimization: gp_bo.py 575-772 with its generator np.random.default_rng(seed) 579 and the
    Sobol design of the same seed 634, and NumPy's global generator, which GP.train 1024-1036 asks for a start when the start it has
    lies outside the box -- for the run itself (train(method='bo')) and for every training of the surrogate (gp_bo.py 387-391).

    Simplifications: those of Model/BO.v; the state of the global generator is a value of an arbitrary type, of which the next
    numbers can be read and which a call moves on; the acquisition gets the state of the seeded generator and returns the next
    one; the local optimizer is a function of settings, data and start (L-BFGS-B is deterministic); the objective does not use
    the global generator. *)
From Coq Require Import Reals.
From Verif Require Import Model.Prelude Model.Ext Model.Kernels Model.BO Model.Surrogate.
Local Open Scope R_scope.

(** gp.py out_of_bounds 2274-2281 *)
Definition outside (x : list R) (b : list (R * R)) : bool :=
  existsb (fun p => rltb (fst p) (fst (snd p)) || rltb (snd (snd p)) (fst p)) (combine x b).

Section Seeded.
Variables (Gl Own : Type).
Variable draw : Gl -> nat -> R.                (* the next numbers in [0, 1) of the global generator *)
Variable advance : Gl -> nat -> Gl.            (* its state after handing out so many *)
(** gp.py train 1024-1036, the start [x] being the given one or the current hyperparameters *)
Definition choose_start (x : list R) (b : list (R * R)) (gl : Gl) : list R * Gl :=
  if outside x b
  then (map (fun p => fst (snd p) + draw gl (fst p) * (snd (snd p) - fst (snd p))) (combine (seq 0 (length b)) b), advance gl (length b))
  else (x, gl).

Variables (c : bo_cfg) (tf : list dimt).
Variable objective : nat -> list R -> option ext.
Variable noise_function : option (nat -> list R -> option ext).
Variable fixed_noise : option R.
Variable early_stop : nat -> bool.
Variable lstsq : lstsq_oracle.
Variable G : Type.
Variable local_train : settings -> list ev -> list R -> option G.       (* GP(...) and gp.train(method="local") 382-391 *)
Variable acquire : G -> list ev -> Own -> option (list R * ext) * Own.
Variable post_mean : G -> list (list R) -> option (list R).
Variable default_rng : Z -> Own.
Variable sobol : Z -> nat -> list R.

(** the data the surrogate is fitted to: 686-698 *)
Definition data_settings (evs : list ev) : settings :=
  fit_settings lstsq (length tf) (length evs) (fun a i => nth i (nth a (map ev_u evs) []) 0) (fun a => - nth a (map ev_y evs) 0)
    (match known (map ev_v evs) with
     | [] => None
     | ks => Some (fun a => match nth a (map ev_v evs) None with Some v => v | None => rmean ks end)
     end).
(** _fit_surrogate with the start of its training *)
Definition fit_g (evs : list ev) (gl : Gl) : option G * Gl :=
  let st := data_settings evs in
  let ks := seq 0 (f_count st) in
  let (start, gl') := choose_start (map (f_init st) ks) (map (fun k => (f_lo st k, f_hi st k)) ks) gl in
  (local_train st evs start, gl').

(** the while loop 681-772 as in Model/BO.v, with both generators *)
Fixpoint search_g (left : nat) (gp : option G) (stall : Z) (prev_best : R) (prev_u : list R) (evs : list ev) (cbs : list cb) (polls : nat)
  (own : Own) (gl : Gl) : res bo_err (list ev * list cb * nat * bool * reason * option G) * Gl :=
  match left with
  | O => (Ok (evs, cbs, polls, false, Budget, gp), gl)
  | S left' =>
      if early_stop polls then (Ok (evs, cbs, S polls, true, Stopped, gp), gl)
      else
        let (fitted, gl1) := match gp with
                             | Some g => if Nat.eqb (length evs mod refit_every c) 0 then fit_g evs gl else (Some g, gl)
                             | None => fit_g evs gl
                             end in
        match fitted with
        | None => (Ok (evs, cbs, S polls, false, Budget, gp), gl1)
        | Some g =>
            let (found, own1) := acquire g evs own in
            match found with
            | None => (Err ESurrogate, gl1)
            | Some (u, ei) =>
                if rltb 0 (ei_tol c) && eltb ei (Fin (ei_tol c)) then (Ok (evs, cbs, S polls, false, EiTolerance, Some g), gl1)
                else match evaluate tf objective noise_function fixed_noise u (length evs) evs cbs with
                     | None => (Err EObj, gl1)
                     | Some (evs', cbs') =>
                         let stall' := if no_gain c prev_best prev_u evs' then (stall + 1)%Z else 0%Z in
                         if Z.ltb 0 (patience c) && Z.leb (patience c) stall'
                         then (Ok (evs', cbs', S polls, false, Converged, Some g), gl1)
                         else search_g left' (Some g) stall' (best_y evs') (best_u evs') evs' cbs' (S polls) own1 gl1
                     end
            end
        end
  end.

(** bayesian_optimize with bo_args["seed"] = seed *)
Definition bo_seeded (seed : Z) (init : list R) (gl : Gl) : res bo_err (bo_info * list cb) * Gl :=
  let n_init := Z.to_nat (design_size (n_init_arg c) (Z.of_nat (length tf)) (max_iter c)) in
  let us := to_unit tf init :: map (sobol seed) (seq 1 (n_init - 1)) in
  match design tf objective noise_function fixed_noise early_stop us [] [] 0 with
  | None => (Err EObj, gl)
  | Some (evs, cbs, polls, true) =>
      if Nat.eqb (length evs) 0 then (Err EEmpty, gl)
      else let (b, nv) := recommend G post_mean None evs in
           (Ok (BoInfo (nth b (map ev_theta evs) []) (nth b (map ev_y evs) 0) evs (length evs) true Budget nv, cbs), gl)
  | Some (evs, cbs, polls, false) =>
      let (r, gl') := search_g (Z.to_nat (max_iter c - Z.of_nat (length evs))) None 0 (best_y evs) (best_u evs) evs cbs polls (default_rng seed) gl in
      (match r with
       | Err e => Err e
       | Ok (evs', cbs', _, stopped, why, gp) =>
           let (b, nv) := recommend G post_mean gp evs' in
           Ok (BoInfo (nth b (map ev_theta evs') []) (nth b (map ev_y evs') 0) evs' (length evs') stopped why nv, cbs')
       end, gl')
  end.

(** GP.train(method='bo'): [x] is init_hyperparameters or the current hyperparameters, [b] the bounds *)
Definition train_bo (seed : Z) (x : list R) (b : list (R * R)) (gl : Gl) : res bo_err (bo_info * list cb) * Gl :=
  let (start, gl1) := choose_start x b gl in bo_seeded seed start gl1.
End Seeded.
