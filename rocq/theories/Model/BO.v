(** gp_bo.py: the unit-cube transform 45-98, the design size 104-112, the search 529-871.

    Simplifications: exact real arithmetic; vectors have one entry per hyperparameter (a mismatch would be a numpy
    shape error); the surrogate fit, the acquisition maximizer and the surrogate's posterior mean are oracles that
    may raise; the objective and the noise function may depend on the number of the call; the printed messages,
    the Laplace approximation and the sensitivity readout 824-846 are left out. *)
From Coq Require Import Reals.
From Verif Require Import Model.Prelude Model.Ext.
Local Open Scope R_scope.

(** ** _LogAffineTransform, one dimension *)
Record dimt := Dim { log_mask : bool; t_lo : R; t_hi : R; t_span : R }.
Definition rltb (a b : R) : bool := if Rlt_dec a b then true else false.
Definition rleb (a b : R) : bool := if Rle_dec a b then true else false.
(** __init__ 68-86; [log_scale]: the request for this dimension, None if the user made none *)
Definition make_dim (lo hi : R) (log_scale : option bool) : dimt :=
  let positive := rltb 0 lo && rltb 0 hi in
  let m := match log_scale with None => positive | Some r => r && positive end in
  let l := if m then ln lo else lo in
  let h := if m then ln hi else hi in
  Dim m l h (if rltb l h then h - l else 1).
Definition clip (u : R) : R := Rmin (Rmax u 0) 1.
Definition tiny : R := / 10 ^ 300.
(** to_unit 88-92 *)
Definition to_unit1 (d : dimt) (theta : R) : R :=
  let w := if log_mask d then ln (Rmax theta tiny) else theta in clip ((w - t_lo d) / t_span d).
(** from_unit 94-98 *)
Definition from_unit1 (d : dimt) (u : R) : R :=
  let w := t_lo d + clip u * t_span d in if log_mask d then exp w else w.
Definition to_unit (tf : list dimt) (theta : list R) : list R := map (fun p => to_unit1 (fst p) (snd p)) (combine tf theta).
Definition from_unit (tf : list dimt) (u : list R) : list R := map (fun p => from_unit1 (fst p) (snd p)) (combine tf u).

(** default_initial_design_size 104-112; the clipping 582 *)
Definition default_design (dim max_iter : Z) : Z := Z.max 2 (Z.min (Z.min (Z.max (2 * (dim + 1)) 5) (Z.max (10 * dim) 5)) max_iter).
Definition design_size (n_init : option Z) (dim max_iter : Z) : Z :=
  Z.max 2 (Z.min (match n_init with Some n => n | None => default_design dim max_iter end) max_iter).

(** np.argmin / np.argmax of reals: the first position *)
Fixpoint argbest (gt : R -> R -> bool) (best : R) (bi i : nat) (l : list R) : nat :=
  match l with [] => bi | a :: t => if gt a best then argbest gt a i (S i) t else argbest gt best bi (S i) t end.
Definition argmin (l : list R) : nat := match l with [] => O | a :: t => argbest rltb a O 1 t end.
Definition argmaxr (l : list R) : nat := match l with [] => O | a :: t => argbest (fun x y => rltb y x) a O 1 t end.

Definition rnorm (a : list R) : R := sqrt (fold_right (fun x s => x * x + s) 0 a).
Definition dist (a b : list R) : R := rnorm (map (fun p => fst p - snd p) (combine a b)).
Definition rmean (l : list R) : R := fold_right Rplus 0 l / INR (length l).

(** np.finfo(float).max / 1e6, 650 *)
Definition big : R := (2 - / 2 ^ 52) * 2 ^ 1023 / 10 ^ 6.

Record ev := Ev { ev_u : list R; ev_theta : list R; ev_y : R; ev_v : option R }.
(** arguments of the callback: best vector, its value, iteration, n_evaluations *)
Record cb := Cb { cb_x : list R; cb_f : R; cb_iter : nat; cb_n : nat }.
Inductive reason := Budget | Stopped | EiTolerance | Converged.
Inductive bo_err := EObj | ESurrogate | EEmpty.

Record bo_cfg := BoCfg { max_iter : Z; n_init_arg : option Z; patience : Z; f_rtol : R; x_tol : R; ei_tol : R; refit_every : nat }.
Record bo_info := BoInfo { i_x : list R; i_f : R; i_evs : list ev; i_n : nat; i_stopped : bool; i_reason : reason; i_noise : R }.

Section BO.
Variables (c : bo_cfg) (tf : list dimt).
Variable objective : nat -> list R -> option ext.            (* None: it raised *)
Variable noise_function : option (nat -> list R -> option ext).
Variable fixed_noise : option R.
Variable early_stop : nat -> bool.                           (* answer to the i-th poll *)
Variable G : Type.
Variable fit : list ev -> option G.                          (* _fit_surrogate, None: raised *)
Variable acquire : G -> list ev -> option (list R * ext).    (* 705-714: incumbent samples and maximizer *)
Variable post_mean : G -> list (list R) -> option (list R).  (* recommendation 796 *)

(** _noise_for 613-627 *)
Definition noise_for (k : nat) (theta : list R) : option R :=
  match noise_function with
  | Some f => match f k theta with Some (Fin v) => if rltb 0 v then Some v else None | _ => None end
  | None => match fixed_noise with Some v => Some (Rmax v (/ 10 ^ 12)) | None => None end
  end.
Definition finite_value (v : ext) : R := match v with Fin r => r | _ => big end.

(** _evaluate 640-653 *)
Definition evaluate (u : list R) (iteration : nat) (evs : list ev) (cbs : list cb) : option (list ev * list cb) :=
  let theta := from_unit tf u in
  match objective (length evs) theta with
  | None => None
  | Some v =>
      let evs' := evs ++ [Ev u theta (finite_value v) (noise_for (length evs) theta)] in
      let b := argmin (map ev_y evs') in
      Some (evs', cbs ++ [Cb (nth b (map ev_theta evs') []) (nth b (map ev_y evs') 0) iteration (length evs')])
  end.

(** the design loop 658-662: the points still to be evaluated; result: evaluations, callbacks, polls made, stopped *)
Fixpoint design (us : list (list R)) (evs : list ev) (cbs : list cb) (polls : nat) : option (list ev * list cb * nat * bool) :=
  match us with
  | [] => Some (evs, cbs, polls, false)
  | u :: us' =>
      if early_stop polls then Some (evs, cbs, S polls, true)
      else match evaluate u (length evs) evs cbs with
           | None => None
           | Some (evs', cbs') => design us' evs' cbs' (S polls)
           end
  end.

Definition best_u (evs : list ev) : list R := nth (argmin (map ev_y evs)) (map ev_u evs) [].
Definition best_y (evs : list ev) : R := nth (argmin (map ev_y evs)) (map ev_y evs) 0.
Definition worst_y (evs : list ev) : R := nth (argmaxr (map ev_y evs)) (map ev_y evs) 0.

(** the convergence test of one iteration 741-758 *)
Definition no_gain (prev_best : R) (prev_u : list R) (evs : list ev) : bool :=
  let range := worst_y evs - best_y evs in
  let reference := if rltb 0 range then range else Rmax (Rabs (best_y evs)) 1 in
  rleb ((prev_best - best_y evs) / reference) (f_rtol c) && rleb (dist (best_u evs) prev_u) (x_tol c).

(** the while loop 674-758, entered with at least one evaluation; [left] = max_iter - n_eval iterations can still
    be made, each of which evaluates once or leaves the loop *)
Fixpoint search (left : nat) (gp : option G) (stall : Z) (prev_best : R) (prev_u : list R) (evs : list ev) (cbs : list cb) (polls : nat)
  : res bo_err (list ev * list cb * nat * bool * reason * option G) :=
  match left with
  | O => Ok (evs, cbs, polls, false, Budget, gp)
  | S left' =>
      if early_stop polls then Ok (evs, cbs, S polls, true, Stopped, gp)
      else
        match (match gp with
               | Some g => if Nat.eqb (length evs mod refit_every c) 0 then fit evs else Some g
               | None => fit evs
               end) with
        | None => Ok (evs, cbs, S polls, false, Budget, gp)
        | Some g =>
            match acquire g evs with
            | None => Err ESurrogate
            | Some (u, ei) =>
                if rltb 0 (ei_tol c) && eltb ei (Fin (ei_tol c)) then Ok (evs, cbs, S polls, false, EiTolerance, Some g)
                else match evaluate u (length evs) evs cbs with
                     | None => Err EObj
                     | Some (evs', cbs') =>
                         let stall' := if no_gain prev_best prev_u evs' then (stall + 1)%Z else 0%Z in
                         if Z.ltb 0 (patience c) && Z.leb (patience c) stall'
                         then Ok (evs', cbs', S polls, false, Converged, Some g)
                         else search left' (Some g) stall' (best_y evs') (best_u evs') evs' cbs' (S polls)
                     end
            end
        end
  end.

(** the recommendation 773-802 *)
Fixpoint known (l : list (option R)) : list R := match l with [] => [] | Some v :: t => v :: known t | None :: t => known t end.
Definition recommend (gp : option G) (evs : list ev) : nat * R :=
  let b := argmin (map ev_y evs) in
  match known (map ev_v evs) with
  | [] => (b, 0)                                    (* no reported noise; a learned level is not used for the pick *)
  | ks =>
      let nv := rmean ks in
      (match gp with
       | Some g =>
           if rltb 0 nv then
             match post_mean g (map ev_u evs) with
             | None => b
             | Some m => let cand := argmaxr m in
                         if rleb (nth cand (map ev_y evs) 0) (nth b (map ev_y evs) 0 + 3 * sqrt nv) then cand else b
             end
           else b
       | None => b
       end, nv)
  end.

(** bayesian_optimize; [sobol i] is point i of the space-filling design *)
Definition bayesian_optimize (sobol : nat -> list R) (init : list R) : res bo_err (bo_info * list cb) :=
  let n_init := Z.to_nat (design_size (n_init_arg c) (Z.of_nat (length tf)) (max_iter c)) in
  let us := to_unit tf init :: map sobol (seq 1 (n_init - 1)) in
  match design us [] [] 0 with
  | None => Err EObj
  | Some (evs, cbs, polls, true) =>
      if Nat.eqb (length evs) 0 then Err EEmpty      (* np.argmin of an empty array 788 *)
      else let (b, nv) := recommend None evs in
           Ok (BoInfo (nth b (map ev_theta evs) []) (nth b (map ev_y evs) 0) evs (length evs) true Budget nv, cbs)
  | Some (evs, cbs, polls, false) =>
      match search (Z.to_nat (max_iter c - Z.of_nat (length evs))) None 0 (best_y evs) (best_u evs) evs cbs polls with
      | Err e => Err e
      | Ok (evs', cbs', _, stopped, why, gp) =>
          let (b, nv) := recommend gp evs' in
          Ok (BoInfo (nth b (map ev_theta evs') []) (nth b (map ev_y evs') 0) evs' (length evs') stopped why nv, cbs')
      end
  end.
End BO.
