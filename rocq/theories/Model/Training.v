(** gp.py and gp_training.py: choice of the starting point, guarded training, polling.

    Simplifications: numpy broadcasting of one-element arrays against bounds is left out (counts as a shape
    error); the optimizers are oracles; warnings and logging are left out. *)
From Verif Require Import Model.Prelude Model.Ext.
Local Open Scope R_scope.

Definition vec := list ext.
Definition box := list (ext * ext).

Inductive train_err := EIndex | EShapeB | EStart | EOverflow | EObjective | EOptimizer | ELinalg | EFormat | ENoMethod.

(** gp.py out_of_bounds 2274-2281; None: bounds[i] raises IndexError *)
Fixpoint out_of_bounds (x : vec) (b : box) : option bool :=
  match x, b with
  | [], _ => Some false
  | _ :: _, [] => None
  | v :: x', (lo, hi) :: b' => if eltb v lo || eltb hi v then Some true else out_of_bounds x' b'
  end.

(** np.random.uniform(low, high, size) with the draws [us] in [0, 1): low + u (high - low); a non-finite range raises *)
Fixpoint uniform (b : box) (us : nat -> R) : option vec :=
  match b with
  | [] => Some []
  | (Fin lo, Fin hi) :: b' => match uniform b' (fun i => us (S i)) with
                              | Some x => Some (Fin (lo + us O * (hi - lo)) :: x)
                              | None => None
                              end
  | _ :: _ => None
  end.

(** gp.py train 1023-1036: the starting point *)
Definition choose_init (init : option vec) (current : vec) (b : box) (us : nat -> R) : res train_err vec :=
  let x := match init with Some v => v | None => current end in
  match out_of_bounds x b with
  | None => Err EIndex
  | Some false => Ok x
  | Some true => match uniform b us with Some v => Ok v | None => Err EOverflow end
  end.

(** gp_training.py _in_bounds 670-673 *)
Definition in_bounds (v : vec) (b : box) : option bool :=
  if Nat.eqb (length v) (length b) then
    Some (negb (existsb (fun p => eltb (fst p) (fst (snd p))) (combine v b) || existsb (fun p => eltb (snd (snd p)) (fst p)) (combine v b)))
  else None.

(** what is handed to the optimizer of a synchronous run: gp.py 1023-1036, then gp_training.py 53-54 *)
Definition start_point (init : option vec) (current : vec) (b : box) (us : nat -> R) : res train_err vec :=
  match choose_init init current b us with
  | Err e => Err e
  | Ok x => match in_bounds x b with
            | None => Err EShapeB
            | Some true => Ok x
            | Some false => Err EStart
            end
  end.

(** ** A GP and its derived state (gp.py set_hyperparameters 672-687): prior, noise and solver state are computed
    one after the other from the hyperparameters; each may raise. *)
Section GP.
Variables (Pr No Kv : Type).
Variable prior_of : vec -> option Pr.
Variable noise_of : vec -> option No.
Variable kv_of : Pr -> No -> option Kv.

Record gp := GP { g_hps : vec; g_prior : Pr; g_noise : No; g_kv : Kv }.

(** the state after the call, and whether it raised *)
Definition set_hps (s : gp) (h : vec) : gp * bool :=
  let s1 := GP h (g_prior s) (g_noise s) (g_kv s) in
  match prior_of h with
  | None => (s1, false)
  | Some p =>
      let s2 := GP h p (g_noise s) (g_kv s) in
      match noise_of h with
      | None => (s2, false)
      | Some v =>
          let s3 := GP h p v (g_kv s) in
          match kv_of p v with
          | None => (s3, false)
          | Some k => (GP h p v k, true)
          end
      end
  end.

(** log_likelihood() and log_likelihood_variance() of the state in force *)
Variable loglik : gp -> ext.
Variable variance : gp -> option R.

(** _reject_if_not_improved 1144-1168 *)
Definition tolerance (s : gp) : R := match variance s with None => 0 | Some v => 3 * sqrt (2 * v) end.
Definition reject_if_not_improved (s : gp) (h incumbent : vec) (ll : ext) : gp * option vec :=
  if eleb (esub ll (Fin (tolerance s))) (loglik s) then (s, Some h)
  else let (s', ok) := set_hps s incumbent in (s', if ok then Some incumbent else None).

(** synchronous train 1086-1116; [result] is what the optimizer returned, None: it raised *)
Definition train_sync (guarded : bool) (s : gp) (result : option vec) : gp * option vec :=
  let incumbent := g_hps s in
  let ll := loglik s in
  match result with
  | None => (s, None)
  | Some h =>
      let (s1, ok) := set_hps s h in
      if ok then (if guarded then reject_if_not_improved s1 h incumbent ll else (s1, Some h)) else (s1, None)
  end.

(** ** Polling (gp_training.py update_hyperparameters 508-544; gp.py 1261-1277) *)
(** a Python value held in a result dictionary: a 1-d array or something else *)
Inductive pyval := Vec1 (v : vec) | OtherVal.
(** what get_latest returned: it raised; a list of optima, each with or without "x"; a dictionary with or without
    "median(x)" and "x" ([d_len] keys in all); an object without len; another object of the given length *)
Inductive latest :=
| LRaises | LList (l : list (option pyval)) | LDict (median x : option pyval) (d_len : nat) | LNoLen | LOther (len : nat).

Definition pull (current : vec) (l : latest) : res train_err vec :=
  let valid p := match p with Some (Vec1 v) => Ok v | Some OtherVal => Err EFormat | None => Err EFormat end in
  match l with
  | LRaises => Ok current
  | LNoLen => Err EFormat
  | LList [] => Ok current
  | LList (o :: _) => valid o
  | LDict _ _ O => Ok current
  | LDict (Some m) _ _ => valid (Some m)
  | LDict None x _ => valid x
  | LOther O => Ok current
  | LOther _ => Err EFormat
  end.

Definition update_hyperparameters (s : gp) (l : latest) : gp * option vec :=
  match pull (g_hps s) l with
  | Err _ => (s, None)
  | Ok h => let (s', ok) := set_hps s h in (s', if ok then Some h else None)
  end.
End GP.
Arguments GP {Pr No Kv}. Arguments g_hps {Pr No Kv}. Arguments g_prior {Pr No Kv}. Arguments g_noise {Pr No Kv}. Arguments g_kv {Pr No Kv}.

(** ** np.median of one coordinate over the window (gp_mcmc.py 177) *)
Fixpoint rinsert (a : R) (l : list R) : list R :=
  match l with [] => [a] | b :: t => if Rle_dec a b then a :: l else b :: rinsert a t end.
Definition rsort (l : list R) : list R := fold_right rinsert [] l.
Definition median (l : list R) : R :=
  let s := rsort l in let n := length l in
  if Nat.odd n then nth (n / 2) s 0 else (nth (n / 2 - 1) s 0 + nth (n / 2) s 0) / 2.

(** gp_training.py 151-153: the prior of method mcmc if none is given; a shape error cannot occur once the starting
    point passed the bounds check, since samples have its length *)
Definition training_prior (b : box) (x : vec) : ext := match in_bounds x b with Some true => Fin 0 | _ => NInf end.
Definition to_r (a : ext) : R := match a with Fin r => r | _ => 0 end.
(** gp_mcmc.py 177, gp_training.py 161: the returned hyperparameters, one median per coordinate *)
Definition mcmc_result (d : nat) (window : list vec) : vec :=
  map (fun i => Fin (median (map (fun x => to_r (nth i x NaN)) window))) (seq 0 d).
