(** The warning of a BO run that ends where it began.  /repo/fvgp/gp_bo.py: bayesian_optimize 802-822.  No proofs here.

    The run is that of BO.v up to the recommendation; only whether the warning is issued is modelled, not its text. *)
From Coq Require Import Reals.
From Verif Require Import Model.Prelude Model.Ext Model.BO.
Local Open Scope R_scope.

Section W.
Variables (c : bo_cfg) (tf : list dimt).
Variable objective : nat -> list R -> option ext.
Variable noise_function : option (nat -> list R -> option ext).
Variable fixed_noise : option R.
Variable early_stop : nat -> bool.
Variable G : Type.
Variable fit : list ev -> option G.
Variable acquire : G -> list ev -> option (list R * ext).
Variable post_mean : G -> list (list R) -> option (list R).

(** 809: best_idx as 775-799 left it; the length of y_list is the number of evaluations *)
Definition start_warning (gp : option G) (evs : list ev) : bool := Nat.ltb 1 (length evs) && Nat.eqb (fst (recommend G post_mean gp evs)) 0.

(** 575-822: does the run warn?  A run that raises before 809 does not. *)
Definition bo_warned (sobol : nat -> list R) (init : list R) : bool :=
  let n_init := Z.to_nat (design_size (n_init_arg c) (Z.of_nat (length tf)) (max_iter c)) in
  let us := to_unit tf init :: map sobol (seq 1 (n_init - 1)) in
  match design tf objective noise_function fixed_noise early_stop us [] [] 0 with
  | None => false
  | Some (evs, cbs, polls, true) => start_warning None evs
  | Some (evs, cbs, polls, false) =>
      match search c tf objective noise_function fixed_noise early_stop G fit acquire
              (Z.to_nat (max_iter c - Z.of_nat (length evs))) None 0 (best_y evs) (best_u evs) evs cbs polls with
      | Err e => false
      | Ok (evs', _, _, _, _, gp) => start_warning gp evs'
      end
  end.
End W.
