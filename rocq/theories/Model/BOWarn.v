(** The warnings before a Bayesian optimization, GP._warn_about_bo_suitability, /repo/fvgp/gp.py 1170-1232.  No proofs here. *)
From Verif Require Import Model.Prelude Model.BO.

Inductive bo_warning := WDesignOnly | WFarTooMany | WMany.
(** [n_init]: the entry of bo_args, [dim]: number of hyperparameters *)
Definition bo_warnings (n_init : option Z) (dim max_iter : Z) : list bo_warning :=
  let n := match n_init with Some n => n | None => default_design dim max_iter end in      (* 1193 *)
  let n := Z.max 2 (Z.min n max_iter) in                                                    (* 1194 *)
  (if Z.leb max_iter n then [WDesignOnly] else []) ++                                       (* 1203 *)
  (if Z.ltb 20 dim then [WFarTooMany] else if Z.ltb 10 dim then [WMany] else []).           (* 1219-1232 *)
