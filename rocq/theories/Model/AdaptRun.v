(** gp_mcmc.py: the normal proposal distribution 308-361 and the default break condition 183-193, as used by the
    sampler of Model/MCMC.v.

    Simplifications: real arithmetic; [None] stands for NaN (np.mean of nothing, np.cov of fewer than two samples or
    of non-finite positions, np.log of a number that is not positive; one NaN makes the whole covariance NaN);
    K is positive; np.random.multivariate_normal is an arbitrary function [draw] of the covariance, the random
    source and the mean. *)
From Coq Require Import Reals.
From Verif Require Import Model.Prelude Model.Ext Model.MCMC Model.Adapt.
Local Open Scope R_scope.

(** the attributes r_opt, c_0, c_1, K, adapt_cov 284-289 and prop_args 312-317 *)
Record nargs := NArgs { n_ropt : R; n_c0 : R; n_c1 : R; n_K : nat; n_adapt_cov : bool;
                        n_sigma : option R; n_Sigma : option (nat -> nat -> R) }.

(** trace[self.indices] of one position: finite coordinates or NaN *)
Fixpoint finite (v : list ext) : option (list R) :=
  match v with
  | [] => Some []
  | Fin r :: v' => option_map (cons r) (finite v')
  | _ :: _ => None
  end.
Definition coords (ind : list nat) (x : list ext) : option (nat -> R) :=
  option_map (fun l k => nth k l 0) (finite (gather x ind)).
Fixpoint all_some {A} (l : list (option A)) : option (list A) :=
  match l with
  | [] => Some []
  | Some a :: l' => option_map (cons a) (all_some l')
  | None :: _ => None
  end.
(** np.cov(trace[self.indices, start: end]) 358 *)
Definition sample_cov (ind : list nat) (xs : list (list ext)) : option (nat -> nat -> R) :=
  match all_some (map (coords ind) xs) with
  | None | Some [] | Some [_] => None
  | Some w => Some (cov w)
  end.

(** _adapt 343-360 *)
Definition new_sigma (a : nargs) (i : nat) (jumps : list R) : option R :=
  match n_sigma a, window i (n_K a) jumps with
  | Some s, (_ :: _) as js =>
      if Rlt_dec 0 s then Some (exp (ln s + n_c0 a * gamma2 (n_c1 a) i (n_K a) * (mean (fun r => r) js - n_ropt a))) else None
  | _, _ => None
  end.
Definition new_Sigma (a : nargs) (i : nat) (ind : list nat) (xs : list (list ext)) : option (nat -> nat -> R) :=
  if n_adapt_cov a then
    match n_Sigma a, sample_cov ind (window i (n_K a) xs) with
    | Some M, Some C => Some (fun k l => M k l + gamma2 (n_c1 a) i (n_K a) * (C k l - M k l))
    | _, _ => None
    end
  else n_Sigma a.
Definition adapt_args (i : nat) (t : trace) (o : prop nargs) : nargs :=
  let a := p_args o in
  if Nat.eqb (i mod n_K a) 0 then
    NArgs (n_ropt a) (n_c0 a) (n_c1 a) (n_K a) (n_adapt_cov a)
      (new_sigma a i (p_jumps o)) (new_Sigma a i (p_indices o) (t_x t))
  else a.
(** _no_adapt 363 *)
Definition no_adapt (i : nat) (t : trace) (o : prop nargs) : nargs := p_args o.

Section Normal.
Variables (Omega : Type) (draw : option (nat -> nat -> R) -> Omega -> list ext -> list ext).
(** normal_proposal_dist 321-341 *)
Definition normal_proposal (w : Omega) (x hps : list ext) (o : prop nargs) : list ext := draw (n_Sigma (p_args o)) w x.
End Normal.

(** np.mean of a list of numbers *)
Definition escale (n : nat) (a : ext) : ext := match a with Fin x => Fin (x / INR n) | _ => a end.
Definition emean (l : list ext) : ext :=
  match l with [] => NaN | _ => escale (length l) (fold_right eadd (Fin 0) l) end.
Definition eabs (a : ext) : ext := match a with Fin x => Fin (Rabs x) | NInf => PInf | _ => a end.
(** loglik[-k:] and loglik[-2k:-k] of a list of at least 2k entries 191 *)
Definition last_n {A} (k : nat) (l : list A) : list A := skipn (length l - k) l.
Definition before_last_n {A} (k : nat) (l : list A) : list A := firstn k (skipn (length l - 2 * k) l).
(** _default_break_condition 184-193 *)
Definition default_break (t : trace) : bool :=
  if (Z.of_nat (length (t_f t)) <? 1000)%Z then false
  else eltb (eabs (esub (emean (last_n 100 (t_f t))) (emean (before_last_n 100 (t_f t))))) (Fin (/ 1000)).
