(** What the documentation of the sampler promises, without reference to how it is computed. *)
From Coq Require Import Reals.
From Verif Require Import Model.Prelude Model.Ext Model.MCMC Model.AdaptRun.
Local Open Scope R_scope.

(** two proposal distributions which differ at most in the target acceptance rate r_opt, the gain c_0, the scale
    sigma_m and the acceptances recorded so far *)
Definition same_but_rate (o p : prop nargs) : Prop :=
  p_indices o = p_indices p /\ p_auto o = p_auto p /\ n_c1 (p_args o) = n_c1 (p_args p) /\ n_K (p_args o) = n_K (p_args p) /\
  n_adapt_cov (p_args o) = n_adapt_cov (p_args p) /\ n_Sigma (p_args o) = n_Sigma (p_args p).

(** arithmetic mean of numbers 0..n-1 *)
Definition average (n : nat) (f : nat -> R) : R := fold_right (fun i s => f i + s) 0 (seq 0 n) / INR n.
(** the first coordinate of recorded position i *)
Definition first_coord (t : trace) (i : nat) : R := match nth i (t_x t) [] with Fin r :: _ => r | _ => 0 end.
Definition value (t : trace) (i : nat) : R := match nth i (t_f t) NaN with Fin r => r | _ => 0 end.
(** "the mean of the position has not changed significantly in the last 200 iterations": last 100 against the 100 before *)
Definition position_settled (t : trace) : Prop :=
  let n := length (t_x t) in
  Rabs (average 100 (fun i => first_coord t (n - 100 + i)) - average 100 (fun i => first_coord t (n - 200 + i))) < / 1000.
(** the same of the values of the log likelihood *)
Definition value_settled (t : trace) : Prop :=
  let n := length (t_f t) in
  Rabs (average 100 (fun i => value t (n - 100 + i)) - average 100 (fun i => value t (n - 200 + i))) < / 1000.
(** the state of the trace after k iterations *)
Definition after (k : nat) (t : trace) : trace := Trace (firstn (S k) (t_x t)) (firstn k (t_f t)).
Definition all_finite (l : list ext) : Prop := forall v, In v l -> exists r, v = Fin r.
