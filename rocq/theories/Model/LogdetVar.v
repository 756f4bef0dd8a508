(** The stochastic log-determinant and the variance reported with it.  /repo/fvgp/gp_lin_alg.py: calculate_random_logdet
    1103-1181; /repo/fvgp/gp_kv.py: _random_logdet 559-572; /repo/fvgp/gp_marginal_likelihood.py: the likelihood 178,
    log_likelihood_variance 182-204.  No proofs here.

    imate's logdet(method="slq") is described by what its documentation says: probes are drawn one after the other, at least
    min_num_samples and at most max_num_samples; the first number of probes in this range at which [stop] holds of the
    samples is used, and the mean of the used samples is returned.  [draws] are the samples all probes would give; they are
    finite, so the filter of 1166 keeps all. *)
From Coq Require Import Reals List.
Import ListNotations.
Local Open Scope R_scope.

Definition total (l : list R) : R := fold_right Rplus 0 l.
Definition mean (l : list R) : R := total l / INR (length l).
(** np.var(l, ddof=1) *)
Definition var1 (l : list R) : R := total (map (fun x => (x - mean l) ^ 2) l) / (INR (length l) - 1).

Section Slq.
  Variable stop : list R -> bool.
  (** probes are drawn while fewer than [mn] are known, or the rule does not hold and [fuel] allows another one *)
  Fixpoint probe (fuel mn : nat) (known rest : list R) : list R :=
    match fuel, rest with
    | S f, x :: r => if andb (Nat.leb mn (length known)) (stop known) then known else probe f mn (known ++ [x]) r
    | _, _ => known
    end.
  Definition used (mn mx : nat) (draws : list R) : list R := probe mx mn [] draws.
  (** 1150-1177: the estimate and info_out["variance"] *)
  Definition random_logdet (mn mx : nat) (draws : list R) : R * option R :=
    let s := used mn mx draws in
    (mean s, if Nat.ltb 1 (length s) then Some (var1 s / INR (length s)) else None).
  (** 178: [rest] is l1 + n log 2 pi *)
  Definition log_likelihood (rest : R) (mn mx : nat) (draws : list R) : R := - (1 / 2) * (rest + fst (random_logdet mn mx draws)).
  (** 182-204 *)
  Definition log_likelihood_variance (mn mx : nat) (draws : list R) : option R :=
    match snd (random_logdet mn mx draws) with Some v => Some (1 / 4 * v) | None => None end.
End Slq.
