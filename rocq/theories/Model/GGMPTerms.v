(** The data terms the mixture weights of a GGMP are fitted to.  /repo/fvgp/ggmp.py: prepare_station_terms_density 2301-2342,
    the terms of weight_method="samples" in train 658-688 with the data pass of optimize_weights_em_multivariate_samples
    1609-1624, and both calls of the EM algorithm
    643-688 (Model/GGMPDensity.v).

    [mu i k] and [v i k] are the posterior mean and variance of component GP k at station i, after its hyperparameters were set
    (Model/GGMPPhases.v); [lv k] the variances of component k at the stations.  Numbers are real.  Samples are scalars, as train
    builds covariances of one row; of two lists of different lengths zip drops the rest of the longer. *)
From Coq Require Import Reals.
From Verif Require Import Model.Prelude Spec.Sums Model.GGMPDensity.
Local Open Scope R_scope.

Inductive texn := TGrid (e : dexn) | TBroadcast | TEmpty | TSingular.
(** scipy.stats.norm.logpdf *)
Definition norm_logpdf (x loc scale : R) : R := - ((x - loc) / scale) ^ 2 / 2 - ln (sqrt (2 * PI)) - ln scale.
(** multivariate_normal.logpdf in one dimension *)
Definition mvn1_logpdf (x loc var : R) : R := - (/ 2) * (ln (2 * PI) + ln var + (x - loc) ^ 2 / var).

Section Terms.
Context (K : nat) (mu v : nat -> nat -> R) (lv : nat -> list R).
(** entry i of an array that is broadcast to the stations *)
Definition at_station (l : list R) (i : nat) : R := if (length l =? 1)%nat then nth 0 l 0 else nth i l 0.
(** 2318-2327 *)
Definition var_total (i k : nat) : R := Rmax (v i k) 0 + Rmax (at_station (lv k) i) (/ 10 ^ 9).
(** 2336-2337 *)
Definition log_pdf (i : nat) (x : R) (k : nat) : R := norm_logpdf x (mu i k) (sqrt (Rmax (var_total i k) (/ 10 ^ 12))).
Fixpoint terms_from (i : nat) (ys : list (list R * list (option R))) : res texn (list station) :=
  match ys with
  | [] => Ok []
  | (domain, density) :: r =>
      match normalize_pdf domain density with
      | Err e => Err (TGrid e)
      | Ok (dom, p, dx) =>
          match terms_from (S i) r with
          | Err e => Err e
          | Ok ts => Ok (map2 (fun x a => (a, log_pdf i x)) dom (map2 Rmult p dx) :: ts)
          end
      end
  end.
(** terms and ll_comp *)
Definition prepare (ys : list (list R * list (option R))) : res texn (list station * (nat -> R)) :=
  if forallb (fun k => (length (lv k) =? length ys)%nat || (length (lv k) =? 1)%nat) (seq 0 K) then
    match terms_from 0 ys with
    | Err e => Err e
    | Ok ts => Ok (ts, fun k => rowsum (fun x => fst x * snd x k) ts)
    end
  else Err TBroadcast.
(** 645-656, the guard against log 0 is 1e-300 *)
Definition weights_density (tiny floor tol : R) (max_iter : nat) (w0 : nat -> R) (ys : list (list R * list (option R))) :=
  match prepare ys with
  | Err e => Err e
  | Ok (ts, _) => Ok (em K tiny 0 floor tol ts max_iter (Some w0))
  end.

(** 669-677, _log_mvn_density 1577-1580 with the ridge of 1e-9 *)
Definition sample_var (i k : nat) : R := v i k + mean (lv k) + / 10 ^ 9.
Definition sample_station (i : nat) (y : list R) : station := map (fun x => (1, fun k => mvn1_logpdf x (mu i k) (sample_var i k))) y.
Definition positive_vars (i : nat) : bool := forallb (fun k => if Rlt_dec 0 (sample_var i k) then true else false) (seq 0 K).
(** 1613-1622: _as_2d refuses an empty array, logpdf a variance that is not positive *)
Fixpoint sample_from (used : list (nat * list R)) : res texn (list station) :=
  match used with
  | [] => Ok []
  | (i, y) :: r =>
      if (length y =? 0)%nat then Err TEmpty
      else if positive_vars i then match sample_from r with Err e => Err e | Ok ts => Ok (sample_station i y :: ts) end
      else Err TSingular
  end.
(** of [n] stations; the data are looked at in the iterations only *)
Definition weights_samples (n : nat) (tiny extra floor tol : R) (max_iter : nat) (w0 : nat -> R) (ys : list (list R)) :=
  match sample_from (if (max_iter =? 0)%nat then [] else combine (seq 0 n) ys) with
  | Err e => Err e
  | Ok ts => Ok (em K tiny extra floor tol ts max_iter (Some w0))
  end.
End Terms.
