(** gp.py: _crps_s 1755-1759, crps 1761-1782, rmse 1784-1805, nrmse 1807-1825, nlpd 1827-1852, r2 1854-1874,
    picp 1876-1908, coverage_curve 1910-1935, mpiw 1937-1958, interval_score 1960-1992, mae 1994-2014, mape 2017-2038,
    msll 2040-2071; gp_posterior.py: the shapes of m(x) and v(x) 163-182, 276-281.

    An array is its shape and its elements in row-major order.  The predictions come as the list of posterior means and
    variances (Posterior.v); None is an AssertionError.  Simplifications: exact real arithmetic, so that a variance of
    zero gives some real number instead of a division warning; the statistics of an empty array likewise;
    multi-task prediction (x_out) is left out. *)
From Coq Require Import Reals List Arith Bool.
Import ListNotations.
Local Open Scope R_scope.

Record arr := Arr { shape : list nat; vals : list R }.
Definition sum_l (l : list R) : R := fold_right Rplus 0 l.
Definition mean_l (l : list R) : R := sum_l l / INR (length l).
Definition var_l (l : list R) : R := mean_l (map (fun v => (v - mean_l l) ^ 2) l).
Definition zipw {A B C} (f : A -> B -> C) (a : list A) (b : list B) : list C := map (fun p => f (fst p) (snd p)) (combine a b).
Fixpoint shape_eqb (s t : list nat) : bool :=
  match s, t with [], [] => true | a :: s', b :: t' => Nat.eqb a b && shape_eqb s' t' | _, _ => false end.

(** numpy broadcasting, shapes aligned at the last axis *)
Fixpoint bshape_rev (s t : list nat) : option (list nat) :=
  match s, t with
  | [], _ => Some t | _, [] => Some s
  | a :: s', b :: t' =>
      match bshape_rev s' t' with
      | Some r => if Nat.eqb a b then Some (a :: r) else if Nat.eqb a 1 then Some (b :: r) else if Nat.eqb b 1 then Some (a :: r) else None
      | None => None end
  end.
Definition bshape (s t : list nat) : option (list nat) := option_map (@rev nat) (bshape_rev (rev s) (rev t)).
Fixpoint indices (s : list nat) : list (list nat) :=
  match s with [] => [[]] | d :: s' => flat_map (fun i => map (cons i) (indices s')) (seq 0 d) end.
Fixpoint flatC (s idx : list nat) : nat :=
  match s, idx with d :: s', i :: idx' => i * fold_right Nat.mul 1%nat s' + flatC s' idx' | _, _ => 0 end.
(** the element an index of the broadcast array refers to *)
Definition getb (a : arr) (idx : list nat) : R :=
  let own := skipn (length idx - length (shape a)) idx in
  nth (flatC (shape a) (zipw (fun d i => if Nat.eqb d 1 then 0%nat else i) (shape a) own)) (vals a) 0.
Definition broadcast (f : R -> R -> R) (a b : arr) : option arr :=
  option_map (fun s => Arr s (map (fun idx => f (getb a idx) (getb b idx)) (indices s))) (bshape (shape a) (shape b)).

(** predictions for n points and c output columns: m(x) is squeezed when there is one column, v(x) is not *)
Definition m_x (c : nat) (mean : list R) : arr :=
  let n := (length mean / c)%nat in
  Arr (if Nat.eqb c 1 then (if Nat.eqb n 1 then [] else [n]) else [n; c]) mean.
Definition v_x (c : nat) (var : list R) : arr :=
  Arr (if Nat.eqb c 1 then [length var] else [length var; c]) (flat_map (fun v => repeat v c) var).

Definition phi (z : R) : R := exp (- z ^ 2 / 2) / sqrt (2 * PI).
Section Metrics.
Variables (Phi ppf : R -> R).    (* scipy.stats.norm.cdf and ppf *)

Definition crps_term (x mu sigma : R) : R :=
  Rabs (sigma * (1 / sqrt PI - 2 * phi ((x - mu) / sigma) - (x - mu) / sigma * (2 * Phi ((x - mu) / sigma) - 1))).
Definition crps (mx vx y : arr) : option (R * R) :=
  if shape_eqb (shape mx) (shape vx) && shape_eqb (shape vx) (shape y) then
    let res := zipw (fun xm s => crps_term (fst xm) (snd xm) s) (combine (vals y) (vals mx)) (map sqrt (vals vx)) in
    Some (mean_l res, sqrt (var_l res))
  else None.
Definition rmse (mx y : arr) : option R :=
  if shape_eqb (shape y) (shape mx)
  then Some (sqrt (sum_l (zipw (fun a b => (a - b) ^ 2) (vals y) (vals mx)) / INR (length (vals y)))) else None.
Definition max_l (l : list R) : R := fold_right Rmax (hd 0 l) l.
Definition min_l (l : list R) : R := fold_right Rmin (hd 0 l) l.
Definition nrmse (mx y : arr) : option R :=
  option_map (fun r => r / (max_l (vals y) - min_l (vals y))) (rmse mx y).
Definition nlpd_term (y m v : R) : R := 1 / 2 * ln (2 * PI * v) + 1 / 2 * (y - m) ^ 2 / v.
Definition nlpd (mx vx y : arr) : option R :=
  if shape_eqb (shape mx) (shape vx) && shape_eqb (shape vx) (shape y) then
    Some (mean_l (zipw (fun ym v => nlpd_term (fst ym) (snd ym) v) (combine (vals y) (vals mx)) (vals vx)))
  else None.
Definition r2 (mx y : arr) : option R :=
  if shape_eqb (shape mx) (shape y) then
    Some (1 - sum_l (zipw (fun a b => (a - b) ^ 2) (vals y) (vals mx)) / sum_l (map (fun a => (a - mean_l (vals y)) ^ 2) (vals y)))
  else None.
Definition z_of (interval : R) : R := ppf (1 - (1 - interval) / 2).
(** 1876-1908; [vx] includes the noise; None also stands for a broadcasting error *)
Definition picp (mx vx y : arr) (interval : R) : option R :=
  let z := z_of interval in
  let sigma := Arr (shape vx) (map sqrt (vals vx)) in
  match broadcast (fun m s => m - z * s) mx sigma, broadcast (fun m s => m + z * s) mx sigma with
  | Some lower, Some upper =>
      match broadcast (fun yt l => if Rle_dec l yt then 1 else 0) y lower, broadcast (fun yt u => if Rle_dec yt u then 1 else 0) y upper with
      | Some ge, Some le => Some (mean_l (zipw Rmult (vals ge) (vals le)))
      | _, _ => None
      end
  | _, _ => None
  end.
Definition coverage_curve (mx vx y : arr) (intervals : list R) : list (option R) := map (picp mx vx y) intervals.
Definition mpiw (vx : arr) (interval : R) : R :=
  mean_l (map (fun v => 2 * z_of interval * sqrt (Rmax v 0)) (vals vx)).
Definition interval_term (alpha z y m s : R) : R :=
  let lower := m - z * s in let upper := m + z * s in
  upper - lower + 2 / alpha * Rmax (lower - y) 0 + 2 / alpha * Rmax (y - upper) 0.
Definition interval_score (mx vx y : arr) (interval : R) : option R :=
  if shape_eqb (shape mx) (shape vx) && shape_eqb (shape vx) (shape y) then
    let alpha := 1 - interval in let z := ppf (1 - alpha / 2) in
    Some (mean_l (zipw (fun ym s => interval_term alpha z (fst ym) (snd ym) s) (combine (vals y) (vals mx)) (map sqrt (vals vx))))
  else None.
Definition mae (mx y : arr) : option R :=
  if shape_eqb (shape y) (shape mx) then Some (mean_l (zipw (fun a b => Rabs (a - b)) (vals y) (vals mx))) else None.
Definition mape (mx y : arr) : option R :=
  if shape_eqb (shape y) (shape mx) then Some (mean_l (zipw (fun a b => Rabs ((a - b) / a)) (vals y) (vals mx))) else None.
Definition msll (y_data : list R) (mx vx y : arr) : option R :=
  if shape_eqb (shape mx) (shape vx) && shape_eqb (shape vx) (shape y) then
    let nlpd_gp := mean_l (zipw (fun ym v => 1 / 2 * ln (2 * PI * v) + 1 / 2 * (fst ym - snd ym) ^ 2 / v) (combine (vals y) (vals mx)) (vals vx)) in
    let bm := mean_l y_data in let bv := var_l y_data in
    let nlpd_baseline := mean_l (map (fun yt => 1 / 2 * ln (2 * PI * bv) + 1 / 2 * (yt - bm) ^ 2 / bv) (vals y)) in
    Some (nlpd_gp - nlpd_baseline)
  else None.
End Metrics.
