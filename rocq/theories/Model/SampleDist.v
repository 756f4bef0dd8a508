(** Model of the distances between samples.  /repo/fvgp/ggmp.py: _as_2d 1036-1045, energy_distance_multivariate 1703-1716,
    sliced_wasserstein_distance 1719-1740, mmd_rbf 1743-1777.

    A sample is a number of columns with a list of rows; a one-dimensional array counts as one column.  Values are real
    numbers instead of floats.  Columns are matched the way numpy broadcasts the difference of the rows: equal numbers, or one
    column repeated.  The directions of the sliced distance are the draws of the generator; [w1] stands for
    scipy.stats.wasserstein_distance.  No proofs here. *)
From Coq Require Import Reals List Arith.
From Verif Require Import Model.Prelude Model.Ext Model.Kernels Model.Training Spec.Sums.
Import ListNotations.
Local Open Scope R_scope.

Record sample := { s_dim : nat; s_rows : list point }.
Inductive sexn := SEmpty | SShape.
(** _as_2d 1043-1044 *)
Definition as_2d (s : sample) : res sexn sample := match s_rows s with [] => Err SEmpty | _ => Ok s end.
(** numpy broadcasting of the last axis in the differences 1712-1714, 1759 *)
Definition columns (a b : sample) : option nat :=
  if s_dim a =? s_dim b then Some (s_dim a)
  else if s_dim a =? 1 then Some (s_dim b)
  else if s_dim b =? 1 then Some (s_dim a) else None.
Definition row (s : sample) (x : point) : point := fun i => if s_dim s =? 1 then x 0%nat else x i.

Definition lsum (l : list R) : R := fold_right Rplus 0 l.
Definition size (s : sample) : R := INR (length (s_rows s)).
(** all pairs of rows, first argument outermost *)
Definition table (f : point -> point -> R) (a b : sample) : list (list R) :=
  map (fun x => map (fun y => f (row a x) (row b y)) (s_rows b)) (s_rows a).
Definition total (f : point -> point -> R) (a b : sample) : R := lsum (map lsum (table f a b)).
Definition mean (f : point -> point -> R) (a b : sample) : R := total f a b / (size a * size b).

(** energy_distance_multivariate 1710-1716 *)
Definition energy_distance (a b : sample) : res sexn R :=
  match as_2d a, as_2d b with
  | Err e, _ | _, Err e => Err e
  | Ok a, Ok b =>
      match columns a b with
      | None => Err SShape
      | Some D => Ok (Rmax (2 * mean (distance D) a b - mean (distance (s_dim a)) a a - mean (distance (s_dim b)) b b) 0)
      end
  end.

(** mmd_rbf: _sqdist 1758-1759 *)
Definition sqdist (D : nat) (x y : point) : R := rsum (fun i => (x i - y i) ^ 2) D.
(** 1765-1767: the scale from the median of the cross distances, flattened *)
Definition auto_gamma (D : nat) (a b : sample) : R :=
  1 / Rmax (2 * median (concat (table (sqdist D) a b))) (/ 10 ^ 12).
(** 1769-1771, 1773-1776: the sum of a table with its diagonal set to zero *)
Definition off_diagonal (f : point -> point -> R) (a : sample) : R :=
  lsum (map (fun i => lsum (map (fun j => if i =? j then 0 else nth j (nth i (table f a a) []) 0) (seq 0 (length (s_rows a)))))
            (seq 0 (length (s_rows a)))).
Definition rbf (gamma : R) (D : nat) (x y : point) : R := exp (- gamma * sqdist D x y).
Definition mmd_rbf (gamma : option R) (a b : sample) : res sexn ext :=
  match as_2d a, as_2d b with
  | Err e, _ | _, Err e => Err e
  | Ok a, Ok b =>
      if ((length (s_rows a) <? 2) || (length (s_rows b) <? 2))%nat then Ok NaN
      else match columns a b with
      | None => Err SShape
      | Some D =>
          let g := match gamma with Some g => g | None => auto_gamma D a b end in
          Ok (Fin (off_diagonal (rbf g (s_dim a)) a / (size a * (size a - 1))
                   + off_diagonal (rbf g (s_dim b)) b / (size b * (size b - 1))
                   - 2 * (total (rbf g D) a b / (size a * size b))))
      end
  end.

(** sliced_wasserstein_distance 1729-1740; [draws] holds the directions drawn, max(1, n_projections) of them.  A product of rows and a
    direction needs as many columns as the first sample has. *)
Section Sliced.
Context (w1 : list R -> list R -> R).
Definition norm (d : nat) (v : point) : R := sqrt (rsum (fun i => v i ^ 2) d).
Definition unit_of (d : nat) (v : point) : point := fun i => v i / Rmax (norm d v) (/ 10 ^ 12).
Definition project (d : nat) (v : point) (s : sample) : list R := map (fun x => rsum (fun i => x i * v i) d) (s_rows s).
Definition sliced (n_projections : Z) (draws : nat -> point) (a b : sample) : res sexn R :=
  match as_2d a, as_2d b with
  | Err e, _ | _, Err e => Err e
  | Ok a, Ok b =>
      if s_dim a =? s_dim b then
        let n := Z.to_nat (Z.max 1 n_projections) in
        let d := s_dim a in
        Ok (lsum (map (fun t => w1 (project d (unit_of d (draws t)) a) (project d (unit_of d (draws t)) b)) (seq 0 n)) / INR n)
      else Err SShape
  end.
End Sliced.
