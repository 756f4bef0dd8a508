(** Prediction grids and the gp2Scale time estimate.  /repo/fvgp/gp.py: make_2d_x_pred 2153-2176, make_1d_x_pred 2178-2197,
    get_gp2Scale_exec_time 2199-2219 (the tasks it speaks of are in Gp2Scale.v).  Exact arithmetic.  No proofs here. *)
From Coq Require Import Reals.
From Verif Require Import Model.Prelude.
Local Open Scope R_scope.

(** np.linspace(a, b, num): the last point is the stop value itself *)
Definition linspace (a b : R) (num : nat) : list R :=
  match num with
  | O => []
  | 1%nat => [a]
  | S m => map (fun i => a + INR i * ((b - a) / INR m)) (seq 0 m) ++ [b]
  end.
(** itertools.product: the last factor moves fastest *)
Definition make_2d_x_pred (bx by_ : R * R) (resx resy : nat) : list (R * R) :=
  flat_map (fun x => map (fun y => (x, y)) (linspace (fst by_) (snd by_) resy)) (linspace (fst bx) (snd bx) resx).
(** reshape(res, -1) of an empty array raises *)
Definition make_1d_x_pred (b : R * R) (res : nat) : option (list R) :=
  match res with O => None | _ => Some (linspace (fst b) (snd b) res) end.

(** D points, batches of b points, seconds per task, workers *)
Definition exec_time (D b n : nat) (tb : R) : R := (INR D ^ 2 * tb) / (2 * INR n * INR b ^ 2).
