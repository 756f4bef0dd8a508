(** What a deep kernel should provide, stated without the network's code. *)
From Coq Require Import Reals List Arith.
Import ListNotations.
Local Open Scope R_scope.

(** a kernel that depends on the differences of the coordinates only *)
Definition diffs (x y : list R) : list R := map (fun p => fst p - snd p) (combine x y).
Definition stationary (k : list R -> list R -> R) : Prop := forall x y x' y', length x = length y -> length x' = length y' ->
  diffs x y = diffs x' y' -> k x y = k x' y'.
(** positive semidefinite: all quadratic forms over finite lists of points are non-negative *)
Fixpoint sum (l : list R) : R := match l with [] => 0 | a :: l' => a + sum l' end.
Definition quad (k : list R -> list R -> R) (cx : list (R * list R)) : R :=
  sum (map (fun p => sum (map (fun q => fst p * fst q * k (snd p) (snd q)) cx)) cx).
Definition psd_kernel (k : list R -> list R -> R) : Prop := forall cx, 0 <= quad k cx.
(** a matrix with r rows and c columns *)
Definition shaped (r c : nat) (w : list (list R)) : Prop := length w = r /\ Forall (fun row => length row = c) w.
