(** Predictions drawn against observations. *)
From Coq Require Import Reals List.
From Verif Require Import Model.Prelude Model.ObsPlot.
Import ListNotations.
Local Open Scope R_scope.

(** n points and T outputs; a vector has one output *)
Definition shape (n T : nat) (a : arr) : Prop :=
  match a with A1 l => length l = n /\ T = 1%nat | A2 r => length r = n /\ forall x, In x r -> length x = T end.
(** the value of output t at point p *)
Definition val_at (a : arr) (p t : nat) : R := match a with A1 l => nth p l 0 | A2 r => nth t (nth p r []) 0 end.
(** [s] is the standard deviation of a variance, zero if that is negative *)
Definition std_of (v s : R) : Prop := 0 <= s /\ (0 <= v -> s * s = v) /\ (v <= 0 -> s = 0).
(** the smallest interval that contains all values *)
Definition spans (lo hi : R) (P : R -> Prop) : Prop := (forall v, P v -> lo <= v <= hi) /\ P lo /\ P hi.
(** the picture of n points and T outputs: observations, means and variances *)
Definition shows (n T : nat) (r : res perr picture) (y m v : nat -> nat -> R) : Prop :=
  exists pic, r = Ok pic /\ length (drawn pic) = (n * T)%nat /\
    (forall p t, (p < n)%nat -> (t < T)%nat -> exists s, std_of (v p t) s /\ nth_error (drawn pic) (p * T + t) = Some (y p t, m p t, s)) /\
    spans (line_lo pic) (line_hi pic) (fun z => exists p t s, (p < n)%nat /\ (t < T)%nat /\ std_of (v p t) s /\
      (z = y p t \/ z = m p t - s \/ z = m p t + s)).
