(** Vocabulary for statements about a recorded search: the incumbent after some evaluations. *)
From Coq Require Import Reals.
From Verif Require Import Model.Prelude Model.BO.
Local Open Scope R_scope.
(** [e] is the earliest evaluation with the smallest value *)
Definition incumbent (evs : list ev) (e : ev) : Prop := exists i, nth_error evs i = Some e /\
  (forall e', In e' evs -> ev_y e <= ev_y e') /\ forall j e', (j < i)%nat -> nth_error evs j = Some e' -> ev_y e < ev_y e'.
(** the evaluation number k + 1 brought no progress: relative to the spread of the values seen so far the best value
    improved by at most f, and the best point moved by at most d *)
Definition no_progress (f d : R) (evs : list ev) (k : nat) : Prop := forall old new w,
  incumbent (firstn k evs) old -> incumbent (firstn (S k) evs) new -> In w (firstn (S k) evs) ->
  (forall e, In e (firstn (S k) evs) -> ev_y e <= ev_y w) ->
  ev_y old - ev_y new <= f * (if Rlt_dec (ev_y new) (ev_y w) then ev_y w - ev_y new else Rmax (Rabs (ev_y new)) 1) /\
  dist (ev_u new) (ev_u old) <= d.
