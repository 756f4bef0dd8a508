(** Partial derivatives of functions of a row of real hyperparameters, Gaussian log density. *)
From Coq Require Import Reals.
From mathcomp Require Import all_ssreflect all_algebra.
From Verif Require Import Proofs.RealMx.
Set Implicit Arguments.
Unset Strict Implicit.
Unset Printing Implicit Defensive.
Import GRing.Theory.
Local Open Scope ring_scope.
(** h with entry i set to t *)
Definition with_hp p (h : 'rV[R]_p) (i : 'I_p) (t : R) : 'rV[R]_p := \row_j (if j == i then t else h 0 j).
Definition partial_at p (f : 'rV[R]_p -> R) (h : 'rV[R]_p) (i : 'I_p) (l : R) : Prop :=
  derivable_pt_lim (fun t => f (with_hp h i t)) (h 0 i) l.
Definition symmetric n (A : 'M[R]_n) : Prop := forall i j, A i j = A j i.
(** minus the log density of a Gaussian with mean m and covariance S at the observed vector y *)
Definition neg_log_gauss n (y m : 'cV[R]_n) (S : 'M[R]_n) : R :=
  ((1 / 2%:R) * (((y - m)^T *m invmx S *m (y - m)) 0 0 + ln (\det S) + n%:R * ln (2%:R * PI)%R))%R.
