(** Scalar derivatives used by the examples of LikelihoodProps.v. *)
From Coq Require Import Reals Lra.
From Coquelicot Require Import Coquelicot.
Local Open Scope R_scope.
Definition g1 (a m s : R) : R := 1 / 2 * ((a - m) * (a - m) / s + ln s + ln (2 * PI)).
Lemma g1_mean a s m : s <> 0 -> derivable_pt_lim (fun t => g1 a t s) m (- (a - m) / s).
Proof. intros H. apply is_derive_Reals. unfold g1. auto_derive; [exact I|]. field. exact H. Qed.
Lemma g1_var a m s : 0 < s -> derivable_pt_lim (fun t => g1 a m t) s (- (1 / 2) * ((a - m) * (a - m) / (s * s) - 1 / s)).
Proof. intros H. apply is_derive_Reals. unfold g1. auto_derive; [repeat split; lra|]. field. lra. Qed.
