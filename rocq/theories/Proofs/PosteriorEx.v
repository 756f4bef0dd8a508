(** A covariance function for the examples: f x f y. *)
From Coq Require Import Reals List Lra.
From Verif Require Import Spec.KernelSpec.
Local Open Scope R_scope.
Section Rank1.
Context {X : Type} (f : X -> R).
Let s (l : list (R * X)) : R := sum_list (map (fun p => fst p * f (snd p)) l).
Lemma inner c d l : sum_list (map (fun q => c * fst q * (d * f (snd q))) l) = c * d * s l.
Proof. unfold s; induction l as [|a l IH]; cbn; [ring|]. change (sum_list (map (fun q => c * fst q * (d * f (snd q))) l)) with (fold_right Rplus 0 (map (fun q => c * fst q * (d * f (snd q))) l)) in IH.
rewrite IH. cbn. unfold sum_list. ring. Qed.
Lemma outer t l : sum_list (map (fun p => fst p * f (snd p) * t) l) = s l * t.
Proof. unfold s; induction l as [|a l IH]; cbn; [ring|]. unfold sum_list in IH. rewrite IH. cbn. ring. Qed.
Lemma rank1_valid : valid_covariance (fun x y => f x * f y).
Proof.
split; [intros; ring|]. intros l. unfold quad_form.
rewrite (map_ext _ (fun p => fst p * f (snd p) * s l)).
- rewrite outer. apply Rle_0_sqr.
- intros p. apply inner.
Qed.
End Rank1.
