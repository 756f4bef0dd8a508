(** What the mixture fits promise, independently of how they are computed. *)
From Coq Require Import Reals List Permutation Sorted Arith.
From Verif Require Import Spec.Sums.
Import ListNotations.
Local Open Scope R_scope.

(** np.argsort: positions in the order of the values; which of equal values comes first is left open *)
Definition argsort_contract (argsort : list R -> list nat) : Prop :=
  forall l, Permutation (argsort l) (seq 0 (length l)) /\ StronglySorted Rle (map (fun i => nth i l 0) (argsort l)).

(** The density of a normal distribution; variances below 1e-12 count as 1e-12. *)
Definition normal (m v y : R) : R := / sqrt (2 * PI * Rmax v (/ 10 ^ 12)) * exp (- ((y - m) ^ 2 / (2 * Rmax v (/ 10 ^ 12)))).
Section EM.
(** K components; weights w, means m, variances v; n observations y *)
Context (K n : nat) (w : nat -> R) (y : nat -> R).
Definition share (m v : nat -> R) (i k : nat) : R :=
  w k * normal (m k) (v k) (y i) / (rsum (fun j => w j * normal (m j) (v j) (y i)) K + / 10 ^ 12).
Definition mass (m v : nat -> R) (k : nat) : R := rsum (fun i => share m v i k) n + / 10 ^ 12.
(** [m'], [v'] are the weighted means and variances under the shares of [m], [v]. *)
Definition em_image (m v m' v' : nat -> R) : Prop :=
  forall k, (k < K)%nat ->
    m' k = rsum (fun i => share m v i k * y i) n / mass m v k /\
    v' k = rsum (fun i => share m v i k * (y i - m' k) ^ 2) n / mass m v k + / 10 ^ 6.
(** [m'], [v'] come from [m], [v] by at least one and at most [t] such steps; the first step that changes no mean by [tol] or more is the last. *)
Inductive em_run (tol : R) : nat -> (nat -> R) -> (nat -> R) -> (nat -> R) -> (nat -> R) -> Prop :=
| run_last t m v m' v' : em_image m v m' v' -> (t = 1%nat \/ forall k, (k < K)%nat -> Rabs (m' k - m k) < tol) -> (1 <= t)%nat -> em_run tol t m v m' v'
| run_more t m v m1 v1 m' v' : em_image m v m1 v1 -> (exists k, (k < K)%nat /\ tol <= Rabs (m1 k - m k)) -> em_run tol t m1 v1 m' v' -> em_run tol (S t) m v m' v'.
End EM.
(** Weights made positive and normalised. *)
Definition normalised (K : nat) (w : nat -> R) (k : nat) : R := Rmax (w k) (/ 10 ^ 12) / rsum (fun j => Rmax (w j) (/ 10 ^ 12)) K.
(** The density of a mixture. *)
Definition mixture_density (K : nat) (w m v : nat -> R) (y : R) : R := rsum (fun k => w k * normal (m k) (v k) y) K.
Definition quadratic (d : nat) (c : nat -> nat -> R) (x : nat -> R) : R := rsum (fun i => rsum (fun j => x i * c i j * x j) d) d.
