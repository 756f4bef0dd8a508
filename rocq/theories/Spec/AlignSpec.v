(** What the alignment of local mixtures is to achieve. *)
From Coq Require Import Reals Lra Permutation Relations.
From Verif Require Import Model.Prelude Spec.Sums Model.Align.

(** inputs i and j are the same point *)
Definition same_input (d : nat) (x : nat -> nat -> R) (i j : nat) : Prop := forall k, k < d -> x i k = x j k.

(** ** contracts of scipy *)
(** undirected edges of a matrix, restricted to the first n *)
Definition linked (n : nat) (a : nat -> nat -> R) (i j : nat) : Prop := i < n /\ j < n /\ (a i j <> 0 \/ a j i <> 0)%R.
Definition connected (n : nat) (a : nat -> nat -> R) : nat -> nat -> Prop := clos_refl_trans nat (linked n a).
(** minimum_spanning_tree of a dense matrix: a zero entry is no edge; the result has some of the edges, each once, and connects whatever is connected *)
Definition mst_contract (mst : nat -> (nat -> nat -> R) -> nat -> nat -> R) : Prop :=
  forall n a, (forall i j, (0 <= a i j)%R) ->
    (forall i j, i < n -> j < n -> mst n a i j = 0%R \/ mst n a i j = a i j) /\
    (forall i j, i < n -> j < n -> mst n a i j <> 0%R -> mst n a j i = 0%R) /\
    (forall i j, linked n a i j -> connected n (mst n a) i j).
(** linear_sum_assignment: a permutation of the columns of the least total cost *)
Definition total_cost (K : nat) (cost : nat -> nat -> R) (perm : list nat) : R := rsum (fun i => cost i (nth i perm 0)) K.
Definition lsa_contract (lsa : nat -> (nat -> nat -> R) -> list nat) : Prop :=
  forall K cost, Permutation (lsa K cost) (seq 0 K) /\ forall perm, Permutation perm (seq 0 K) -> (total_cost K cost (lsa K cost) <= total_cost K cost perm)%R.

(** ** the result of a search *)
Fixpoint before (l : list nat) (u v : nat) : Prop :=           (* u stands before v *)
  match l with [] => False | x :: r => (x = u /\ In v r) \/ before r u v end.
(** order: every one of the n inputs once, the root first, every other one after its parent, to which it is joined *)
Record traversal (n root : nat) (edge : nat -> nat -> Prop) (order : list nat) (ps : nat -> parent) : Prop := {
  tr_all : Permutation order (seq 0 n);
  tr_root : hd_error order = Some root /\ ps root = Root;
  tr_parent : forall v, v < n -> v <> root -> exists u, ps v = Par u /\ before order u v /\ edge u v }.

(** ** aligned mixtures *)
Section Mixtures.
Context {M V : Type} (w2 : M * V -> M * V -> R).
Definition shaped (K : nat) (g : @gmm M V) : Prop := length (weights g) = K /\ length (means g) = K /\ length (covs g) = K.
Definition parts (g : @gmm M V) : list (R * (M * V)) := combine (weights g) (combine (means g) (covs g)).
(** [g'] is [g] with its components relabelled by [perm]: component i of g' is component perm[i] of g, with its weight, mean and covariance *)
Definition relabelled (K : nat) (perm : list nat) (g g' : @gmm M V) : Prop :=
  Permutation perm (seq 0 K) /\ shaped K g' /\ forall i p, nth_error perm i = Some p -> nth_error (parts g') i = nth_error (parts g) p.
(** the total cost of pairing the components of the same label *)
Definition label_cost (g h : @gmm M V) : R := fold_right Rplus 0%R (map (fun ab => w2 (fst ab) (snd ab)) (combine (combine (means g) (covs g)) (combine (means h) (covs h)))).
(** no relabelling of [h] fits [ref] better *)
Definition best_match (K : nat) (ref h : @gmm M V) : Prop := forall perm h', relabelled K perm h h' -> (label_cost ref h <= label_cost ref h')%R.
End Mixtures.
