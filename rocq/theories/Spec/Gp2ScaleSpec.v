(** Specification vocabulary for the distributed covariance. *)
From Coq Require Export Permutation.
From Verif Require Import Model.Prelude Model.Gp2Scale.
Local Open Scope nat_scope.

(** consecutive non-empty ranges from [a] to [n] *)
Fixpoint chain (a : nat) (l : list (nat * nat)) (n : nat) : Prop :=
  match l with [] => a = n | (s, e) :: r => s = a /\ s < e /\ chain e r n end.

Section Spec.
  Context {P H F : Type} (f0 : F) (fadd : F -> F -> F).
  Fixpoint fsum (l : list F) : F := match l with [] => f0 | a :: r => fadd a (fsum r) end.
  (** entry (i, j) of a list of triplets; duplicates add up *)
  Definition get (l : list (@trip F)) (i j : nat) : F :=
    fsum (map td (filter (fun t => Z.eqb (tr t) (Z.of_nat i) && Z.eqb (tc t) (Z.of_nat j)) l)).
  Definition in_shape (r c : nat) (l : list (@trip F)) : Prop :=
    forall t, In t l -> (0 <= tr t < Z.of_nat r)%Z /\ (0 <= tc t < Z.of_nat c)%Z.
  (** the sparse matrix [m] is the r x c matrix with entries [g] *)
  Definition is_matrix (m : spm) (r c : nat) (g : nat -> nat -> F) : Prop :=
    nr m = r /\ nc m = c /\ in_shape r c (ents m) /\ forall i j, i < r -> j < c -> get (ents m) i j = g i j.
  (** covariance of two point sets, entry by entry *)
  Definition cov (k : P -> P -> H -> F) (xs ys : list P) (h : H) (i j : nat) : F :=
    match nth_error xs i, nth_error ys j with Some a, Some b => k a b h | _, _ => f0 end.
  (** the kernel callable, when it does not raise, returns the matrix of [k], dense or sparse *)
  Definition kernel_is (kernel : list P -> list P -> H -> res cexn (@kout F)) (k : P -> P -> H -> F) : Prop :=
    forall xs ys h o, kernel xs ys h = Ok o ->
      match o with
      | KDense c rows => c = length ys /\ length rows = length xs /\
          (forall r, In r rows -> length r = length ys) /\
          forall i j, i < length xs -> j < length ys -> nth j (nth i rows []) f0 = cov k xs ys h i j
      | KSparse m => is_matrix m (length xs) (length ys) (cov k xs ys h)
      end.
End Spec.

(** completes every task, in any order *)
Definition faithful {A : Type} (cl : list A -> list A) : Prop := forall l, Permutation (cl l) l.
(** completes every task, in any order, some of them with a failure *)
Definition lossy {F} (cl : @cluster_t F) : Prop :=
  forall l, exists l', Permutation (cl l) l' /\
    Forall2 (fun a b => fst a = fst b /\ (snd b = snd a \/ exists e, snd b = Err e)) l l'.

(** ** sessions: the data and hyperparameters the user has supplied *)
Section Session.
  Context {P H F : Type}.
  Fixpoint supplied (x : list P) (os : list (@pop P H F)) : list P :=
    match os with
    | [] => x
    | PAppend xn _ _ :: r => supplied (x ++ xn) r
    | POverwrite xn _ :: r => supplied xn r
    | PSetHps _ _ :: r => supplied x r
    end.
  Fixpoint chosen (h : H) (os : list (@pop P H F)) : H :=
    match os with
    | [] => h
    | PSetHps h' _ :: r => chosen h' r
    | _ :: r => chosen h r
    end.
  Definition points (o : @pop P H F) : nat :=
    match o with PAppend x _ _ | POverwrite x _ => length x | PSetHps _ _ => 0 end.
  (** all points ever supplied still have 64-bit indices *)
  Definition few (x : list P) (os : list (@pop P H F)) : Prop :=
    (Z.of_nat (length x + list_sum (map points os)) < 2 ^ 63)%Z.
  (** the cluster may fail tasks and complete them in any order *)
  Definition on_cluster (o : @pop P H F) : Prop :=
    match o with PAppend _ cB cD => lossy cB /\ lossy cD | POverwrite _ c | PSetHps _ c => lossy c end.
  Definition accepted (rs : list (res cexn unit)) : Prop := forall r, In r rs -> r = Ok tt.
End Session.

(** ** accounting of futures *)
Fixpoint occ (e : event) (l : list event) : nat :=
  match l with
  | [] => 0
  | a :: r => (match a, e with
               | EvScatter i, EvScatter j | EvRelease i, EvRelease j
               | EvSubmit i, EvSubmit j | EvTaskRelease i, EvTaskRelease j => if i =? j then 1 else 0
               | _, _ => 0
               end) + occ e r
  end.
(** entries of the block a task asks the kernel for *)
Definition task_entries (n1 n2 : nat) (t : task) : nat :=
  match t with
  | TBlock (a, b) (c, d) => (b - a) * (d - c)
  | TRow (a, b) => (b - a) * n2
  | TCol (a, b) => n1 * (b - a)
  end.
