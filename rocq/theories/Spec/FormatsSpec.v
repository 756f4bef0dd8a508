(** The mathematical content of covariances and noise, whatever their format. *)
From Coq Require Import Reals Arith.
From Verif Require Import Model.FiniteDiff Model.Formats.
Local Open Scope R_scope.

Definition matrix_of (K : cov) : mat := match K with Dense m | Sparse m => m end.
Definition is_int (x : R) : Prop := exists z : Z, x = IZR z.
(** integer arrays hold integers *)
Definition sound (m : mat) : Prop := dt m = DInt -> forall i j, is_int (ent m i j).
(** the covariance matrix that a noise value of the right size stands for *)
Definition noise_cov (V : noise) (i j : nat) : R :=
  match V with NVec _ _ v => if Nat.eqb i j then v i else 0 | NMat m | NSparse m => ent m i j end.
Definition noise_size (V : noise) : nat := match V with NVec _ len _ => len | NMat m | NSparse m => dim m end.
(** [A] is [M] as an n by n matrix *)
Definition holds (n : nat) (A : cov) (M : nat -> nat -> R) : Prop :=
  dim (matrix_of A) = n /\ forall i j, (i < n)%nat -> (j < n)%nat -> ent (matrix_of A) i j = M i j.
Definition same (A B : cov) : Prop := holds (dim (matrix_of A)) B (ent (matrix_of A)).
