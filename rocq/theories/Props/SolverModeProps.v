(** C128: which solver an object and its evaluations use. *)
From Coq Require Import NArith Bool Lia.
From Verif Require Import Model.Solvers.
Local Open Scope N_scope.

(** the mode of an object with n points and nnz stored entries of K: the user's, else Cholesky, else -- with gp2Scale -- one chosen
    by size and density (at least one entry in ten thousand); an evaluation at the object's own size and density uses the object's
    mode, and without gp2Scale every evaluation does *)
Theorem solver_mode : forall gp2 lm n nnz,
  (forall m, lm = Some m -> state_mode gp2 lm n nnz = m) /\
  (gp2 = false -> lm = None -> state_mode gp2 lm n nnz = Chol) /\
  (gp2 = true -> lm = None ->
     let dense := n * n <= nnz * 10000 in
     (n <= 50000 -> ~ dense -> state_mode gp2 lm n nnz = SparseLU) /\ (n <= 2000 -> dense -> state_mode gp2 lm n nnz = Chol) /\
     (2000 < n -> dense -> state_mode gp2 lm n nnz = SparseMINRES) /\ (50000 < n -> state_mode gp2 lm n nnz = SparseMINRES)) /\
  eval_mode gp2 lm (state_mode gp2 lm n nnz) n nnz = state_mode gp2 lm n nnz /\
  (gp2 = false -> forall n' nnz', eval_mode gp2 lm (state_mode gp2 lm n nnz) n' nnz' = state_mode gp2 lm n nnz).
Proof.
  intros gp2 lm n nnz. unfold state_mode, eval_mode.
  split; [intros m ->; destruct gp2; reflexivity|]. split; [intros -> ->; reflexivity|]. split; [|split; [destruct gp2; reflexivity|intros ->; reflexivity]].
  intros -> ->. cbv zeta. unfold gp2Scale_mode. change c10000 with 10000. change c50001 with 50001. change c2001 with 2001.
  destruct (N.ltb_spec (nnz * 10000) (n * n)), (N.ltb_spec n 50001), (N.ltb_spec n 2001); cbn; repeat split; intros; try reflexivity; lia.
Qed.
Print Assumptions solver_mode.

(** 3000 points: sparse LU below 900 stored entries, MINRES from there on; 1000 points and a full matrix: Cholesky *)
Example solver_mode_ex : state_mode true None 3000 899 = SparseLU /\ state_mode true None 3000 900 = SparseMINRES /\
  state_mode true None 1000 1000000 = Chol /\ state_mode true (Some SparseCG) 1000 1000000 = SparseCG /\ state_mode false None 100000 5 = Chol.
Proof. repeat split; reflexivity. Qed.
