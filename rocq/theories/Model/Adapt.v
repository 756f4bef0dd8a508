(** gp_mcmc.py ProposalDistribution._adapt 343-361.

    Simplifications: real arithmetic; positions restricted to the indices of the distribution are functions from
    0..d-1; [None] stands for NaN (np.mean of nothing, np.cov of fewer than two samples). *)
From Coq Require Import Reals.
From Verif Require Import Model.Prelude.
Local Open Scope R_scope.

Definition lsum {A} (f : A -> R) (l : list A) : R := fold_right (fun a s => f a + s) 0 l.
(** l[start:end] with start = end - K + 1 *)
Definition window {A} (e K : nat) (l : list A) : list A := firstn (K - 1) (skipn (e - K + 1) l).
Definition mean {A} (f : A -> R) (l : list A) : R := lsum f l / INR (length l).
(** np.cov of the samples 358: normalized by N - 1 *)
Definition cov (l : list (nat -> R)) (i j : nat) : R :=
  lsum (fun x => (x i - mean (fun y => y i) l) * (x j - mean (fun y => y j) l)) l / (INR (length l) - 1).
Definition gamma2 (c1 : R) (e K : nat) : R := / Rpower (INR e / INR K + 3) c1.

Record dist := Dist { d_sigma : R; d_cov : nat -> nat -> R }.
Definition adapt_normal (c0 c1 r_opt : R) (K : nat) (adapt_cov : bool) (e : nat) (jumps : list R) (xs : list (nat -> R)) (s : dist) : option dist :=
  if Nat.eqb (e mod K) 0 then
    let g2 := gamma2 c1 e K in
    let g1 := c0 * g2 in
    match window e K jumps with
    | [] => None
    | js =>
        let sigma := exp (ln (d_sigma s) + g1 * (mean (fun r => r) js - r_opt)) in
        if adapt_cov then
          match window e K xs with
          | [] | [_] => None
          | w => Some (Dist sigma (fun i j => d_cov s i j + g2 * (cov w i j - d_cov s i j)))
          end
        else Some (Dist sigma (d_cov s))
    end
  else Some s.
