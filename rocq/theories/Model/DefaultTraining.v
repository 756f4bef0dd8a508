(** A GP left to its defaults: gp.py 499-501 (hyperparameters), _get_default_hyperparameter_bounds 752-774, train 1019-1036 with
    method "mcmc", gp_training.py 53-54, 146-161, gp_mcmc.py 69-93 (the proposal distribution made from the bounds), 280-319.

    Simplifications: those of Model/MCMC.v, Model/AdaptRun.v, Model/Training.v and Model/TrainPlan.v; the log likelihood is a
    function of the hyperparameters; [svd_draw] is np.random.multivariate_normal for a diagonal covariance only: NumPy multiplies
    independent standard normal numbers by the square roots of the singular values, which the singular value decomposition
    lists from the largest to the smallest, and turns the result back to the axes (signs +1).  No proofs here. *)
From Coq Require Import Reals.
From Verif Require Import Model.Prelude Model.Ext Model.Kernels Model.MCMC Model.AdaptRun Model.Training Model.TrainPlan.
Local Open Scope R_scope.

(** np.ones(self.index_set_dim + 1) *)
Definition ones (D : nat) : vec := repeat (Fin 1) (D + 1).
(** x_data[:, i] *)
Definition columns (D : nat) (xs : list point) : list (list R) := map (fun i => map (fun x => x i) xs) (seq 0 D).
Definition ebox (b : list (R * R)) : box := map (fun p => (Fin (fst p), Fin (snd p))) b.

(** gp_mcmc.py 80-88 with the default arguments of 236-246 *)
Definition default_proposal (b : list (R * R)) : prop nargs :=
  let std k := let p := nth k b (0, 0) in (snd p - fst p) * (2 / 10) / sqrt 12 in
  Prop_ (seq 0 (length b)) false []
    (NArgs (234 / 1000) 10 (8 / 10) 10 true (Some ((24 / 10) ^ 2 / INR (length b)))
       (Some (fun k l => if Nat.eqb k l then std k ^ 2 else 0))).

Inductive dt_err := DBounds (e : bounds_err) | DStart (e : train_err) | DRun (e : mcmc_err) | DNoInfo.
Section Run.
Variables (Omega : Type) (draw : option (nat -> nat -> R) -> Omega -> list ext -> list ext).
(** train(method="mcmc", max_iter=n_updates, init_hyperparameters=init) without bounds, on Euclidean data: what the sampler
    recorded and the hyperparameters it returned ("median(x)"; a KeyError if nothing was recorded); [us] are the numbers of
    np.random.uniform, [rnd] those of the sampler *)
Definition train_mcmc (D : nat) (y : list R) (xs : list point) (lik : vec -> ext) (init : option vec) (current : vec)
    (us : nat -> R) (n_updates : nat) (rnd : nat -> nat -> Omega * R) : res dt_err (info * vec) :=
  match default_bounds true (length current) y (columns D xs) with
  | Err e => Err (DBounds e)
  | Ok b =>
      match start_point init current (ebox b) us with
      | Err e => Err (DStart e)
      | Ok x0 =>
          match run_mcmc nargs Omega lik (training_prior (ebox b)) (normal_proposal Omega draw) adapt_args x0 n_updates rnd default_break [default_proposal b] with
          | Err e => Err (DRun e)
          | Ok (_, None) => Err DNoInfo
          | Ok (_, Some inf) => Ok (inf, mcmc_result (length x0) (i_window inf))
          end
      end
  end.
End Run.

(** the position of coordinate [j] in the list of singular values of a diagonal matrix, equal ones in the order of the axes *)
Definition rank (M : nat -> nat -> R) (n j : nat) : nat :=
  length (filter (fun k => if Rlt_dec (M j j) (M k k) then true else if Req_EM_T (M k k) (M j j) then Nat.ltb k j else false) (seq 0 n)).
Definition svd_draw (M : option (nat -> nat -> R)) (w : nat -> R) (x : list ext) : list ext :=
  match M with
  | None => map (fun _ => NaN) x
  | Some C => map (fun p => eadd (snd p) (Fin (sqrt (C (fst p) (fst p)) * w (rank C (length x) (fst p))))) (combine (seq 0 (length x)) x)
  end.
