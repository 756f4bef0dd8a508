(** Array formats and dtypes on the way of the noise into covariances: gp_kv.py addKV 639-669; gp_posterior.py posterior_mean
    139-146 and posterior_mean_grad 184-192 (explicit hyperparameters), add_noise 554-569; gp_likelihood.py calculate_V 89-94,
    _finitediff_dnoise_dh 123-133, _finitediff_dnoise_dh_econ 136-144; gp_marginal_likelihood.py neg_log_likelihood_gradient
    242-253, 256-271, 290-304 (which formats are accepted).

    Simplifications: exact reals, with the dtype of an array because a write into an integer array truncates (FiniteDiff.store);
    square matrices; broadcasting of arrays of size one is included, a single data point with longer noise arrays is not.  Under
    gp2Scale the covariance is a scipy sparse matrix, otherwise a dense array.  No proofs here. *)
From Coq Require Import Reals Arith.
From Verif Require Import Model.FiniteDiff.
Local Open Scope R_scope.

Record mat := Mat { dt : dtype; dim : nat; ent : nat -> nat -> R }.
Inductive cov := Dense (m : mat) | Sparse (m : mat).
(** what a noise function may return, gp.py 133-136 *)
Inductive noise := NVec (d : dtype) (len : nat) (v : nat -> R) | NMat (m : mat) | NSparse (m : mat).
Inductive failure := ENotDiagonal | ELength | EShape | ENoiseType | EAssign | ERefused.
Inductive out (A : Type) := Done (a : A) | Fails (e : failure).
Arguments Done {A} a. Arguments Fails {A} e.

Definition promote (a b : dtype) : dtype := match a, b with DInt, DInt => DInt | _, _ => DFloat end.
(** index into an axis of size [k] that is broadcast if [k] is one *)
Definition bix (k i : nat) : nat := if Nat.eqb k 1 then O else i.
Definition fits (k n : nat) : bool := Nat.eqb k n || Nat.eqb k 1.
(** K + V *)
Definition add_mat (K V : mat) : mat := Mat (promote (dt K) (dt V)) (dim K) (fun i j => ent K i j + ent V (bix (dim V) i) (bix (dim V) j)).
(** KV = K.copy(); fill_diagonal(KV, diag(K) + V), and KV.setdiag(K_diag + V): values are stored in the dtype of K *)
Definition set_diag (K : mat) (v : nat -> R) : mat :=
  Mat (dt K) (dim K) (fun i j => if Nat.eqb i j then store (dt K) (ent K i i + v i) else ent K i j).

(** addKV 640-669 *)
Definition addKV (K : cov) (V : noise) : out cov :=
  match K, V with
  | Sparse k, NSparse v => if Nat.eqb (dim v) (dim k) then Done (Sparse (add_mat k v)) else Fails EShape      (* 645-647 *)
  | Sparse k, NVec _ len v => if Nat.eqb len (dim k) then Done (Sparse (set_diag k v)) else Fails ELength      (* 649-656 *)
  | Sparse _, NMat _ => Fails ENotDiagonal                                                                     (* 649 *)
  | Dense k, NSparse v | Dense k, NMat v => if fits (dim v) (dim k) then Done (Dense (add_mat k v)) else Fails EShape (* 658-663 *)
  | Dense k, NVec _ len v => if fits len (dim k) then Done (Dense (set_diag k (fun i => v (bix len i)))) else Fails EShape (* 664-667 *)
  end.

(** np.diag of a vector *)
Definition np_diag (d : dtype) (len : nat) (v : nat -> R) : mat := Mat d len (fun i j => if Nat.eqb i j then v i else 0).
(** the matrix behind a prediction with hyperparameters=None: the one stored by _refresh, gp_kv.py 413-417 *)
Definition stored_KV (K : cov) (V : noise) : out cov := addKV K V.
(** gp_posterior.py 142-146, 188-191: hyperparameters given *)
Definition explicit_KV (K : cov) (V : noise) : out cov :=
  addKV K (match V with NVec d len v => NMat (np_diag d len v) | _ => V end).

(** add_noise 554-569: variances, covariance (float arrays of size n) and the noise at the prediction points; 557 is outside the try block *)
Definition add_noise (n : nat) (v : nat -> R) (S : nat -> nat -> R) (N : noise) : out ((nat -> R) * (nat -> nat -> R)) :=
  match N with
  | NSparse _ => Fails ENoiseType                                                            (* 557 *)
  | NVec d len w => if fits len n                                                            (* 559-561; a mismatch only warns 568-569 *)
                    then Done (fun i => v i + w (bix len i), ent (add_mat (Mat DFloat n S) (np_diag d len w)))
                    else Done (v, S)
  | NMat m => if fits (dim m) n
              then Done (fun i => v i + ent m (bix (dim m) i) (bix (dim m) i), ent (add_mat (Mat DFloat n S) m))
              else Done (v, S)
  end.

(** neg_log_likelihood_gradient with finite-difference noise derivatives: [Done tt] if the noise format is accepted.  In 133 a difference
    of sparse matrices is assigned to a slice of an array, which raises; the ram_economy branch adds it to an array *)
Definition gradient (K : cov) (V : noise) (ram_economy : bool) : out unit :=
  match K with
  | Sparse _ => Fails ERefused                                                               (* 242 *)
  | Dense _ => match addKV K V with
               | Fails e => Fails e
               | Done _ => match V with
                           | NSparse _ => if ram_economy then Done tt else Fails EAssign
                           | _ => Done tt
                           end
               end
  end.
