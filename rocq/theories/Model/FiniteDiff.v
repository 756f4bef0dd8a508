(** Finite-difference derivatives with respect to hyperparameters: gp_prior.py _dkernel_dh 438-447, _kernel_gradient 411-415,
    _kernel_derivative 417-419, _finitediff_dm_dh 460-470; gp_likelihood.py _finitediff_dnoise_dh 123-133,
    _finitediff_dnoise_dh_econ 136-144; gp_marginal_likelihood.py test_log_likelihood_gradient 338-369.

    Simplifications: exact real arithmetic; an entry of the returned array is indexed by [T] (a point, or a pair of points);
    hyperparameter arrays are functions of the index together with the dtype of the array, because np.array(hps) keeps it and
    an assignment to an element of an integer array truncates towards zero. *)
From Coq Require Import Reals Lra.
Local Open Scope R_scope.

Inductive dtype := DFloat | DInt.
(** a[i] = v *)
Definition truncate (v : R) : R := if Rle_dec 0 v then IZR (Int_part v) else - IZR (Int_part (- v)).
Definition store (dt : dtype) (v : R) : R := match dt with DFloat => v | DInt => truncate v end.
Definition set_item (dt : dtype) (h : nat -> R) (i : nat) (v : R) : nat -> R :=
  fun j => if Nat.eqb j i then store dt v else h j.

Section FD.
Variable T : Type.
(** (a - b) / width with a at h[i] + e and b at h[i] - e *)
Definition central (dt : dtype) (e width : R) (f : (nat -> R) -> T -> R) (h : nat -> R) (i : nat) (t : T) : R :=
  (f (set_item dt h i (h i + e)) t - f (set_item dt h i (h i - e)) t) / width.

Definition dkernel_dh (dt : dtype) (k : (nat -> R) -> T -> R) (direction : nat) (h : nat -> R) : T -> R :=
  central dt (/ 10 ^ 8) (2 * / 10 ^ 8) k h direction.
(** without and with ram_economy *)
Definition kernel_gradient (dt : dtype) (k : (nat -> R) -> T -> R) (h : nat -> R) : nat -> T -> R := fun direction => dkernel_dh dt k direction h.
Definition kernel_derivative (dt : dtype) (k : (nat -> R) -> T -> R) (h : nat -> R) (direction : nat) : T -> R := dkernel_dh dt k direction h.
Definition finitediff_dm_dh (dt : dtype) (m : (nat -> R) -> T -> R) (h : nat -> R) : nat -> T -> R :=
  fun i t => central dt (/ 10 ^ 6) (2 / 10 ^ 6) m h i t.
Definition finitediff_dnoise_dh (dt : dtype) (V : (nat -> R) -> T -> R) (h : nat -> R) : nat -> T -> R :=
  fun i t => central dt (/ 10 ^ 6) (2 / 10 ^ 6) V h i t.
Definition finitediff_dnoise_dh_econ (dt : dtype) (V : (nat -> R) -> T -> R) (h : nat -> R) (i : nat) : T -> R :=
  fun t => central dt (/ 10 ^ 6) (2 / 10 ^ 6) V h i t.
End FD.

(** test_log_likelihood_gradient 357-368: the finite-difference half *)
Definition test_gradient (dt : dtype) (ll : (nat -> R) -> R) (eps : R) (h : nat -> R) (i : nat) : R :=
  (ll (set_item dt h i (h i + eps)) - ll h) / eps.
