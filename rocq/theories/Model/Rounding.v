(** Double precision where it decides the outcome: the steps of the finite differences gp_prior.py _d_kernel_dx 402-409, _dkernel_dh
    438-447, _finitediff_dm_dh 460-470, gp_likelihood.py _finitediff_dnoise_dh 123-133, gp_posterior.py 203-208, 303-307, 367-373,
    gp_marginal_likelihood.py 330-335, 358-363; the linear dimensions of the unit-cube transform gp_bo.py 83-98; the 1e-9 on
    the diagonal gp_posterior.py 336, 353, 465-472; the retries with a shifted diagonal gp_lin_alg.py 514-531 and 800-827.

    Simplifications: every operation is the exact one followed by rounding to the nearest double, ties to even; overflow, infinities
    and NaN are not modelled.  User functions are arbitrary functions of the doubles they receive.  exp and log are not modelled
    (logarithmic dimensions are left out). *)
From Coq Require Import Reals ZArith List.
From Flocq Require Import Core.
Local Open Scope R_scope.

Definition fl (x : R) : R := round radix2 (FLT_exp (-1074) 53) ZnearestE x.
(** a literal 1e-k *)
Definition lit (k : nat) : R := fl (/ 10 ^ k).

(** ** differences; [f] as a function of the one component that is moved *)
(** (f(x + eps) - f(x)) / eps *)
Definition forward (e : R) (f : R -> R) (x : R) : R := fl (fl (f (fl (x + e)) - f x) / e).
(** (f(x + eps) - f(x - eps)) / width *)
Definition central (e width : R) (f : R -> R) (x : R) : R := fl (fl (f (fl (x + e)) - f (fl (x - e))) / width).
(** gp_prior.py 402-409 *)
Definition d_kernel_dx : (R -> R) -> R -> R := forward (lit 8).
(** gp_prior.py 438-447: the width is 2.0 * epsilon *)
Definition dkernel_dh : (R -> R) -> R -> R := central (lit 8) (fl (2 * lit 8)).
(** gp_prior.py 460-470, gp_likelihood.py 125-146: the width is the literal 2e-6 *)
Definition finitediff_dh : (R -> R) -> R -> R := central (lit 6) (fl (2 / 10 ^ 6)).
(** gp_posterior.py 203-208 (the mean) and 303-307, 321-325 (the covariance); gp_marginal_likelihood.py 330-335 and 358-363 with the default epsilon *)
Definition forward_6 : (R -> R) -> R -> R := forward (lit 6).
(** gp_posterior.py 367-377: the width is 2.0 * eps *)
Definition central_6 : (R -> R) -> R -> R := central (lit 6) (fl (2 * lit 6)).

(** ** from_unit in a linear dimension, gp_bo.py 85 and 94-98 *)
Definition span (lo hi : R) : R := if Rlt_dec lo hi then fl (hi - lo) else 1.
Definition from_unit (lo hi u : R) : R := fl (lo + fl (Rmin (Rmax u 0) 1 * span lo hi)).

(** ** A + np.identity(n) * c *)
Definition on_diagonal (c : R) (A : nat -> nat -> R) : nat -> nat -> R := fun i j => fl (A i j + fl ((if Nat.eqb i j then 1 else 0) * c)).
(** gp_posterior.py 336, 353, 450-451, 465-472 *)
Definition jitter : (nat -> nat -> R) -> nat -> nat -> R := on_diagonal (lit 9).

(** ** the matrices tried by _shifted_dense_cholesky and the incomplete Cholesky (514-531, 751-754), default options *)
Definition next_dense (s : R) : R := if Req_EM_T s 0 then lit 10 else fl (s * 10).
(** _shift_retry_ilupp_factor 802-827 *)
Definition next_ilupp (s : R) : R := Rmax (fl (s * 10)) (lit 12).
Fixpoint shifts (next : R -> R) (s : R) (attempts : nat) : list R :=
  match attempts with O => nil | S k => s :: shifts next (next s) k end.
Definition tried (next : R -> R) (A : nat -> nat -> R) : list (nat -> nat -> R) :=
  map (fun s => if Req_EM_T s 0 then A else on_diagonal s A) (shifts next 0 5).
