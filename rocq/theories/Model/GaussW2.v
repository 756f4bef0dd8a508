(** Model of the distance between Gaussian components.  /repo/fvgp/ggmp.py: _sym_psd 1210-1213, _sqrtm_psd 1216-1221,
    gaussian_w2_squared 1224-1244.  No proofs here.

    Numbers are elements of a real closed field (exact arithmetic).  [eigh] stands for np.linalg.eigh: eigenvalues and a matrix whose columns are
    eigenvectors.  Vectors of means are columns; shapes agree (numpy would raise or broadcast otherwise). *)
From mathcomp Require Import all_ssreflect all_algebra.
Set Implicit Arguments.
Unset Strict Implicit.
Unset Printing Implicit Defensive.
Import GRing.Theory Num.Theory.
Local Open Scope ring_scope.

Section W2.
Variables (R : rcfType) (n : nat) (eigh : 'M[R]_n -> 'rV[R]_n * 'M[R]_n).

(** 1e-12, default of the argument eps 1216 *)
Definition eps : R := (10%:R ^+ 12)^-1.
(** 1213 *)
Definition sym_psd (A : 'M[R]_n) : 'M[R]_n := 2%:R^-1 *: (A + A^T).
(** 1218-1221 *)
Definition sqrtm_psd (A : 'M[R]_n) : 'M[R]_n :=
  let A := sym_psd A in
  let: (vals, vecs) := eigh A in
  let vals := map_mx (fun v => Num.max v eps) vals in
  (vecs *m diag_mx (map_mx Num.sqrt vals)) *m vecs^T.
(** 1235-1244 *)
Definition gaussian_w2_squared (mean_a : 'cV[R]_n) (cov_a : 'M[R]_n) (mean_b : 'cV[R]_n) (cov_b : 'M[R]_n) : R :=
  let cov_a := sym_psd cov_a in
  let cov_b := sym_psd cov_b in
  let diff := mean_a - mean_b in
  let term_mean := (diff^T *m diff) 0 0 in
  let sqrt_a := sqrtm_psd cov_a in
  let mid := sym_psd (sqrt_a *m cov_b *m sqrt_a) in
  let sqrt_mid := sqrtm_psd mid in
  let term_cov := \tr (cov_a + cov_b - 2%:R *: sqrt_mid) in
  term_mean + Num.max term_cov 0.
End W2.
