(** The Wendland kernels on a GPU, in single precision: kernels.py _get_distance_matrix_gpu 531-536, wendland_anisotropic_gp2Scale_gpu 539-591
    and _wendland_support_aware_gpu_triplets 741-824 with _whiten_gp2scale_points 642-646.

    Simplifications: one entry of the matrix, inputs with one column; torch and cupy compute the same; every operation is the exact one followed by
    rounding to nearest (single precision on the device, double precision on the host), without overflow; powers are rounded once; the signal variance of the sparse variant is not rounded by itself; a
    GPU is available.  The neighbour search of cKDTree returns the pairs at (double precision) distance at most one; a pair that is not
    in the triplets is a zero of the matrix.  No proofs here. *)
From Coq Require Import Reals.
From Verif Require Import Model.DeepKernel Model.Rounding.
Local Open Scope R_scope.

(** 570, 584: hps[0] * (1. - d) ** 8 * (32. * d ** 3 + 25. * d ** 2 + 8. * d + 1.) *)
Definition poly32 (h0 d : R) : R :=
  let a := single (h0 * single (single (1 - d) ^ 8)) in
  let b := single (single (single (single (32 * single (d ^ 3)) + single (25 * single (d ^ 2))) + single (8 * d)) + 1) in
  single (a * b).
(** 531-536 *)
Definition dist32 (x1 x2 h : R) : R := single (sqrt (single (0 + single (single (single (x1 - x2) / h) ^ 2)))).
(** 562-571: inputs and hyperparameters are cast first *)
Definition gpu_dense (h0 h x1 x2 : R) : R := poly32 (single h0) (Rmin (dist32 (single x1) (single x2) (single h)) 1).
(** 754-824: whitened in double precision, the difference is cast *)
Definition gpu_sparse (h0 h x1 x2 : R) : R :=
  let diff := fl (fl (x2 / h) - fl (x1 / h)) in
  if Rle_dec (Rabs diff) 1 then
    let dsq := single (single diff * single diff) in
    if Rle_dec dsq 1 then poly32 h0 (single (sqrt (Rmin dsq 1))) else 0
  else 0.
