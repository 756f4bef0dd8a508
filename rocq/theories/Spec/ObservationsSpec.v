(** What can be done to a set of observations that should not matter, or matter in a known way. *)
From Coq Require Import Reals.
From mathcomp Require Import all_ssreflect all_algebra all_fingroup.
From Verif Require Import Proofs.RealMx Model.Observations.
Set Implicit Arguments.
Unset Strict Implicit.
Unset Printing Implicit Defensive.
Import GRing.Theory.
Local Open Scope ring_scope.

(** the same observations in another order *)
Definition reordered X n c (s : 'S_n) (d : obs X n c) : obs X n c :=
  Obs (fun i => o_x d (s i)) (\matrix_(i, j) o_y d (s i) j) (\col_i o_nv d (s i) 0).
(** every value plus b *)
Definition moved X n c (b : R) (d : obs X n c) : obs X n c := Obs (o_x d) (\matrix_(i, j) (o_y d i j + b)) (o_nv d).
(** every value in another unit *)
Definition rescaled X n c (a : R) (d : obs X n c) : obs X n c :=
  Obs (o_x d) (\matrix_(i, j) (a * o_y d i j)) (\col_i (a ^+ 2 * o_nv d i 0)).
(** both sets of observations *)
Definition joined X n p c (d : obs X n c) (e : obs X p c) : obs X (n + p) c :=
  Obs (fun i => match split i with inl j => o_x d j | inr j => o_x e j end) (col_mx (o_y d) (o_y e)) (col_mx (o_nv d) (o_nv e)).
(** the values of one output *)
Definition output X n c (j : 'I_c) (d : obs X n c) : obs X n 1 := Obs (o_x d) (col j (o_y d)) (o_nv d).
(** the mean and noise functions that go with the other origin or unit; the defaults stay the defaults *)
Definition shift_mean X (b : R) (mk : mean_arg X) : mean_arg X :=
  match mk with DefaultMean => DefaultMean | GivenMean m => GivenMean (fun x => m x + b) end.
Definition scale_mean X (a : R) (mk : mean_arg X) : mean_arg X :=
  match mk with DefaultMean => DefaultMean | GivenMean m => GivenMean (fun x => a * m x) end.
Definition scale_noise X (a : R) (nk : noise_arg X) : noise_arg X :=
  match nk with DefaultNoise => DefaultNoise | MeasuredNoise => MeasuredNoise | NoiseFunction v => NoiseFunction (fun x => a ^+ 2 * v x) end.
(** v(x) and S in the square of the unit *)
Definition scale_cov q (a : R) (r : 'cV[R]_q * option 'M[R]_q) : 'cV[R]_q * option 'M[R]_q :=
  (a ^+ 2 *: r.1, if r.2 is Some S0 then Some (a ^+ 2 *: S0) else None).
