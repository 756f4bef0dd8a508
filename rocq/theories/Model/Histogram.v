(** Model of the density of samples: /repo/fvgp/ggmp.py empirical_pdf_from_samples 954-964, on top of _normalize_pdf (Model/GGMPDensity.v).

    Numbers are real.  np.histogram(y, bins=b, density=True) is its documentation: b bins of equal width between the smallest and the
    largest sample (half a unit below and above if those are equal; between 0 and 1 without samples, where density divides 0 by 0),
    every bin contains its left edge, the last one also its right edge.  Samples that are nan or infinite (ValueError) are left out.
    No proofs here. *)
From Coq Require Import Reals Lra.
From Verif Require Import Model.Prelude Model.GGMPDensity.
Local Open Scope R_scope.

Fixpoint smallest (a : R) (l : list R) : R := match l with [] => a | x :: r => smallest (Rmin a x) r end.
Fixpoint largest (a : R) (l : list R) : R := match l with [] => a | x :: r => largest (Rmax a x) r end.
(** the outer edges *)
Definition outer (y : list R) : R * R :=
  match y with
  | [] => (0, 1)
  | a :: r => let lo := smallest a r in let hi := largest a r in if Req_EM_T lo hi then (lo - / 2, hi + / 2) else (lo, hi)
  end.
Definition width (b : nat) (y : list R) : R := (snd (outer y) - fst (outer y)) / INR b.
Definition edge (b : nat) (y : list R) (i : nat) : R := fst (outer y) + INR i * width b y.
Definition in_bin (b : nat) (y : list R) (i : nat) (x : R) : bool :=
  if Rle_dec (edge b y i) x then
    if (i =? b - 1)%nat then true else if Rlt_dec x (edge b y (i + 1)) then true else false
  else false.
Definition count (b : nat) (y : list R) (i : nat) : nat := length (filter (in_bin b y i) y).
Definition hist (b : nat) (y : list R) (i : nat) : R := INR (count b y i) / (INR (length y) * width b y).
(** 954-964: centers, density *)
Definition empirical_pdf (floor : R) (b : nat) (y : list R) : res dexn (list R * list R) :=
  let centers := map (fun i => / 2 * (edge b y i + edge b y (i + 1))) (seq 0 b) in
  let density := match y with [] => repeat None b | _ => map (fun i => Some (Rmax (hist b y i) floor)) (seq 0 b) end in
  match normalize_pdf centers density with Ok (c, d, _) => Ok (c, d) | Err e => Err e end.
