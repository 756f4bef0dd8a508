(** Model of the mixture fits of one station.  /repo/fvgp/ggmp.py: gaussian_pdf 924-930, fit_gmm_fixed_weights 967-1033, _as_2d 1036-1045,
    _covariances_to_full 1048-1080, fit_gmm_free_weights_multivariate 1083-1156, fit_local_gmms_multivariate 1159-1207.

    Real numbers stand for floats.  [argsort] stands for np.argsort; [start] for the initial means found by k-means or, without scikit-learn, by quantiles
    (993-1004); [mixture] for GaussianMixture(...).fit, None if it raises.  A component is a pair of mean and variance.  Of the diagnostics (info) only the number of
    restarts is kept.  No proofs here. *)
From Coq Require Import Reals List Arith ZArith String.
From Verif Require Import Model.Prelude.
Import ListNotations.
Local Open Scope R_scope.

Definition lsum (l : list R) : R := fold_right Rplus 0 l.
Definition tiny : R := / 10 ^ 12.
(** x[order] *)
Definition take {A} (l : list A) (order : list nat) : list A :=
  flat_map (fun i => match nth_error l i with Some a => [a] | None => [] end) order.

(** gaussian_pdf 928-930 *)
Definition gaussian_pdf (x mu var : R) : R :=
  let var := Rmax var tiny in exp (- (1 / 2) * (x - mu) ^ 2 / var) / sqrt (2 * PI * var).

Notation comp := (R * R)%type.
Section Fit.
Context (argsort : list R -> list nat).
(** 988-989, 1134-1135 *)
Definition floored (floor : R) (w : list R) : list R :=
  let w := map (fun x => Rmax x floor) w in map (fun x => x / lsum w) w.
(** 1016-1020: one row of responsibilities *)
Definition e_row (w : list R) (cs : list comp) (y : R) : list R :=
  let r := map (fun p => fst p * gaussian_pdf y (fst (snd p)) (snd (snd p))) (combine w cs) in
  map (fun x => x / (lsum r + tiny)) r.
(** 1023-1027 *)
Definition m_one (ys r : list R) : comp :=
  let N := lsum r + tiny in
  let mu := lsum (map (fun p => fst p * snd p) (combine r ys)) / N in
  (mu, lsum (map (fun p => fst p * (snd p - mu) ^ 2) (combine r ys)) / N + / 10 ^ 6).
Definition em_step (w ys : list R) (cs : list comp) : list comp :=
  let resp := map (e_row w cs) ys in
  map (fun k => m_one ys (map (fun row => nth k row 0) resp)) (seq 0 (length cs)).
(** 1029 *)
Definition max_change (cs cs' : list comp) : R :=
  fold_right Rmax 0 (map (fun p => Rabs (fst (snd p) - fst (fst p))) (combine cs cs')).
(** 1013-1030 *)
Fixpoint em_loop (n : nat) (tol : R) (w ys : list R) (cs : list comp) : list comp :=
  match n with
  | O => cs
  | S m => let cs' := em_step w ys cs in
           if Rlt_dec (max_change cs cs') tol then cs' else em_loop m tol w ys cs'
  end.
(** np.var 1009 *)
Definition average_of (l : list R) : R := lsum l / INR (length l).
Definition variance_of (l : list R) : R := average_of (map (fun y => (y - average_of l) ^ 2) l).

(** The argument means_init: absent; an array that np.asarray(...).reshape(-1) does not copy (contiguous, of floats); or something that is copied. *)
Inductive initial := Default | Shared (m : list R) | Copied (m : list R).
Inductive fexn := FEmpty | FWeights | FMeans | FNoComponent.
(** Result: what the call returns, and the content of the caller's means_init afterwards (1026 assigns to its entries if it is shared). *)
Definition fit_fixed (start : list R -> nat -> list R) (ys : list R) (K : Z) (w : list R) (init : initial) (max_iter : Z) (tol : R)
  : res fexn (list comp) * initial :=
  if (length ys =? 0)%nat then (Err FEmpty, init)
  else if negb (Z.of_nat (length w) =? K)%Z then (Err FWeights, init)
  else
    let w := floored tiny w in
    let means := match init with Default => start ys (length w) | Shared m | Copied m => m end in
    if negb (length means =? length w)%nat then (Err FMeans, init)
    else
      let v := variance_of ys / IZR (Z.max K 1) in
      let n := Z.to_nat max_iter in
      if (length w =? 0)%nat && (0 <? n)%nat then (Err FNoComponent, init)      (* np.max of an empty array 1029 *)
      else
        let cs := em_loop n tol w ys (map (fun m => (m, v)) means) in
        (Ok (take cs (argsort (map fst cs))), match init with Shared _ => Shared (map fst cs) | _ => init end).
End Fit.

(** ** free weights *)
(** covariances_ of scikit-learn, by type *)
Inductive covs := Full (l : list (nat -> nat -> R)) | Diag (l : list (nat -> R)) | Spherical (l : list R) | Tied (m : nat -> nat -> R).
Definition eye (i j : nat) : R := if (i =? j)%nat then 1 else 0.
(** _covariances_to_full 1068-1080 *)
Definition to_full (K : nat) (c : covs) : list (nat -> nat -> R) :=
  match c with
  | Full l => l
  | Diag l => map (fun v i j => if (i =? j)%nat then v i else 0) l
  | Spherical l => map (fun s i j => eye i j * s) l
  | Tied m => repeat m K
  end.
Record raw := { r_weights : list R; r_means : list (nat -> R); r_covs : covs }.
Record gmm := { g_weights : list R; g_means : list (nat -> R); g_covs : list (nat -> nat -> R) }.
Record station := { y_rows : list (nat -> R); y_dim : nat }.
Inductive gexn := GEmpty | GFew | GFit | GIndex.
Section Free.
Context (argsort : list R -> list nat) (mixture : station -> nat -> Z -> option Z -> option raw).   (* samples, K, restarts, seed *)
Definition fit_free (y : station) (K : nat) (n_init : Z) (seed : option Z) (floor : R) (sort_if_1d : bool) : res gexn (gmm * Z) :=
  if (length (y_rows y) =? 0)%nat then Err GEmpty
  else if (length (y_rows y) <? K)%nat then Err GFew
  else match mixture y K (Z.max 1 n_init) seed with
  | None => Err GFit
  | Some r =>
      let w := floored floor (r_weights r) in
      let c := to_full K (r_covs r) in
      let order := if sort_if_1d && (y_dim y =? 1)%nat then argsort (map (fun m => m 0%nat) (r_means r)) else seq 0 (length w) in
      Ok ({| g_weights := take w order; g_means := take (r_means r) order; g_covs := take c order |}, Z.max 1 n_init)
  end.
(** fit_local_gmms_multivariate 1180-1207: the station with number i gets the seed random_state + i *)
Fixpoint fit_stations (ys : list station) (i : nat) (K : nat) (n_init : Z) (seed : option Z) (floor : R) : res gexn (list gmm) :=
  match ys with
  | [] => Ok []
  | y :: r =>
      match fit_free y K n_init (option_map (fun s => (s + Z.of_nat i)%Z) seed) floor false with
      | Err e => Err e
      | Ok (g, _) => match fit_stations r (S i) K n_init seed floor with Err e => Err e | Ok l => Ok (g :: l) end
      end
  end.
(** 1207: the dimension is read off the first station *)
Definition fit_local (ys : list station) (K : nat) (n_init : Z) (seed : option Z) (floor : R) : res gexn (list gmm * nat) :=
  match fit_stations ys 0 K n_init seed floor with
  | Err e => Err e
  | Ok l => match ys with [] => Err GIndex | y :: _ => Ok (l, y_dim y) end
  end.
End Free.
