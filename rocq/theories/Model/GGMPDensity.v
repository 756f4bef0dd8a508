(** Model of the numerical helpers of the GGMP.  /repo/fvgp/ggmp.py: station moments in initLikelihoods 180-204, posterior_mean 719-724,
    posterior_variance 761-778, _normalize_pdf 933-950, optimize_weights_em_multivariate_samples 1584-1647, optimize_weights_em_density 2345-2399,
    bhattacharyya_distance 2402-2414, kl_divergence 2417-2427, wasserstein_1d 2430-2441.

    Numbers are real; None stands for nan or an infinity in a density.  Arrays over the components are functions of the component, of
    which there are K; a station of the EM is the list of its grid points (or samples) with their weight and their component log densities.
    The conversions by asarray, float and int and the logging are left out.  No proofs here. *)
From Coq Require Import Reals Lra.
From Verif Require Import Model.Prelude Spec.Sums.
Local Open Scope R_scope.

Fixpoint lsum (l : list R) : R := match l with [] => 0 | x :: r => x + lsum r end.
Fixpoint map2 {X Y Z} (f : X -> Y -> Z) (l : list X) (m : list Y) : list Z :=
  match l, m with x :: l', y :: m' => f x y :: map2 f l' m' | _, _ => [] end.

(** ** densities on grids *)
Inductive dexn := DShape | DGradient.                    (* ValueError at 942; ValueError of np.gradient *)
(** np.gradient of an array of one dimension, unit spacing; it needs two points *)
Definition gradient (l : list R) : res dexn (list R) :=
  let n := length l in let at_ i := nth i l 0 in
  if (n <? 2)%nat then Err DGradient
  else Ok (map (fun i => if (i =? 0)%nat then at_ 1%nat - at_ 0%nat
                         else if (i =? n - 1)%nat then at_ (n - 1)%nat - at_ (n - 2)%nat
                         else (at_ (i + 1)%nat - at_ (i - 1)%nat) / 2) (seq 0 n)).
Fixpoint all_some {X} (l : list (option X)) : option (list X) :=
  match l with [] => Some [] | Some x :: r => option_map (cons x) (all_some r) | None :: _ => None end.
Definition pos (x : R) : R := Rmax x 0.
(** 933-950: (domain, p, dx) *)
Definition normalize_pdf (domain : list R) (density : list (option R)) : res dexn (list R * list R * list R) :=
  if negb (length domain =? length density)%nat then Err DShape
  else match gradient domain with
       | Err e => Err e
       | Ok g =>
           let dx := map Rabs g in let n := length domain in
           let fallback := (domain, repeat (1 / INR n) n, repeat (1 * (1 / INR n)) n) in
           match all_some density with
           | None => Ok fallback                                       (* z is not finite *)
           | Some d =>
               let z := lsum (map2 Rmult (map pos d) dx) in
               if Rle_dec z 0 then Ok fallback
               else Ok (domain, map (fun x => pos x / z) d, dx)
           end
       end.
(** 184-204: mean and variance of a station *)
Definition mean (l : list R) : R := lsum l / INR (length l).
Definition station_moments (domain density : list R) : res dexn (R * R) :=
  match gradient domain with
  | Err e => Err e
  | Ok g =>
      let dx := map Rabs g in
      let mass := map2 Rmult (map pos density) dx in
      let z := lsum mass in
      let '(mu, var) :=
        if Rle_dec z 0 then (mean domain, mean (map (fun x => (x - mean domain) * (x - mean domain)) domain))
        else let p := map (fun m => m / z) mass in
             let mu := lsum (map2 Rmult p domain) in (mu, lsum (map2 Rmult p (map (fun x => (x - mu) * (x - mu)) domain))) in
      Ok (mu, Rmax var (/ 1000000))
  end.

(** ** posterior of the mixture at one point: 721-724, 763-778 *)
Section Mix.
Context (K : nat).
Definition normalized (w : nat -> R) : nat -> R := fun k => w k / rsum w K.
Definition mix_mean (w m : nat -> R) : R := rsum (fun k => normalized w k * m k) K.
(** [v]: posterior variances of the GPs; [noise k]: the variances of component k at the stations *)
Definition mix_var (w m v : nat -> R) (noise : nat -> list R) : R :=
  let var k := v k + mean (noise k) in
  let mt := mix_mean w m in
  rsum (fun k => normalized w k * var k) K + rsum (fun k => normalized w k * ((m k - mt) * (m k - mt))) K.
End Mix.

(** ** EM for the weights *)
Section EM.
Context (K : nat) (tiny : R).                            (* 1e-300 *)
Definition row := (R * (nat -> R))%type.                 (* weight p_obs * dx (1 for a sample), log densities of the components *)
Definition station := list row.
Definition rowsum (f : row -> R) (ts : list station) : R := lsum (map (fun t => lsum (map f t)) ts).
(** one iteration: 2370-2384 with [extra] = 0, 1614-1634 with [extra] = 1e-300 *)
Definition log_w (w : nat -> R) (k : nat) : R := ln (Rmax (w k) tiny).
Definition log_den (w : nat -> R) (x : row) : R := ln (rsum (fun k => exp (snd x k + log_w w k)) K).
Definition resp (w : nat -> R) (x : row) (k : nat) : R := exp (snd x k + log_w w k - log_den w x).
Definition counts (w : nat -> R) (ts : list station) (k : nat) : R := rowsum (fun x => fst x * resp w x k) ts.
Definition obj (w : nat -> R) (ts : list station) : R := rowsum (fun x => fst x * log_den w x) ts.
Definition em_new (extra floor : R) (ts : list station) (w : nat -> R) : nat -> R :=
  let c := counts w ts in
  let u k := c k / (rsum c K + extra) in
  let v k := Rmax (u k) floor in
  fun k => v k / rsum v K.
Definition delta (w' w : nat -> R) : R := rsum (fun k => Rabs (w' k - w k)) K.
(** 2370-2397, 1613-1645: final weights, w_hist, obj_hist *)
Fixpoint em_loop (extra floor tol : R) (ts : list station) (n : nat) (w : nat -> R) : (nat -> R) * list (nat -> R) * list R :=
  match n with
  | O => (w, [], [])
  | S m =>
      let w' := em_new extra floor ts w in
      let o := obj w ts in
      if Rlt_dec (delta w' w) tol then (w', [w'], [o])
      else let '(wf, wh, oh) := em_loop extra floor tol ts m w' in (wf, w' :: wh, o :: oh)
  end.
(** 2359-2364, 1604-1609 *)
Definition em_start (w0 : option (nat -> R)) : nat -> R :=
  match w0 with
  | None => fun _ => 1 / INR K
  | Some w => let v k := Rmax (w k) (/ 1000000000000) in fun k => v k / rsum v K
  end.
Definition em (extra floor tol : R) (ts : list station) (max_iter : nat) (w0 : option (nat -> R)) := em_loop extra floor tol ts max_iter (em_start w0).
End EM.

(** ** distances between densities on a grid *)
Section Dist.
Context (tiny : R).                                      (* 1e-300 *)
Definition unit_mass (dx p : list R) : list R := let q := map pos p in map (fun x => x / (lsum (map2 Rmult q dx) + tiny)) q.
Definition with_grid {X} (domain p q : list R) (f : list R -> X) : res dexn X :=
  match gradient domain with Err e => Err e | Ok g => Ok (f (map Rabs g)) end.
Definition bhattacharyya (domain p q : list R) : res dexn R :=
  if negb ((length domain =? length p) && (length p =? length q))%nat then Err DShape
  else with_grid domain p q (fun dx =>
    let p' := unit_mass dx p in let q' := unit_mass dx q in
    - ln (Rmax (lsum (map2 Rmult (map2 (fun a b => sqrt (pos (a * b))) p' q') dx)) tiny)).
Definition kl_divergence (domain p q : list R) : res dexn R :=
  with_grid domain p q (fun dx =>
    let p' := unit_mass dx p in let q' := unit_mass dx q in
    lsum (map2 Rmult (map2 (fun a b => a * (ln (a + tiny) - ln (b + tiny))) p' q') dx)).
Fixpoint cumsum (acc : R) (l : list R) : list R := match l with [] => [] | x :: r => (acc + x) :: cumsum (acc + x) r end.
Definition wasserstein_1d (domain p q : list R) : res dexn R :=
  with_grid domain p q (fun dx =>
    let F := cumsum 0 (map2 Rmult (unit_mass dx p) dx) in let G := cumsum 0 (map2 Rmult (unit_mass dx q) dx) in
    lsum (map2 Rmult (map2 (fun a b => Rabs (a - b)) F G) dx)).
End Dist.
