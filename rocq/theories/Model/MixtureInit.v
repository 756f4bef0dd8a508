(** The mixture a GGMP starts from.  /repo/fvgp/ggmp.py: initLikelihoods 147-222, which also fixes the data of the component GPs, as
    only the weights are trained (680-689); NormalLikelihood 880-885.

    Numbers are real; arrays over the stations are lists.  The moments of a station are those of Model/GGMPDensity.v.
    Simplifications: init_mean and init_std are lists of arrays or None (170-171), with one entry for each station;
    np.linspace(-1.0, 1.0, K) is exact. *)
From Coq Require Import Reals List.
From Verif Require Import Model.Prelude Spec.Sums Model.GGMPDensity.
Import ListNotations.
Local Open Scope R_scope.

Inductive iexn := IAssert | IGrid (e : dexn) | IIndex.
Record lik := Lik { lk_mean : list R; lk_var : list R; lk_weight : R }.

(** 209: entry k of np.linspace(-1.0, 1.0, K) *)
Definition offset (K k : nat) : R := if (K =? 1)%nat then -1 else -1 + INR k * (2 / (INR K - 1)).
(** 180-204 *)
Fixpoint all_moments (ys : list (list R * list R)) : res iexn (list R * list R) :=
  match ys with
  | [] => Ok ([], [])
  | (domain, density) :: r =>
      match station_moments domain density with
      | Err e => Err (IGrid e)
      | Ok (mu, var) => match all_moments r with Err e => Err e | Ok (ms, vs) => Ok (mu :: ms, var :: vs) end
      end
  end.
Definition right_length (K : nat) (a : option (list (list R))) : bool := match a with None => true | Some l => (length l =? K)%nat end.
(** 218-220: the loop over the components; an index past the end raises *)
Fixpoint make (k : nat) (means stds : nat -> list R) (weights : list R) (n : nat) : res iexn (list lik) :=
  match n with
  | O => Ok []
  | S m =>
      match nth_error weights k with
      | None => Err IIndex
      | Some w => match make (S k) means stds weights m with
                  | Err e => Err e
                  | Ok l => Ok (Lik (means k) (map (fun s => s ^ 2) (stds k)) w :: l)
                  end
      end
  end.
Definition init_likelihoods (K : nat) (ys : list (list R * list R)) (init_mean init_std : option (list (list R))) (weights : option (list R)) : res iexn (list lik) :=
  if negb (right_length K init_mean && right_length K init_std) then Err IAssert else        (* 172-175 *)
  match all_moments ys with
  | Err e => Err e
  | Ok (base, vars) =>
      let means k := match init_mean with Some l => nth k l [] | None => map (fun m => m + offset K k) base end in    (* 206-210 *)
      let stds k := match init_std with Some l => nth k l [] | None => map sqrt vars end in                          (* 211-212 *)
      let ws := match weights with Some w => w | None => repeat (1 / rsum (fun _ => 1) K) K end in                   (* 214-216 *)
      make 0 means stds ws K
  end.
