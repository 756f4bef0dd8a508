(** gp.py plot_observed_vs_predicted 2105-2127 and gaussian_1d 2148-2150; gp_posterior.py, the shapes of m(x) and v(x)
    163-182 and 264-281.

    Simplifications: matplotlib is installed (2096-2103 otherwise warn and return); what is drawn is the list of points with
    their error bars and the ends of the line y = x, without labels and colours; entries are real numbers, no NaN.  matplotlib's
    errorbar refuses lists of different sizes, and error bars that do not broadcast to the size of the points. *)
From Coq Require Import Reals List.
From Verif Require Import Model.Prelude.
Import ListNotations.
Local Open Scope R_scope.

(** arrays of one or two dimensions; reshape(-1) reads row after row *)
Inductive arr := A1 (l : list R) | A2 (rows : list (list R)).
Definition flat (a : arr) : list R := match a with A1 l => l | A2 r => concat r end.

Inductive perr := PSizes | PBars | PEmpty.
Record picture := Picture { drawn : list (R * R * R); line_lo : R; line_hi : R }.

(** broadcasting a vector to n entries *)
Definition broadcast (n : nat) (l : list R) : option (list R) :=
  if (length l =? n)%nat then Some l else match l with [v] => Some (repeat v n) | _ => None end.
(** numpy's min and max, which raise on empty arrays *)
Definition amin (l : list R) : option R := match l with [] => None | v :: r => Some (fold_left Rmin r v) end.
Definition amax (l : list R) : option R := match l with [] => None | v :: r => Some (fold_left Rmax r v) end.

Definition obs_plot (y_test y_pred y_var : arr) : res perr picture :=
  let y := flat y_test in let m := flat y_pred in                                        (* 2107-2108 *)
  let s := map (fun v => sqrt (Rmax v 0)) (flat y_var) in                                (* 2109 *)
  if negb (length y =? length m)%nat then Err PSizes else                                (* 2113 *)
  match broadcast (length m) s with
  | None => Err PBars
  | Some e =>
      let below := map (fun p => fst p - snd p) (combine m e) in
      let above := map (fun p => fst p + snd p) (combine m e) in
      match amin y, amin below, amax y, amax above with
      | Some a, Some b, Some c, Some d => Ok (Picture (combine (combine y m) e) (Rmin a b) (Rmax c d))   (* 2117-2119 *)
      | _, _, _, _ => Err PEmpty
      end
  end.

(** the predictions of a GP for the points [m] (rows of c columns) with variances [v]: m(x) is squeezed when there is one column,
    v(x) is tiled when there are several *)
Definition m_x (c : nat) (m : list (list R)) : arr := if (c =? 1)%nat then A1 (concat m) else A2 m.
Definition v_x (c : nat) (v : list R) : arr := if (1 <? c)%nat then A2 (map (fun x => repeat x c) v) else A1 v.
Definition gp_plot (c : nat) (y_test : arr) (m : list (list R)) (v : list R) : res perr picture := obs_plot y_test (m_x c m) (v_x c v).
(** multi-task predictions are arrays of points and tasks, one variance for each *)
Definition task_plot (y_test : arr) (m v : list (list R)) : res perr picture := obs_plot y_test (A2 m) (A2 v).

(** 2148-2150 *)
Definition gaussian_1d (x mu sigma : R) : R :=
  let coefficient := 1 / (sqrt (2 * PI) * sigma) in
  let exponent := - ((x - mu) ^ 2) / (2 * sigma ^ 2) in
  coefficient * exp exponent.
