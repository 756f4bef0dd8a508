(** The number of input columns a GP remembers: gp_data.py 27-34 (set at construction), 93-103 (not touched by an overwrite);
    gp_posterior.py _perform_input_checks 576-583; gp_prior.py _default_kernel 383-400; gp.py _get_default_hyperparameter_bounds
    752-774; gp.py update_gp_data 739-749 for append=False.

    Simplifications: Euclidean inputs given as lists of rows, all rows of an array having the same number of columns; one task; default
    kernel and hyperparameters.  Only the parts of the state that depend on the columns are kept: points, hyperparameters, the
    remembered dimension and the covariance.  Rows are at least one.  No proofs here. *)
From Coq Require Import Reals List Arith Bool.
Import ListNotations.
Local Open Scope R_scope.

Definition point := list R.
(** a two-dimensional array: number of columns and rows *)
Record arr := Arr { cols : nat; rows : list point }.
Definition matrix := list (list R).

Section Dims.
  (** the kernel as a function of the squared scaled distance: matern_kernel_diff1(sqrt(.), 1) *)
  Variable phi : R -> R.

  Definition term (p q h : list R) (i : nat) : R := ((nth i p 0 - nth i q 0) / nth (1 + i) h 0) ^ 2.
  Fixpoint sq (c : nat) (p q h : list R) : R := match c with O => 0 | S c' => sq c' p q h + term p q h c' end.
  (** 383-400: the loop runs over len(x1[0]) columns; indexing x2[:, i] or hps[1 + i] out of range raises *)
  Definition default_kernel (x1 x2 : arr) (h : list R) : option matrix :=
    if ((cols x1 <=? cols x2)%nat && (1 + cols x1 <=? length h)%nat)%bool
    then Some (map (fun p => map (fun q => nth 0 h 0 * phi (sq (cols x1) p q h)) (rows x2)) (rows x1))
    else None.

  Record gp := GP { x_data : arr; hps : list R; input_set_dim : nat; K : matrix }.
  (** GP(x, y) with the default kernel and len(x[0]) + 1 hyperparameters *)
  Definition build (x : arr) (h : list R) : option gp :=
    match default_kernel x x h with Some k => Some (GP x h (cols x) k) | None => None end.
  (** update_gp_data(x, y, append=False): the new state, also when the kernel raises, and whether the call returned *)
  Definition overwrite (s : gp) (x : arr) : gp * bool :=
    match default_kernel x x (hps s) with
    | Some k => (GP x (hps s) (input_set_dim s) k, true)
    | None => (GP x (hps s) (input_set_dim s) (K s), false)
    end.

  (** what posterior_mean evaluates at x_pred: None if the input is refused, or the kernel raises *)
  Definition cross (s : gp) (x_pred : arr) : option matrix :=
    if (cols x_pred =? input_set_dim s)%nat then default_kernel (x_data s) x_pred (hps s) else None.
  (** the prior block of posterior_covariance *)
  Definition self_cov (s : gp) (x_pred : arr) : option matrix :=
    if (cols x_pred =? input_set_dim s)%nat then default_kernel x_pred x_pred (hps s) else None.
  (** 752-776: x_data[:, i] for i < index_set_dim (for one task the same number) *)
  Definition default_bounds_exist (s : gp) : bool := ((length (hps s) =? input_set_dim s + 1)%nat && (input_set_dim s <=? cols (x_data s))%nat)%bool.
End Dims.
