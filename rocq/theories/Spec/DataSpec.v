(** Specification vocabulary for the data container, independent of the update code. *)
From Verif Require Import Model.Prelude Model.Data.

Section DataSpec.
  Context {V Obj : Type} (isnan : V -> bool).
  Notation gdata := (gdata V Obj). Notation op := (op V Obj).
  Notation pyx := (pyx V Obj). Notation pyy := (pyy V). Notation pyn := (pyn V).

  (** the points in a stored or supplied x, row by row *)
  Definition xpts (x : sx V Obj) : list (list V + Obj) :=
    match x with SMat m => map inl (rows m) | SLst l => map inr l end.
  Definition pyx_pts (x : pyx) : list (list V + Obj) :=
    match x with XMat m => map inl (rows m) | XLst l => map inr l | _ => [] end.
  (** the rows of a supplied y: a 1-d array has one value per row *)
  Definition pyy_rows (y : pyy) : list (list V) :=
    match y with YVec l => map (fun v => [v]) l | YMat m => rows m | _ => [] end.
  Definition pyn_vals (n : pyn) : list V := match n with NVec l => l | _ => [] end.

  Definition op_xpts (o : op) := pyx_pts (o_x o).
  Definition op_yrows (o : op) := pyy_rows (o_y o).
  Definition op_noise_vals (o : op) := pyn_vals (o_noise o).

  (** stored (point, value-row) data of a GP *)
  Definition stored_x (s : gdata) := xpts (g_x s).
  Definition stored_y (s : gdata) := rows (g_y s).

  (** the calls of a session that returned normally *)
  Definition accepted (log : list (op * res dexn unit)) : list op :=
    map fst (filter (fun p => is_ok (snd p)) log).

  (** the raise sites that lie after the first modification of x, y or noise *)
  Definition dirty_error (r : res dexn unit) : bool :=
    match r with Err EVstackY | Err ENaN => true | _ => false end.

  (** what the accepted calls say should be stored *)
  Definition replay {B} (f : op -> list B) (init : list B) (ops : list op) : list B :=
    fold_left (fun cur o => if o_append o then cur ++ f o else f o) ops init.

  (** the data a user can read back: x_data, y_data, noise_variances and the point count *)
  Definition stored (s : gdata) := (g_x s, g_y s, g_noise s, g_n s).

  (** no entry of the stored points or values is NaN *)
  Definition nan_free (s : gdata) : Prop :=
    (forall r v, In (inl r) (stored_x s) -> In v r -> isnan v = false) /\
    (forall r v, In r (stored_y s) -> In v r -> isnan v = false).
End DataSpec.
