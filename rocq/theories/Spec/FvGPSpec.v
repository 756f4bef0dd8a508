(** What a list of single-task observations has to do with multi-task data, independently of the loops of the code. *)
From Coq Require Import Sorting.Sorted.
From Verif Require Import Model.Prelude Model.Data Model.FvGP Spec.DataSpec.

Section FvGPSpec.
Context {V Obj : Type} (isnan : V -> bool) (of_task : nat -> V).
Definition entry (y : mat V) (j i : nat) : option V := match nth_error (rows y) j with Some r => nth_error r i | None => None end.
Definition observed (y : mat V) (i j : nat) : Prop := exists v, entry y j i = Some v /\ isnan v = false.
(** point j of task i, as the single-task GP sees it *)
Definition task_point (x : fx V Obj) (i j : nat) : option (list V + Obj * nat) :=
  match x with
  | FXMat m => option_map (fun r => inl (r ++ [of_task i])) (nth_error (rows m) j)
  | FXLst l => option_map (fun o => inr (o, i)) (nth_error l j)
  | FXOther => None
  end.
Definition noise_entry (n : fn V) (j i : nat) : option (option V) :=
  match n with FNNone => Some None | FNMat m => option_map Some (entry m j i) | _ => None end.
(** observation of task i at point j: point, value (a row of one), noise variance *)
Definition observation (x : fx V Obj) (y : mat V) (n : fn V) (ij : nat * nat) : option ((list V + Obj * nat) * list V * option V) :=
  match task_point x (fst ij) (snd ij), entry y (snd ij) (fst ij), noise_entry n (snd ij) (fst ij) with
  | Some p, Some v, Some s => Some (p, [v], s)
  | _, _, _ => None
  end.
Definition lex (a b : nat * nat) : Prop := fst a < fst b \/ (fst a = fst b /\ snd a < snd b).
(** [idx] enumerates the observed (task, point) pairs, each once *)
Definition enumerates (k : nat) (y : mat V) (idx : list (nat * nat)) : Prop :=
  NoDup idx /\ forall i j, In (i, j) idx <-> i < k /\ j < length (rows y) /\ observed y i j.
Definition lists_observations (k : nat) (x : fx V Obj) (y : mat V) (n : fn V) (os : list ((list V + Obj * nat) * list V * option V)) : Prop :=
  exists idx, enumerates k y idx /\ map Some os = map (observation x y n) idx.

(** the observations of a single-task data set *)
Definition zip3 {A B C} (a : list A) (b : list B) (c : option (list C)) : list (A * B * option C) :=
  combine (combine a b) (match c with Some l => map Some l | None => map (fun _ => None) a end).
Definition data_obs (s : gdata V (Obj * nat)) : list ((list V + Obj * nat) * list V * option V) :=
  zip3 (stored_x s) (stored_y s) (g_noise s).
Definition flat_obs (f : flat V Obj) : list ((list V + Obj * nat) * list V * option V) :=
  zip3 (pyx_pts (fl_x f)) (pyy_rows (fl_y f)) (match fl_n f with NVec l => Some l | _ => None end).
(** the points, value rows and noise rows of multi-task data, and what a call makes of them *)
Definition mt_points (x : fx V Obj) : list (list V + Obj) := match x with FXMat m => map inl (rows m) | FXLst l => map inr l | FXOther => [] end.
Definition mt_values (y : fy V) : list (list V) := match y with FYMat m => rows m | _ => [] end.
Definition mt_noise (n : fn V) : option (list (list V)) := match n with FNMat m => Some (rows m) | _ => None end.
Definition mt_points_after (p : list (list V + Obj)) (o : fop V Obj) := if p_append o then p ++ mt_points (p_x o) else mt_points (p_x o).
Definition mt_values_after (v : list (list V)) (o : fop V Obj) := if p_append o then v ++ mt_values (p_y o) else mt_values (p_y o).
Definition mt_noise_after (n : option (list (list V))) (o : fop V Obj) :=
  match n, mt_noise (p_n o) with Some a, Some b => Some (if p_append o then a ++ b else b) | _, _ => None end.
(** arrays have rows of equal length *)
Definition args_ok (x : fx V Obj) (y : fy V) (n : fn V) : Prop :=
  (match y with FYMat m => mat_ok m | _ => True end) /\ (match n with FNMat m => mat_ok m | _ => True end).
End FvGPSpec.
