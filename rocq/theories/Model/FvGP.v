(** Model of the multi-task layer: /repo/fvgp/fvgp.py, __init__ 501-534, update_gp_data 595-623,
    _transform_index_set2 626-660; GPdata.set_fvgp_data, /repo/fvgp/gp_data.py 58-66.  The base class is Data.v.

    Simplifications: arrays x of dimension other than two and y or noise of dimension above two are left out; an update
    that mixes an array with a stored list or the other way round is an error (the code may first add or stack them);
    noise given as a python list is rejected where it is indexed like an array; of GP.__init__ and GP.update_gp_data
    only the treatment of the data is included.  No proofs here. *)
From Verif Require Import Model.Prelude Model.Data.

Section FvGP.
Context {V Obj : Type} (isnan : V -> bool) (of_task : nat -> V).   (* [of_task]: the task index as an array entry *)

Inductive fx := FXMat (m : mat V) | FXLst (l : list Obj) | FXOther.
Inductive fy := FYMat (m : mat V) | FYVec (l : list V) | FYOther.
Inductive fn := FNNone | FNMat (m : mat V) | FNVec (l : list V) | FNOther.

Inductive fexn :=
| FSingleTask                 (* 501-503: y_data is 1-d *)
| FNoShape                    (* 504: y_data is not an array *)
| FArgs                       (* 506, 595-597: asserts *)
| FNoiseType                  (* 600-601: assert *)
| FVstackNoise | FVstackX | FVstackY   (* 602, 605-607, 612 *)
| FTransform                  (* 627-642: asserts of _transform_index_set2, and indexing errors there *)
| FBase (e : dexn).           (* the base class *)

Definition fx_len (x : fx) : option nat := match x with FXMat m => Some (length (rows m)) | FXLst l => Some (length l) | FXOther => None end.
Definition fy_len (y : fy) : option nat := match y with FYMat m => Some (length (rows m)) | FYVec l => Some (length l) | FYOther => None end.
Definition fn_len (n : fn) : option nat := match n with FNMat m => Some (length (rows m)) | FNVec l => Some (length l) | _ => None end.

(** 638-649: one entry per task and point with an observation: point, task, value, noise variance *)
Definition entries {P} (k : nat) (pts : list P) (y : list (list V)) (nv : option (list (list V))) : list (P * nat * V * option V) :=
  flat_map (fun i =>
    flat_map (fun j =>
      match nth_error pts j, nth_error y j with
      | Some p, Some r =>
          match nth_error r i with
          | Some v => if isnan v then []
                      else [(p, i, v, match nv with
                                      | Some N => match nth_error N j with Some nr => nth_error nr i | None => None end
                                      | None => None end)]
          | None => []
          end
      | _, _ => []
      end) (seq 0 (length pts))) (seq 0 k).
Definition e_pt {P} (e : P * nat * V * option V) : P := fst (fst (fst e)).
Definition e_task {P} (e : P * nat * V * option V) : nat := snd (fst (fst e)).
Definition e_val {P} (e : P * nat * V * option V) : V := snd (fst e).
Definition e_noise {P} (e : P * nat * V * option V) : option V := snd e.

Record flat := Flat { fl_x : pyx V (Obj * nat); fl_y : pyy V; fl_n : pyn V }.
Definition somes {A} (l : list (option A)) : list A := flat_map (fun o => match o with Some a => [a] | None => [] end) l.
(** 650-660; np.asarray of no rows is a 1-d array *)
Definition flatten (k : nat) (x : fx) (y : list (list V)) (nv : option (list (list V))) : flat :=
  let vals {P} (es : list (P * nat * V * option V)) := YVec (map e_val es) in
  let noise {P} (es : list (P * nat * V * option V)) := match nv with Some _ => NVec (somes (map e_noise es)) | None => NNone end in
  match x with
  | FXMat m => let es := entries k (rows m) y nv in
               Flat (match es with [] => XNd (Some 0) | _ => XMat (Mat (S (ncols m)) (map (fun e => e_pt e ++ [of_task (e_task e)]) es)) end)
                    (vals es) (noise es)
  | FXLst l => let es := entries k l y nv in Flat (XLst (map (fun e => (e_pt e, e_task e)) es)) (vals es) (noise es)
  | FXOther => Flat XOther YOther NOther
  end.

Definition transform_index_set2 (k : nat) (x : fx) (y : fy) (nv : fn) : res fexn flat :=
  match x with FXOther => Err FTransform | _ =>                                    (* 627-628 *)
  match y with
  | FYOther => Err FTransform                                                      (* 629 *)
  | _ =>
  if negb (opt_nat_eqb (fx_len x) (fy_len y)) then Err FTransform else             (* 630 *)
  if (match nv with FNNone => false | _ => negb (opt_nat_eqb (fn_len nv) (fy_len y)) end) then Err FTransform else   (* 631-632 *)
  let n := match fy_len y with Some n => n | None => 0 end in
  let looped := negb (Nat.eqb k 0) && negb (Nat.eqb n 0) in                        (* the loop body is reached *)
  if looped && (match nv with FNMat m => negb (Nat.eqb (ncols m) k) | FNVec _ => true | _ => false end) then Err FTransform else   (* 640-641 *)
  if looped && (match y with FYMat m => negb (Nat.eqb (ncols m) k) | _ => true end) then Err FTransform else                       (* 642-643 *)
  Ok (flatten k x (match y with FYMat m => rows m | _ => [] end)
                  (match nv with FNMat m => Some (rows m) | FNVec _ => Some [] | _ => None end))
  end end.

(** an fvGP, as far as its data are concerned *)
Record fstate := FState { f_k : nat; f_data : gdata V (Obj * nat); f_x : fx; f_y : fy; f_n : fn }.

(** 501-534 *)
Definition fv_init (x : fx) (y : fy) (nv : fn) : res fexn fstate :=
  match y with
  | FYVec _ => Err FSingleTask
  | FYOther => Err FNoShape
  | FYMat m =>
      let k := ncols m in
      if negb (opt_nat_eqb (fx_len x) (fy_len y)) then Err FArgs else
      match transform_index_set2 k x y nv with
      | Err e => Err e
      | Ok f => match data_init isnan (fl_x f) (fl_y f) (fl_n f) with
                | Err e => Err (FBase e)
                | Ok d => Ok (FState k d x y nv)
                end
      end
  end.

(** np.vstack: a 1-d array is a row *)
Definition vstack_any (a b : fy) : option fy :=
  let as_mat y := match y with FYMat m => Some m | FYVec l => Some (Mat (length l) [l]) | FYOther => None end in
  match as_mat a, as_mat b with
  | Some a', Some b' => option_map FYMat (vstack a' b')
  | _, _ => None
  end.
Definition fn_fy (n : fn) : fy := match n with FNMat m => FYMat m | FNVec l => FYVec l | _ => FYOther end.
Definition vstack_noise (old new : fn) : option fn :=
  match old with
  | FNNone => match new with      (* np.vstack([None, a]): an object array with None in front, if a has one column *)
              | FNMat m => if Nat.eqb (ncols m) 1 then Some FNOther else None
              | FNVec l => if Nat.eqb (length l) 1 then Some FNOther else None
              | _ => None end
  | _ => match vstack_any (fn_fy old) (fn_fy new) with Some (FYMat m) => Some (FNMat m) | _ => None end
  end.
Definition append_x (old new : fx) : option fx :=
  match old, new with
  | FXMat a, FXMat b => option_map FXMat (vstack a b)
  | FXLst a, FXLst b => Some (FXLst (a ++ b))
  | _, _ => None
  end.

Record fop := FOp { p_x : fx; p_y : fy; p_n : fn; p_append : bool }.
(** 595-623; the returned state is the one at the moment of return or raise *)
Definition fv_update (s : fstate) (o : fop) : fstate * res fexn unit :=
  match p_x o with FXOther => (s, Err FArgs) | _ =>                                 (* 595 *)
  match p_y o with FYOther => (s, Err FArgs) | _ =>                                 (* 596 *)
  if negb (opt_nat_eqb (fx_len (p_x o)) (fy_len (p_y o))) then (s, Err FArgs) else  (* 597 *)
  let stored : res fexn (fx * fy * fn) :=
    if p_append o then
      match (match p_n o with
             | FNNone => Ok FNNone                                                  (* 603 *)
             | FNOther => Err FNoiseType                                            (* 600-601 *)
             | _ => match vstack_noise (f_n s) (p_n o) with Some n' => Ok n' | None => Err FVstackNoise end   (* 602 *)
             end) with
      | Err e => Err e
      | Ok n' => match append_x (f_x s) (p_x o) with
                 | None => Err FVstackX
                 | Some x' => match vstack_any (f_y s) (p_y o) with
                              | None => Err FVstackY
                              | Some y' => Ok (x', y', n')
                              end
                 end
      end
    else Ok (p_x o, p_y o, p_n o) in                                                (* 614-616 *)
  match stored with
  | Err e => (s, Err e)
  | Ok (x', y', n') =>
      let s1 := FState (f_k s) (f_data s) x' y' n' in                               (* 617: set_fvgp_data *)
      match transform_index_set2 (f_k s) (p_x o) (p_y o) (p_n o) with               (* 622 *)
      | Err e => (s1, Err e)
      | Ok f =>
          let '(d, r) := gp_update isnan (f_data s1) (Op (fl_x f) (fl_y f) (fl_n f) (p_append o)) in   (* 623 *)
          (FState (f_k s) d x' y' n', match r with Ok u => Ok u | Err e => Err (FBase e) end)
      end
  end
  end end.

Fixpoint fv_session (s : fstate) (ops : list fop) : fstate * list (fop * res fexn unit) :=
  match ops with
  | [] => (s, [])
  | o :: rest =>
      let '(s1, r) := fv_update s o in
      let '(s2, rs) := fv_session s1 rest in
      (s2, (o, r) :: rs)
  end.
End FvGP.
Arguments fx : clear implicits.
Arguments fy : clear implicits.
Arguments fn : clear implicits.
Arguments fstate : clear implicits.
Arguments fop : clear implicits.
Arguments flat : clear implicits.
