(** Model of the data container: /repo/fvgp/gp_data.py and the argument handling of
    GP.update_gp_data (/repo/fvgp/gp.py 689-749).  No proofs here. *)
From Verif Require Import Model.Prelude.

(** Raise sites, in the order in which the code reaches them. *)
Inductive dexn :=
| EAssertArgs        (* gp.py 727-731: asserts of GP.update_gp_data *)
| EAssertData        (* gp_data.py 15-28, 71-83: asserts of GPdata *)
| EIndex             (* gp_data.py 29: x_data[0] of an empty array *)
| ENoiseMissing      (* gp_data.py 85-87 *)
| ENoiseUnexpected   (* gp_data.py 88-90 *)
| EVstackX           (* gp_data.py 110: np.vstack of x, different numbers of columns *)
| EVstackY           (* gp_data.py 112: np.vstack of y, different numbers of columns *)
| ENaN.              (* gp_data.py 120-122: _check_for_nan *)

Section Data.
  (** [V]: array entries; [isnan] tells NaN from numbers (infinities are not modelled: numpy's
      inf - inf inside np.sum would also be NaN).  [Obj]: points of a non-Euclidean input space. *)
  Context {V Obj : Type} (isnan : V -> bool).

  (** A 2-d np.ndarray: number of columns and rows. *)
  Record mat := Mat { ncols : nat; rows : list (list V) }.

  (** Every row of an ndarray has the same length. *)
  Definition mat_ok (m : mat) : Prop := forall r, In r (rows m) -> length r = ncols m.

  (** What a caller may pass as [x]: 2-d array, array of another dimension (with its len, None for
      a 0-d array), list of objects, anything else. *)
  Inductive pyx := XMat (m : mat) | XNd (len : option nat) | XLst (l : list Obj) | XOther.
  (** What a caller may pass as [y]: 1-d array, 2-d array, other array, anything else. *)
  Inductive pyy := YVec (l : list V) | YMat (m : mat) | YNd (len : option nat) | YOther.
  (** What a caller may pass as noise variances: None, 1-d array, other array, anything else. *)
  Inductive pyn := NNone | NVec (l : list V) | NNd | NOther.

  (** Stored x: a 2-d array (Euclidean) or a list. *)
  Inductive sx := SMat (m : mat) | SLst (l : list Obj).

  (** GPdata attributes (gp_data.py 37-46); the attributes that never change after construction
      other than Euclidean/index_set_dim are left out. *)
  Record gdata := GData {
    g_x : sx; g_y : mat; g_noise : option (list V);
    g_xnew : option sx; g_ynew : option mat; g_noisenew : option (list V);
    g_xold : option sx; g_yold : option mat; g_noiseold : option (list V);
    g_n : nat; g_euclid : bool; g_dim : nat }.

  Definition sx_len (x : sx) : nat :=
    match x with SMat m => length (rows m) | SLst l => length l end.

  (** python len(); None when len() itself raises *)
  Definition pyx_len (x : pyx) : option nat :=
    match x with XMat m => Some (length (rows m)) | XNd n => n | XLst l => Some (length l) | XOther => None end.
  Definition pyy_len (y : pyy) : option nat :=
    match y with YVec l => Some (length l) | YMat m => Some (length (rows m)) | YNd n => n | YOther => None end.

  Definition opt_nat_eqb (a b : option nat) : bool :=
    match a, b with Some x, Some y => Nat.eqb x y | _, _ => false end.

  (** gp_data.py 24 and 91: a 1-d y becomes a single column. *)
  Definition column (l : list V) : mat := Mat 1 (map (fun v => [v]) l).

  (** gp_data.py 120-122.  np.sum is NaN exactly if an entry is NaN (no infinities). *)
  Definition mat_has_nan (m : mat) : bool := existsb (existsb isnan) (rows m).
  Definition nan_found (euclid : bool) (x : sx) (y : mat) : bool :=
    euclid && (match x with SMat m => mat_has_nan m | SLst _ => false end || mat_has_nan y).

  (** np.vstack of two 2-d arrays. *)
  Definition vstack (a b : mat) : option mat :=
    if Nat.eqb (ncols a) (ncols b) then Some (Mat (ncols a) (rows a ++ rows b)) else None.

  (** GPdata.__init__, gp_data.py 15-47 (args, dask etc. omitted). *)
  Definition data_init (x : pyx) (y : pyy) (nv : pyn) : res dexn gdata :=
    match x with XOther => Err EAssertData | _ =>            (* 15-16 *)
    match y with
    | YOther | YNd _ => Err EAssertData                       (* 17-18 *)
    | _ =>
    match nv with NNd | NOther => Err EAssertData | _ =>      (* 19-20 *)
    if negb (opt_nat_eqb (pyx_len x) (pyy_len y)) then Err EAssertData else     (* 21 *)
    if (match nv with NVec l => negb (opt_nat_eqb (Some (length l)) (pyy_len y)) | _ => false end)
    then Err EAssertData else                                 (* 22-23 *)
    let ym := match y with YVec l => column l | YMat m => m | _ => Mat 0 [] end in  (* 24 *)
    let nvs := match nv with NVec l => Some l | _ => None end in
    let finish (sx0 : sx) (eu : bool) (d : nat) :=
      if nan_found eu sx0 ym then Err ENaN                    (* 47 *)
      else Ok (GData sx0 ym nvs None None None None None None (sx_len sx0) eu d) in
    match x with
    | XMat m => match rows m with
                | [] => Err EIndex                            (* 29: len(x_data[0]) *)
                | r :: _ => finish (SMat m) true (length r)   (* 27-31 *)
                end
    | XLst l => finish (SLst l) false 1                       (* 32-35 *)
    | _ => Err EAssertData                                    (* 28 *)
    end
    end end end.

  (** GPdata.update, gp_data.py 70-116, statement by statement: the returned state is the
      attribute values at the moment of return or raise. *)
  Definition data_update (s : gdata) (x : pyx) (y : pyy) (nv : pyn) (append : bool)
    : gdata * res dexn unit :=
    match x with XOther => (s, Err EAssertData) | _ =>                     (* 71-72 *)
    match y with YOther => (s, Err EAssertData) | _ =>                     (* 73-74 *)
    match nv with NNd | NOther => (s, Err EAssertData) | _ =>              (* 75-76 *)
    match (match g_euclid s, x with
           | true, XMat m => Some (SMat m)                                 (* 77-78 *)
           | false, XLst l => Some (SLst l)                                (* 83 *)
           | _, _ => None end) with
    | None => (s, Err EAssertData)
    | Some xs =>
    match g_noise s, nv with
    | Some _, NNone => (s, Err ENoiseMissing)                              (* 85-87 *)
    | None, NVec _ => (s, Err ENoiseUnexpected)                            (* 88-90 *)
    | _, _ =>
    match (match y with YVec l => Some (column l) | YMat m => Some m | _ => None end) with  (* 91 *)
    | None => (s, Err EAssertData)   (* other dimensions are rejected earlier, gp.py 728 *)
    | Some ym =>
    let nvs := match nv with NVec l => Some l | _ => None end in
    let check (t : gdata) : gdata * res dexn unit :=                       (* 115-116 *)
      let t' := GData (g_x t) (g_y t) (g_noise t) (g_xnew t) (g_ynew t) (g_noisenew t)
                      (g_xold t) (g_yold t) (g_noiseold t) (sx_len (g_x t)) (g_euclid t) (g_dim t) in
      if nan_found (g_euclid t') (g_x t') (g_y t') then (t', Err ENaN) else (t', Ok tt) in
    if append then
      (* 104-109 *)
      let s1 := GData (g_x s) (g_y s) (g_noise s) (Some xs) (Some ym) nvs
                      (Some (g_x s)) (Some (g_y s)) (g_noise s) (g_n s) (g_euclid s) (g_dim s) in
      (* 110-111 *)
      match (match g_x s, xs with
             | SMat a, SMat b => match vstack a b with Some c => Some (SMat c) | None => None end
             | SLst a, SLst b => Some (SLst (a ++ b))
             | _, _ => None end) with
      | None => (s1, Err EVstackX)
      | Some x' =>
        let s2 := GData x' (g_y s1) (g_noise s1) (g_xnew s1) (g_ynew s1) (g_noisenew s1)
                        (g_xold s1) (g_yold s1) (g_noiseold s1) (g_n s1) (g_euclid s1) (g_dim s1) in
        (* 112 *)
        match vstack (g_y s) ym with
        | None => (s2, Err EVstackY)
        | Some y' =>
          (* 113-114 *)
          let n' := match g_noise s, nvs with Some a, Some b => Some (a ++ b) | o, _ => o end in
          check (GData x' y' n' (g_xnew s1) (g_ynew s1) (g_noisenew s1)
                       (g_xold s1) (g_yold s1) (g_noiseold s1) (g_n s1) (g_euclid s1) (g_dim s1))
        end
      end
    else
      (* 94-102 *)
      check (GData xs ym nvs None None None None None None (g_n s) (g_euclid s) (g_dim s))
    end end end end end end.

  (** One call of GP.update_gp_data as far as the stored data are concerned:
      gp.py 727-731 asserts, then GPdata.update (739).  The derived state (prior, likelihood,
      factorization) is modelled in GPState.v. *)
  Record op := Op { o_x : pyx; o_y : pyy; o_noise : pyn; o_append : bool }.

  Definition gp_update (s : gdata) (o : op) : gdata * res dexn unit :=
    match o_x o with XOther => (s, Err EAssertArgs) | _ =>                    (* 727 *)
    match o_y o with YOther | YNd _ => (s, Err EAssertArgs) | _ =>            (* 728 *)
    match o_noise o with NOther => (s, Err EAssertArgs) | _ =>                (* 729-730 *)
    if negb (opt_nat_eqb (pyx_len (o_x o)) (pyy_len (o_y o))) then (s, Err EAssertArgs)  (* 731 *)
    else data_update s (o_x o) (o_y o) (o_noise o) (o_append o)               (* 739 *)
    end end end.

  (** A user session: calls are made one after the other; exceptions are caught by the user. *)
  Fixpoint session (s : gdata) (ops : list op) : gdata * list (op * res dexn unit) :=
    match ops with
    | [] => (s, [])
    | o :: rest =>
        let '(s1, r) := gp_update s o in
        let '(s2, rs) := session s1 rest in
        (s2, (o, r) :: rs)
    end.
End Data.
Arguments mat : clear implicits.
Arguments pyx : clear implicits.
Arguments pyy : clear implicits.
Arguments pyn : clear implicits.
Arguments sx : clear implicits.
Arguments gdata : clear implicits.
Arguments op : clear implicits.
