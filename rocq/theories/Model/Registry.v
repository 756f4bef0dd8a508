(** Model of the guard against two GPs on one Dask client: /repo/fvgp/gp.py, _GP_INSTANCES_PER_CLIENT 21, guard 456-478,
    registration 570-573; initialize_gp2Scale_dask_client 2237-2251.

    A construction is split into its part up to and including the guard and the rest, so that several may be under way
    at once.  Objects are numbered in the order of their creation and are alive from their creation (python's __new__) until
    they are collected; a weak dictionary loses the entries of an object when it is collected.  Simplifications: __init__
    is called once per object; what else happens in the constructor is reduced to whether it raises.  No proofs here. *)
From Verif Require Import Model.Prelude.

Section Registry.
Context {Id : Type} (id_eqb : Id -> Id -> bool).          (* ids of Dask clients *)

(** the arguments that matter: gp2Scale, dask_client; [own]: the client that Client() would give, if any; [fine]: the rest of the
    constructor does not raise *)
Record cargs := CArgs { a_gp2 : bool; a_client : option Id; a_imate : bool; a_own : option Id }.
Inductive cstate :=
| Guarded (c : option Id) (gp2 : bool)      (* past the guard *)
| Failed                                     (* the constructor raised; the object may still be referenced, e.g. by the traceback *)
| Done (c : option Id) (gp2 : bool).         (* constructed *)
Inductive rexn := RNoImate | RShared | RLater.

Record world := World {
  w_objs : list (option cstate);             (* by number; None: collected *)
  w_reg  : list (Id * nat) }.                (* the weak dictionary *)
Definition w0 : world := World [] [].
Definition obj (w : world) (g : nat) : option cstate := match nth_error (w_objs w) g with Some o => o | None => None end.
Fixpoint set_nth {A} (l : list A) (n : nat) (a : A) : list A :=
  match l, n with [], _ => [] | _ :: r, 0 => a :: r | x :: r, S m => x :: set_nth r m a end.

Definition reg_get (r : list (Id * nat)) (c : Id) : option nat :=
  option_map snd (find (fun e => id_eqb c (fst e)) r).
Definition reg_set (r : list (Id * nat)) (c : Id) (g : nat) : list (Id * nat) :=
  (c, g) :: filter (fun e => negb (id_eqb c (fst e))) r.

(** 2237-2251 *)
Definition init_client (a : cargs) : res rexn (option Id) :=
  if a_gp2 a then
    if negb (a_imate a) then Err RNoImate
    else Ok (match a_client a with Some c => Some c | None => a_own a end)
  else Ok (a_client a).

(** 456-478: a new object, up to the guard *)
Definition begin_ (w : world) (a : cargs) : world * res rexn nat :=
  let g := length (w_objs w) in
  let with_ o := World (w_objs w ++ [Some o]) (w_reg w) in
  match init_client a with
  | Err e => (with_ Failed, Err e)
  | Ok c =>
      match c with
      | Some i =>
          if a_gp2 a then
            match reg_get (w_reg w) i with
            | Some g' => if negb (Nat.eqb g' g) then (with_ Failed, Err RShared) else (with_ (Guarded c (a_gp2 a)), Ok g)
            | None => (with_ (Guarded c (a_gp2 a)), Ok g)
            end
          else (with_ (Guarded c (a_gp2 a)), Ok g)
      | None => (with_ (Guarded c (a_gp2 a)), Ok g)
      end
  end.
(** the rest of the constructor; [fine]: it does not raise before 572 *)
Definition finish (w : world) (g : nat) (fine : bool) : world * res rexn unit :=
  match obj w g with
  | Some (Guarded c gp2) =>
      if fine then
        (World (set_nth (w_objs w) g (Some (Done c gp2)))
               (match c with Some i => if gp2 then reg_set (w_reg w) i g else w_reg w | None => w_reg w end), Ok tt)
      else (World (set_nth (w_objs w) g (Some Failed)) (w_reg w), Err RLater)
  | _ => (w, Err RLater)
  end.
(** an object is collected: its entries disappear *)
Definition collect (w : world) (g : nat) : world :=
  World (set_nth (w_objs w) g None) (filter (fun e => negb (Nat.eqb (snd e) g)) (w_reg w)).

Inductive event := EBegin (a : cargs) | EFinish (g : nat) (fine : bool) | ECollect (g : nat).
Definition step (w : world) (e : event) : world :=
  match e with EBegin a => fst (begin_ w a) | EFinish g b => fst (finish w g b) | ECollect g => collect w g end.
Definition run (w : world) (es : list event) : world := fold_left step es w.

(** one thread: constructions are not interleaved *)
Definition construct (w : world) (a : cargs) (fine : bool) : world * res rexn nat :=
  match begin_ w a with
  | (w1, Err e) => (w1, Err e)
  | (w1, Ok g) => match finish w1 g fine with (w2, Ok _) => (w2, Ok g) | (w2, Err e) => (w2, Err e) end
  end.
Inductive call := CNew (a : cargs) (fine : bool) | CCollect (g : nat).
Definition do_call (w : world) (c : call) : world := match c with CNew a b => fst (construct w a b) | CCollect g => collect w g end.
Definition history (cs : list call) : world := fold_left do_call cs w0.
End Registry.
Arguments cargs : clear implicits.
Arguments cstate : clear implicits.
Arguments world : clear implicits.
Arguments event : clear implicits.
Arguments call : clear implicits.
