(** Model of the driver code around the iterative solvers, /repo/fvgp/gp_lin_alg.py 966-1002
    (_normalize_rhs, _normalize_initial_guess, _column_initial_guess), 1184-1210 (MINRES driver) and
    1213-1291 (CG driver).  No proofs here.  scipy's cg/minres and the block solver are parameters;
    block CG itself is modelled in BlockCG.v.  Arrays are [mat]s (columns, list of rows) where shapes
    matter and lists of columns in the solve loops. *)
From Verif Require Import Model.Prelude Model.Data.
Local Open Scope nat_scope.

Section Guess.
  Context {V : Type} (zero : V).
  (** x0 as passed: None, 1-d, 2-d *)
  Inductive guess := GNone | GVec (l : list V) | GMat (m : mat V).

  (** 983-987: None is the ValueError of 988-990 *)
  Definition match_columns (m : mat V) (c : nat) : option (mat V) :=
    let m1 := if Nat.eqb (ncols m) 1 && Nat.ltb 1 c
              then Mat (ncols m * c) (map (fun r => concat (map (fun v => repeat v c) r)) (rows m)) else m in
    if Nat.eqb (ncols m1) c then Some m1 else None.
  (** 991-995 *)
  Definition match_rows (m : mat V) (r : nat) : mat V :=
    if Nat.ltb (length (rows m)) r
    then Mat (ncols m) (rows m ++ repeat (repeat zero (ncols m)) (r - length (rows m)))
    else if Nat.ltb r (length (rows m)) then Mat (ncols m) (firstn r (rows m)) else m.
  (** _normalize_initial_guess(x0, (r, c)); the outer None is ValueError *)
  Definition normalize_guess (x0 : guess) (r c : nat) : option (option (mat V)) :=
    match x0 with
    | GNone => Some None
    | GVec l => match match_columns (Mat 1 (map (fun v => [v]) l)) c with
                | None => None | Some m => Some (Some (match_rows m r)) end
    | GMat m => match match_columns m c with
                | None => None | Some m1 => Some (Some (match_rows m1 r)) end
    end.
  (** _column_initial_guess of a 2-d guess *)
  Definition column_guess (m : mat V) (j : nat) : list V :=
    map (fun r => nth (Nat.min j (ncols m - 1)) r zero) (rows m).
End Guess.
Arguments guess : clear implicits.

Section Solve.
  (** [Col]: one column of the right-hand side, of the guess or of the solution *)
  Context {Col : Type}.
  Variable single : Col -> option Col -> Col * Z.        (* scipy cg / minres: solution and exit code *)
  Variable block : list Col -> option (list Col) -> option (list Col * Z).   (* None: raised *)

  (** 1199-1202, 1284-1286: one solve per column; the flag says whether a warning was issued *)
  Fixpoint columnwise (vec : list Col) (x0 : option (list Col)) : list Col * bool :=
    match vec with
    | [] => ([], false)
    | v :: vs =>
        let g := match x0 with Some (x :: _) => Some x | _ => None end in
        let '(s, code) := single v g in
        let '(ss, w) := columnwise vs (match x0 with Some (_ :: xs) => Some xs | o => o end) in
        (s :: ss, negb (Z.eqb code 0) || w)
    end.

  (** one pass of the loop 1247-1275 *)
  Definition solve_block (vec : list Col) (x0 : option (list Col)) : list Col * Z :=
    match block vec x0 with
    | Some (s, code) => (s, code)
    | None => (fst (columnwise vec x0), 4%Z)
    end.
  (** the loop, with range(0, k, bs) as fuel-bounded slicing *)
  Fixpoint blocks (fuel bs : nat) (vec : list Col) (x0 : option (list Col)) : list Col * list Z :=
    match fuel, vec with
    | S f, _ :: _ =>
        let '(s, code) := solve_block (firstn bs vec) (option_map (firstn bs) x0) in
        let '(ss, codes) := blocks f bs (skipn bs vec) (option_map (skipn bs) x0) in
        (s ++ ss, code :: codes)
    | _, _ => ([], [])
    end.

  (** calculate_sparse_conj_grad after the settings are read: solution columns and warning flag *)
  Definition conj_grad (block_mode : bool) (block_size : Z) (vec : list Col) (x0 : option (list Col)) : list Col * bool :=
    let k := length vec in
    if block_mode && Nat.ltb 1 k then
      let bs := Z.to_nat (Z.max 1 (Z.min block_size (Z.of_nat k))) in
      let '(s, codes) := blocks k bs vec x0 in (s, existsb (fun c => negb (Z.eqb c 0)) codes)
    else columnwise vec x0.
End Solve.
