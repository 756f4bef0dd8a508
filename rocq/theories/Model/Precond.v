(** Model of the block and shift machinery of the sparse preconditioners,
    /repo/fvgp/gp_lin_alg.py 514-588 and 802-827.  No proofs here.
    Node numbers are nat; the CSR row [A.indices[indptr[u]:indptr[u+1]]] of the symmetrised matrix
    is the list [nbrs u].  Shifts and growth factors are exact rationals (no overflow). *)
From Coq Require Import QArith.
From Verif Require Import Model.Prelude.
Local Open Scope nat_scope.

Section Graph.
  Variables (n : nat) (nbrs : nat -> list nat).

  Definition mem (v : nat) (l : list nat) : bool := existsb (Nat.eqb v) l.
  Definition mark (assigned : nat -> bool) (v : nat) : nat -> bool := fun u => if Nat.eqb u v then true else assigned u.

  (** the inner for loop, 557-562 *)
  Fixpoint push (l : list nat) (node : nat) (assigned : nat -> bool) (queue queued : list nat) : list nat * list nat :=
    match l with
    | [] => (queue, queued)
    | v :: r => if Nat.eqb v node || assigned v || mem v queued then push r node assigned queue queued
                else push r node assigned (queue ++ [v]) (v :: queued)
    end.

  (** the while loop, 548-562; None: out of fuel (proved impossible) *)
  Fixpoint grow (fuel bs : nat) (assigned : nat -> bool) (queue queued block : list nat) : option ((nat -> bool) * list nat) :=
    match fuel with
    | 0 => None
    | S f =>
        match queue with
        | [] => Some (assigned, block)
        | node :: q =>
            if Nat.ltb (length block) bs then
              if assigned node then grow f bs assigned q queued block
              else let assigned' := mark assigned node in
                   let '(q', queued') := push (nbrs node) node assigned' q queued in
                   grow f bs assigned' q' queued' (block ++ [node])
            else Some (assigned, block)
        end
    end.

  (** the for loop over the seeds, 541-564 *)
  Fixpoint seeds (l : list nat) (bs : nat) (assigned : nat -> bool) (blocks : list (list nat)) : option (list (list nat)) :=
    match l with
    | [] => Some blocks
    | s :: r => if assigned s then seeds r bs assigned blocks
                else match grow (S n) bs assigned [s] [s] [] with
                     | None => None
                     | Some (assigned', b) => seeds r bs assigned' (blocks ++ [b])
                     end
    end.

  (** _build_graph_blocks 534-566 *)
  Definition graph_blocks (block_size : Z) : option (list (list nat)) :=
    seeds (seq 0 n) (Z.to_nat (Z.max block_size 1)) (fun _ => false) [].

  (** _expand_block_overlap 569-588.  Iterating over a python set visits its elements in an
      arbitrary order: [order]. *)
  Variable order : list nat -> list nat.

  Fixpoint visit (l : list nat) (expanded next : list nat) : list nat * list nat :=
    match l with
    | [] => (expanded, next)
    | v :: r => if mem v expanded then visit r expanded next else visit r (v :: expanded) (v :: next)
    end.
  Fixpoint ring (front : list nat) (expanded next : list nat) : list nat * list nat :=
    match front with
    | [] => (expanded, next)
    | u :: r => let '(e, x) := visit (nbrs u) expanded next in ring r e x
    end.
  Fixpoint rings (k : nat) (expanded frontier : list nat) : list nat :=
    match k with
    | 0 => expanded
    | S k' => match frontier with
              | [] => expanded
              | _ => let '(e, f) := ring (order frontier) expanded [] in rings k' e f
              end
    end.
  Fixpoint insert (v : nat) (l : list nat) : list nat :=
    match l with [] => [v] | u :: r => if Nat.leb v u then v :: l else u :: insert v r end.
  Definition sorted_list (l : list nat) : list nat := fold_right insert [] l.
  Definition to_set (l : list nat) : list nat := fold_left (fun s v => if mem v s then s else v :: s) l [].
  Definition expand_overlap (block : list nat) (overlap : Z) : list nat :=
    let s := to_set block in sorted_list (rings (Z.to_nat (Z.max overlap 0)) s s).
End Graph.

(** * Shifted retries: [fac s] is the factorization of the matrix with s added to its diagonal, None
    if it raised.  The second component is the list of shifts tried, in order. *)
Section Shift.
  Context {F : Type} (fac : Q -> option F).
  Fixpoint retry (next : Q -> Q) (attempts : nat) (shift : Q) : option (F * Q) * list Q :=
    match attempts with
    | 0 => (None, [])
    | S k => match fac shift with
             | Some f => (Some (f, shift), [shift])
             | None => let '(r, tried) := retry next k (next shift) in (r, shift :: tried)
             end
    end.
  (** _shifted_dense_cholesky 523-531 and the retry of _build_ic0_factor 664-756 *)
  Definition dense_next (growth s : Q) : Q := if Qeq_bool s 0 then (1 # 10000000000)%Q else (s * growth)%Q.
  Definition dense_retry (base growth : Q) (attempts : Z) := retry (dense_next growth) (Z.to_nat (Z.max attempts 1)) base.
  (** _shift_retry_ilupp_factor 812-827 *)
  Definition ilupp_next (growth s : Q) : Q :=
    let t := (s * growth)%Q in if Qle_bool t (1 # 1000000000000) then (1 # 1000000000000)%Q else t.
  Definition ilupp_retry (base growth : Q) (attempts : Z) := retry (ilupp_next growth) (Z.to_nat (Z.max attempts 1)) base.
End Shift.
