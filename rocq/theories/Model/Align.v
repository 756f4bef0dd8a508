(** Model of the alignment of local mixtures.  /repo/fvgp/ggmp.py: align_gmm_components_hungarian 1247-1284, align_local_gmms_sequence 1287-1351,
    _choose_mst_root 1354-1360, build_input_mst 1363-1433, align_local_gmms_mst 1438-1516, align_local_gmms 1519-1553.

    Inputs are numbered from 0; the input with number i is the vector [x i] of d reals.  The metric is a parameter [w2], [lsa] stands for
    scipy.optimize.linear_sum_assignment (the assigned columns in the order of the rows) and [mst] for scipy.sparse.csgraph.minimum_spanning_tree
    converted to a dense matrix.  A local mixture is its weights, means and covariances, each a list over the components; the shapes of the individual
    means and covariances are not modelled.  Copies and the returned costs are left out.  No proofs here. *)
From Coq Require Import Reals Lra.
From Verif Require Import Model.Prelude Spec.Sums Model.BO.

Inductive aexn := ALength | AEmpty | AReference | AMetric | AShape | AIndex | ARoot | ANoX | AMethod.

(** ** breadth first search: 1405-1419.  [edge u v]: adjacency[u, v] > 0; [key u v w]: v does not come after w in the order of (adjacency[u, .], .) *)
Inductive parent := Unseen | Root | Par (u : nat).            (* -2, -1, u *)
Definition unseen (p : parent) : bool := match p with Unseen => true | _ => false end.
Section Search.
Context (n : nat) (edge : nat -> nat -> bool) (key : nat -> nat -> nat -> bool).
Fixpoint insert (le : nat -> nat -> bool) (v : nat) (l : list nat) : list nat :=
  match l with [] => [v] | w :: r => if le v w then v :: l else w :: insert le v r end.
Definition sorted (le : nat -> nat -> bool) (l : list nat) : list nat := fold_right (insert le) [] l.
Definition set_parent (ps : nat -> parent) (u v : nat) : nat -> parent := fun w => if w =? v then Par u else ps w.
(** one pass of the while loop per unit of fuel; None if the fuel is used up *)
Fixpoint search (fuel : nat) (ps : nat -> parent) (order queue : list nat) : option (list nat * (nat -> parent)) :=
  match queue with
  | [] => Some (order, ps)
  | u :: q =>
      match fuel with
      | O => None
      | S m =>
          let nbrs := sorted (key u) (filter (fun v => edge u v && unseen (ps v)) (seq 0 n)) in
          search m (fold_left (fun p v => set_parent p u v) nbrs ps) (order ++ [u]) (q ++ nbrs)
      end
  end.
Definition search_from (fuel root : nat) := search fuel (fun v => if v =? root then Root else Unseen) [] [root].
End Search.

Section Align.
Context {M V : Type}.                                          (* means, covariances *)
Context (w2 : M * V -> M * V -> R).
Context (lsa : nat -> (nat -> nat -> R) -> list nat).
Context (mst : nat -> (nat -> nat -> R) -> nat -> nat -> R).

Record gmm := { weights : list R; means : list M; covs : list V }.
Definition arange (n : nat) := seq 0 n.
(** l[perm] *)
Fixpoint take {X} (l : list X) (perm : list nat) : res aexn (list X) :=
  match perm with
  | [] => Ok []
  | i :: r => match nth_error l i, take l r with Some x, Ok t => Ok (x :: t) | _, Err e => Err e | None, _ => Err AIndex end
  end.
(** 1257-1284; the loop over the costs reads the first K of each list *)
Definition hungarian (metric_ok : bool) (rm : list M) (rc : list V) (cm : list M) (cc : list V) : res aexn (list nat) :=
  if negb (length rm =? length cm) then Err AShape
  else if negb (length rc =? length cc) then Err AShape
  else if negb metric_ok then Err AMetric
  else let K := length rm in
       if length rc <? K then Err AIndex
       else Ok (lsa K (fun i j => match nth_error rm i, nth_error rc i, nth_error cm j, nth_error cc j with
                                  | Some a, Some b, Some c, Some d => w2 (a, b) (c, d)
                                  | _, _, _, _ => 0%R end)).
(** 1320-1340, 1475-1496: align [cur] to [ref] *)
Definition align1 (metric_ok : bool) (ref cur : gmm) : res aexn (gmm * list nat) :=
  match hungarian metric_ok (means ref) (covs ref) (means cur) (covs cur) with
  | Err e => Err e
  | Ok perm =>
      match take (means cur) perm, take (covs cur) perm, take (weights cur) perm with
      | Ok m, Ok c, Ok w => Ok ({| weights := w; means := m; covs := c |}, perm)
      | _, _, _ => Err AIndex
      end
  end.

(** ** along the sequence: 1287-1351.  The reference is the previous aligned mixture or the first one. *)
Inductive reference := Previous | First | NoReference.
Fixpoint align_rest (metric_ok prev : bool) (ref : gmm) (l : list gmm) : res aexn (list gmm * list (list nat)) :=
  match l with
  | [] => Ok ([], [])
  | g :: r =>
      match align1 metric_ok ref g with
      | Err e => Err e
      | Ok (a, p) => match align_rest metric_ok prev (if prev then a else ref) r with Err e => Err e | Ok (al, pl) => Ok (a :: al, p :: pl) end
      end
  end.
Definition align_sequence (metric_ok : bool) (r : reference) (l : list gmm) : res aexn (list gmm * list (list nat)) :=
  match l with
  | [] => Err AEmpty
  | g :: t =>
      match r with
      | NoReference => Err AReference
      | _ => match align_rest metric_ok (match r with Previous => true | _ => false end) g t with
             | Err e => Err e
             | Ok (al, pl) => Ok (g :: al, arange (length (means g)) :: pl)
             end
      end
  end.

(** ** along the tree *)
Section Tree.
Context (d : nat).
Local Open Scope R_scope.
Definition norm2 (f : nat -> R) : R := sqrt (rsum (fun k => f k * f k) d).
Definition dist (x : nat -> nat -> R) (i j : nat) : R := norm2 (fun k => x i k - x j k).
(** 1354-1360 *)
Definition choose_root (n : nat) (x : nat -> nat -> R) : nat :=
  let centroid k := rsum (fun i => x i k) n / INR n in argmin (map (fun i => norm2 (fun k => x i k - centroid k)) (seq 0 n)).
Definition adjacency (n : nat) (x : nat -> nat -> R) (u v : nat) : R := mst n (dist x) u v + mst n (dist x) v u.
Definition positive (a : R) : bool := if Rlt_dec 0 a then true else false.
(** (a, i) <= (b, j) *)
Definition pair_le (a b : R) (i j : nat) : bool := if Rlt_dec a b then true else if Rlt_dec b a then false else (i <=? j)%nat.
Record tree := { t_root : nat; t_order : list nat; t_parents : nat -> parent; t_adj : nat -> nat -> R }.
(** 1382-1433; [fuel] bounds the number of passes, None stands for a search that goes on *)
Definition build_mst (fuel n : nat) (x : nat -> nat -> R) (root : option Z) : option (res aexn tree) :=
  if (n =? 0)%nat then Some (Err AEmpty)
  else let r := match root with None => Z.of_nat (choose_root n x) | Some r => r end in
  if (Z.ltb r 0 || Z.leb (Z.of_nat n) r)%bool then Some (Err ARoot)
  else let r := Z.to_nat r in
  if (n =? 1)%nat then Some (Ok {| t_root := r; t_order := [r]; t_parents := fun _ => Root; t_adj := fun _ _ => 0 |})
  else let adj := adjacency n x in
  match search_from n (fun u v => positive (adj u v)) (fun u v w => pair_le (adj u v) (adj u w) v w) fuel r with
  | None => None
  | Some (order, ps) => Some (Ok {| t_root := r; t_order := order; t_parents := ps; t_adj := adj |})
  end.
(** [t_order], [t_parents] give the returned edges 1422-1427 *)
Definition t_edges (t : tree) : list (nat * nat * R) :=
  map (fun c => match t_parents t c with Par p => (p, c, t_adj t p c) | _ => (O, c, 0) end) (tl (t_order t)).

(** 1438-1516: the aligned mixtures and the permutations, None where nothing was assigned *)
Definition assign {X} (l : nat -> option X) (i : nat) (a : X) : nat -> option X := fun j => if (j =? i)%nat then Some a else l j.
Definition empty_gmm : gmm := {| weights := []; means := []; covs := [] |}.
Fixpoint propagate (metric_ok : bool) (gs : list gmm) (ps : nat -> parent) (children : list nat) (al : nat -> option gmm) (pl : nat -> option (list nat))
  : res aexn ((nat -> option gmm) * (nat -> option (list nat))) :=
  match children with
  | [] => Ok (al, pl)
  | c :: r =>
      match ps c with
      | Par p =>
          match al p with
          | None => Err AShape                                 (* an array of None has another shape *)
          | Some ref =>
              match align1 metric_ok ref (nth c gs empty_gmm) with
              | Err e => Err e
              | Ok (a, perm) => propagate metric_ok gs ps r (assign al c a) (assign pl c perm)
              end
          end
      | _ => Err AIndex                                        (* not reached: aligned_m[-1], aligned_m[-2] *)
      end
  end.
Definition align_mst (fuel n : nat) (x : nat -> nat -> R) (metric_ok : bool) (root : option Z) (gs : list gmm)
  : option (res aexn (tree * (nat -> option gmm) * (nat -> option (list nat)))) :=
  if (length gs =? 0)%nat then Some (Err AEmpty)
  else if negb (n =? length gs)%nat then Some (Err ALength)
  else match build_mst fuel n x root with
       | None => None
       | Some (Err e) => Some (Err e)
       | Some (Ok t) =>
           let g := nth (t_root t) gs empty_gmm in
           match propagate metric_ok gs (t_parents t) (tl (t_order t)) (assign (fun _ => None) (t_root t) g) (assign (fun _ => None) (t_root t) (arange (length (means g)))) with
           | Err e => Some (Err e)
           | Ok (al, pl) => Some (Ok (t, al, pl))
           end
       end.
End Tree.
End Align.
