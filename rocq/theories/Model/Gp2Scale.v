(** Model of the distributed covariance assembly: /repo/fvgp/gp2Scale_covariance.py 48-446 and its
    callers in /repo/fvgp/gp_prior.py 96-97, 158-214, 267-290, 301-370.  No proofs here.

    Values are an arbitrary type [F] with a zero and an addition (COO matrices add up duplicates).
    A sparse matrix is its shape and a list of triplets; conversions between COO, CSR and CSC keep
    its entries and are not modelled.  The kernel is a black box on whole point sets that may raise
    and may return a dense or a sparse block; its arity and its args dictionary (evaluate_kernel,
    120-133) are folded into it.  The cluster is an oracle [cluster] that receives the list of task
    results and returns them in its own order of completion, possibly replacing some by failures
    (cancellation, lost worker).  Point counts are [nat], array indices are [Z] with the wrap-around of
    the integer type chosen by index_dtype_for.  Memory consumption and logging are not modelled,
    except that the sparsity log line divides by n1*n2 (430) and raises when that is zero. *)
From Verif Require Import Model.Prelude.
Local Open Scope nat_scope.

(** ranges, 48-61; batch_size = max(1, int(batch_size)) *)
Definition clamp1 (b : Z) : nat := Z.to_nat (Z.max 1 b).
Definition range_starts (n b : nat) : list nat := map (fun i => i * b) (seq 0 ((n + b - 1) / b)).
Definition ranges (n : nat) (batch_size : Z) : list (nat * nat) :=
  let b := clamp1 batch_size in
  map (fun start => (start, Nat.min (start + b) n)) (range_starts n b).

Inductive distribution := Blockwise | Rowwise.

(** task_budget 64-82, should_distribute 85-92, strip_width 95-104 *)
Definition task_budget (n1 : nat) (batch_size : Z) (d : distribution) : nat :=
  let b := clamp1 batch_size in
  match d with Blockwise => b * b | Rowwise => n1 * b end.
Definition should_distribute (n1 n2 : nat) (batch_size : Z) (d : distribution) : bool :=
  task_budget n1 batch_size d <? n1 * n2.
Definition strip_width (long_axis short_axis budget : nat) : nat :=
  Nat.max 1 (Nat.min short_axis (budget / Nat.max long_axis 1)).

(** index_dtype_for 107-114; numpy integers wrap around *)
Inductive idtype := I32 | I64.
Definition index_dtype_for (n1 n2 : nat) : idtype :=
  if Z.ltb (Z.of_nat (Nat.max n1 n2)) (2 ^ 31) then I32 else I64.
Definition bits (d : idtype) : Z := match d with I32 => 32 | I64 => 64 end.
Definition cast (d : idtype) (z : Z) : Z := ((z + 2 ^ (bits d - 1)) mod 2 ^ bits d - 2 ^ (bits d - 1))%Z.

(** python slicing x[s:e] of a sequence (0 <= s) truncates at the end *)
Definition slice {A} (s e : nat) (l : list A) : list A := firstn (e - s) (skipn s l).

Section Cov.
  Context {P H F : Type} (f0 : F) (isz : F -> bool).

  Record trip := T { td : F; tr : Z; tc : Z }.
  Record spm := Sp { nr : nat; nc : nat; ents : list trip }.
  (** what a kernel returns *)
  Inductive kout := KDense (cols : nat) (rows : list (list F)) | KSparse (m : spm).
  Inductive cexn := EKernel | ECluster | ECooShape | EStack | EZeroDiv | EAssertSquare | EAssertSame | ENoClient.

  Variable kernel : list P -> list P -> H -> res cexn kout.

  (** block_to_coo 136-148: np.nonzero of a dense block in row-major order, a sparse block as it is *)
  Definition dense_trips (rows : list (list F)) : list trip :=
    concat (map (fun p => let '(i, r) := p in
              map (fun q => let '(j, v) := q in T v (Z.of_nat i) (Z.of_nat j))
                  (filter (fun q => negb (isz (snd q))) (combine (seq 0 (length r)) r)))
            (combine (seq 0 (length rows)) rows)).
  Definition block_to_coo (k : kout) (dt : idtype) : list trip :=
    map (fun t => T (td t) (cast dt (tr t)) (cast dt (tc t)))
        (match k with KDense _ rows => dense_trips rows | KSparse m => ents m end).

  Inductive task := TBlock (ri rj : nat * nat) | TRow (ri : nat * nat) | TCol (rj : nat * nat).
  Inductive wres := WTrips (l : list trip) | WStrip (key : nat) (m : spm).

  Definition rbind {A B} (r : res cexn A) (f : A -> res cexn B) : res cexn B :=
    match r with Ok a => f a | Err e => Err e end.

  (** block_triplets 151-170 *)
  Definition block_triplets (ri rj : nat * nat) (x1 x2 : list P) (h : H) (symmetric : bool) (dt : idtype)
    : res cexn (list trip) :=
    let '(i_start, i_end) := ri in let '(j_start, j_end) := rj in
    rbind (kernel (slice i_start i_end x1) (slice j_start j_end x2) h) (fun k =>
      let l := block_to_coo k dt in
      let l := if symmetric && (i_start =? j_start) then filter (fun t => Z.leb (tr t) (tc t)) l else l in
      Ok (map (fun t => T (td t) (cast dt (tr t + Z.of_nat i_start)) (cast dt (tc t + Z.of_nat j_start))) l)).

  (** sparse.coo_matrix((data, (rows, cols)), shape): scipy raises on indices outside the shape *)
  Definition coo_matrix (r c : nat) (l : list trip) : res cexn spm :=
    if forallb (fun t => (0 <=? tr t)%Z && (tr t <? Z.of_nat r)%Z && (0 <=? tc t)%Z && (tc t <? Z.of_nat c)%Z) l
    then Ok (Sp r c l) else Err ECooShape.

  (** row_strip_csr 173-198, col_strip_csc 202-218 *)
  Definition row_strip_csr (ri : nat * nat) (x1 x2 : list P) (h : H) (n2 : nat) (dt : idtype) : res cexn wres :=
    let '(i_start, i_end) := ri in
    rbind (kernel (slice i_start i_end x1) x2 h) (fun k =>
      rbind (coo_matrix (i_end - i_start) n2 (block_to_coo k dt)) (fun m => Ok (WStrip i_start m))).
  Definition col_strip_csc (rj : nat * nat) (x1 x2 : list P) (h : H) (n1 : nat) (dt : idtype) : res cexn wres :=
    let '(j_start, j_end) := rj in
    rbind (kernel x1 (slice j_start j_end x2) h) (fun k =>
      rbind (coo_matrix n1 (j_end - j_start) (block_to_coo k dt)) (fun m => Ok (WStrip j_start m))).

  (** assemble_triplets 240-287: every part is written together with its mirror image; parts are taken
      from the end of the list; the output index arrays have the index dtype *)
  Definition mirror (l : list trip) : list trip :=
    map (fun t => T (td t) (tc t) (tr t)) (filter (fun t => negb (Z.eqb (tr t) (tc t))) l).
  Definition is_nil {A} (l : list A) : bool := match l with [] => true | _ => false end.
  Definition assemble_triplets (parts : list (list trip)) (n1 n2 : nat) (symmetric : bool) (dt : idtype)
    : res cexn spm :=
    let parts := filter (fun l => negb (is_nil l)) parts in
    if is_nil parts then Ok (Sp n1 n2 [])
    else coo_matrix n1 n2
           (map (fun t => T (td t) (cast dt (tr t)) (cast dt (tc t)))
                (concat (map (fun l => l ++ (if symmetric then mirror l else [])) (rev parts)))).

  (** dict(harvest), then the values in the order of the sorted keys *)
  Definition dict_set (k : nat) (v : spm) (d : list (nat * spm)) : list (nat * spm) :=
    if existsb (fun p => fst p =? k) d then map (fun p => if fst p =? k then (k, v) else p) d else d ++ [(k, v)].
  Definition to_dict (l : list (nat * spm)) : list (nat * spm) :=
    fold_left (fun d p => dict_set (fst p) (snd p) d) l [].
  Fixpoint insert (p : nat * spm) (l : list (nat * spm)) : list (nat * spm) :=
    match l with [] => [p] | q :: r => if fst p <=? fst q then p :: l else q :: insert p r end.
  Definition sort_keys (l : list (nat * spm)) : list (nat * spm) := fold_right insert [] l.

  (** sparse.vstack / hstack: offsets are the accumulated sizes; mismatched other dimension raises *)
  Fixpoint vstack_ents (off : nat) (l : list spm) : list trip :=
    match l with
    | [] => []
    | m :: r => map (fun t => T (td t) (tr t + Z.of_nat off) (tc t)) (ents m) ++ vstack_ents (off + nr m) r
    end.
  Fixpoint hstack_ents (off : nat) (l : list spm) : list trip :=
    match l with
    | [] => []
    | m :: r => map (fun t => T (td t) (tr t) (tc t + Z.of_nat off)) (ents m) ++ hstack_ents (off + nc m) r
    end.
  Definition vstack (l : list spm) : res cexn spm :=
    match l with
    | [] => Err EStack
    | m :: _ => if forallb (fun q => nc q =? nc m) l
                then Ok (Sp (list_sum (map nr l)) (nc m) (vstack_ents 0 l)) else Err EStack
    end.
  Definition hstack (l : list spm) : res cexn spm :=
    match l with
    | [] => Err EStack
    | m :: _ => if forallb (fun q => nr q =? nr m) l
                then Ok (Sp (nr m) (list_sum (map nc l)) (hstack_ents 0 l)) else Err EStack
    end.

  (** assemble_row_strips 290-295, assemble_col_strips 298-307 *)
  Definition strips (w : list wres) : list (nat * spm) :=
    concat (map (fun r => match r with WStrip k m => [(k, m)] | WTrips _ => [] end) w).
  Definition trips (w : list wres) : list (list trip) :=
    concat (map (fun r => match r with WTrips l => [l] | WStrip _ _ => [] end) w).
  Definition assemble_row_strips (w : list wres) (n1 n2 : nat) : res cexn spm :=
    let d := to_dict (strips w) in
    if is_nil d then Ok (Sp n1 n2 []) else vstack (map snd (sort_keys d)).
  Definition assemble_col_strips (w : list wres) (n1 n2 : nat) : res cexn spm :=
    let d := to_dict (strips w) in
    if is_nil d then Ok (Sp n1 n2 []) else hstack (map snd (sort_keys d)).

  (** future identity: task futures by submission index, scattered data by a counter (the keys are
      unique because of hash=False, 304-314) *)
  Inductive event := EvScatter (id : nat) | EvRelease (id : nat) | EvSubmit (i : nat) | EvTaskRelease (i : nat).

  (** _harvest 224-237 over as_completed: release the future, then raise if the result is a failure *)
  Fixpoint harvest (l : list (nat * res cexn wres)) : list event * res cexn (list wres) :=
    match l with
    | [] => ([], Ok [])
    | (i, Err e) :: _ => ([EvTaskRelease i], Err e)
    | (i, Ok w) :: r => let '(ev, out) := harvest r in
                        (EvTaskRelease i :: ev, rbind out (fun ws => Ok (w :: ws)))
    end.

  (** the cluster: results by submission index -> results in order of completion; one for each call *)
  Definition cluster_t := list (nat * res cexn wres) -> list (nat * res cexn wres).

  Inductive strategy := SBlock | SRow | SCol.

  (** choice of tasks, 377-409 *)
  Definition plan (n1 n2 : nat) (batch_size : Z) (symmetric : bool) (d : distribution) : strategy * list task :=
    if symmetric then
      match d with
      | Blockwise =>
          let rr := ranges n1 batch_size in
          (SBlock, map (fun p => TBlock (fst p) (snd p))
                       (filter (fun p : (nat * nat) * (nat * nat) => fst (fst p) <=? fst (snd p)) (list_prod rr rr)))
      | Rowwise => (SRow, map TRow (ranges n1 batch_size))
      end
    else
      let budget := task_budget n1 batch_size d in
      if n2 <=? n1 then (SCol, map TCol (ranges n2 (Z.of_nat (strip_width n1 n2 budget))))
      else (SRow, map TRow (ranges n1 (Z.of_nat (strip_width n2 n1 budget)))).

  Definition run_task (x1 x2 : list P) (h : H) (n1 n2 : nat) (symmetric : bool) (dt : idtype) (t : task)
    : res cexn wres :=
    match t with
    | TBlock ri rj => rbind (block_triplets ri rj x1 x2 h symmetric dt) (fun l => Ok (WTrips l))
    | TRow ri => row_strip_csr ri x1 x2 h n2 dt
    | TCol rj => col_strip_csc rj x1 x2 h n1 dt
    end.

  (** distributed_covariance 313-431; [x1], [x2] are the contents of the scattered futures, [same]
      whether they are the same future *)
  Definition distributed_covariance (cluster : cluster_t) (h : H) (x1 : list P) (n1 : nat) (x2 : list P) (n2 : nat) (same : bool)
      (batch_size : Z) (symmetric : bool) (d : distribution) : list event * res cexn spm :=
    if symmetric && negb (n1 =? n2) then ([], Err EAssertSquare) else                  (* 364 *)
    if symmetric && negb same then ([], Err EAssertSame) else                          (* 365 *)
    let dt := index_dtype_for n1 n2 in
    let '(strat, tasks) := plan n1 n2 batch_size symmetric d in
    let results := combine (seq 0 (length tasks)) (map (run_task x1 x2 h n1 n2 symmetric dt) tasks) in
    let '(ev, out) := harvest (cluster results) in
    (map EvSubmit (seq 0 (length tasks)) ++ ev,
     rbind out (fun ws =>
     rbind (match strat with
            | SBlock => assemble_triplets (trips ws) n1 n2 symmetric dt
            | SCol => assemble_col_strips ws n1 n2
            | SRow => assemble_row_strips ws n1 n2
            end) (fun K =>
     if n1 * n2 =? 0 then Err EZeroDiv else Ok K))).                                   (* 430 *)

  (** _as_csr of a kernel result, 448-449 *)
  Definition as_csr (k : kout) : spm :=
    match k with KDense c rows => Sp (length rows) c (dense_trips rows) | KSparse m => m end.

  (** stack_augmented_covariance 434-443 *)
  Definition transpose_sp (m : spm) : spm := Sp (nc m) (nr m) (map (fun t => T (td t) (tc t) (tr t)) (ents m)).
  Definition shift (a b : nat) (l : list trip) : list trip :=
    map (fun t => T (td t) (tr t + Z.of_nat a) (tc t + Z.of_nat b)) l.
  Definition stack_augmented (K B D : spm) : res cexn spm :=
    if (nr B =? nr K) && (nc B =? nc D) && (nc K =? nr B) && (nr D =? nc B) then
      Ok (Sp (nr K + nr D) (nc K + nc D)
             (ents K ++ shift 0 (nc K) (ents B) ++ shift (nr K) 0 (ents (transpose_sp B)) ++ shift (nr K) (nc K) (ents D)))
    else Err EStack.

  (** a scattered point set *)
  Record future := Fut { fid : nat; fdata : list P }.
  Variables (batch_size : Z) (dist : distribution).

  (** _gp2Scale_covariance, gp_prior.py 324-370; [next] numbers the scatters *)
  Definition gp2scale_cov (cluster : cluster_t) (next : nat) (x1 x2 : list P) (h : H) (symmetric : bool) (f1 f2 : option future)
    : nat * (list event * res cexn spm) :=
    if negb (should_distribute (length x1) (length x2) batch_size dist) then
      (next, ([], rbind (kernel x1 x2 h) (fun k => Ok (as_csr k))))                    (* 344-346 *)
    else
      let '(next, ev1, u1, own1) := match f1 with Some f => (next, [], f, false)
                                    | None => (S next, [EvScatter next], Fut next x1, true) end in   (* 348-349 *)
      let '(next, ev2, u2, own2) :=
        if symmetric then (next, [], u1, false)                                          (* 355 *)
        else match f2 with Some f => (next, [], f, false)
             | None => (S next, [EvScatter next], Fut next x2, true) end in              (* 357-358 *)
      if symmetric && negb (length x2 =? length x1) then (next, (ev1 ++ ev2, Err EAssertSame)) else  (* 354 *)
      let '(ev, r) := distributed_covariance cluster h (fdata u1) (length x1) (fdata u2) (length x2)
                        (fid u1 =? fid u2) batch_size symmetric dist in
      (next, (ev1 ++ ev2 ++ ev ++ (if own1 then [EvRelease (fid u1)] else []) ++
              (if own2 then [EvRelease (fid u2)] else []), r)).                          (* 368-370 *)

  (** the prior's state under gp2Scale: data, K, and the persistent scatter of the data *)
  Record pstate := PS { px : list P; ph : H; pcov : spm; pfut : future; pnext : nat; plog : list event }.

  (** GPprior.__init__ 94-99 *)
  Definition prior_cov_matrix (cluster : cluster_t) (next : nat) (x : list P) (h : H) (xdata : list P) (f : future) :=
    gp2scale_cov cluster next x x h true (if length x =? length xdata then Some f else None) None.   (* 193-195 *)
  Definition pinit (cluster : cluster_t) (x : list P) (h : H) : pstate * res cexn unit :=
    let f := Fut 0 x in
    let '(n, (ev, r)) := prior_cov_matrix cluster 1 x h x f in
    match r with
    | Ok K => (PS x h K f n (EvScatter 0 :: ev), Ok tt)
    | Err e => (PS x h (Sp 0 0 []) f n (EvScatter 0 :: ev), Err e)
    end.

  (** update_gp_data(append=True) as far as the prior goes: the data grow first (gp_data.py 110), then
      _update_prior_covariance_matrix 267-281, K is assigned, the scatter is refreshed 159-166.  An
      exception leaves what has been assigned so far. *)
  Definition pappend (s : pstate) (xn : list P) (cB cD : cluster_t) : pstate * res cexn unit :=
    let xold := px s in
    let s := PS (xold ++ xn) (ph s) (pcov s) (pfut s) (pnext s) (plog s) in
    let fn := Fut (pnext s) xn in
    let '(n1, (ev1, rB)) := gp2scale_cov cB (S (pnext s)) xold xn (ph s) false (Some (pfut s)) (Some fn) in
    let '(n2, (ev2, rD)) := match rB with
                            | Ok _ => gp2scale_cov cD n1 xn xn (ph s) true (Some fn) None
                            | Err e => (n1, ([], Err e)) end in
    let log := plog s ++ EvScatter (fid fn) :: ev1 ++ ev2 ++ [EvRelease (fid fn)] in
    match rB, rD with
    | Ok B, Ok D =>
        match stack_augmented (pcov s) B D with
        | Ok K => (PS (px s) (ph s) K (Fut n2 (px s)) (S n2) (log ++ [EvScatter n2]), Ok tt)
        | Err e => (PS (px s) (ph s) (pcov s) (pfut s) n2 log, Err e)
        end
    | Err e, _ | _, Err e => (PS (px s) (ph s) (pcov s) (pfut s) n2 log, Err e)
    end.

  (** update_gp_data(append=False): 169-179 *)
  Definition poverwrite (s : pstate) (x : list P) (cluster : cluster_t) : pstate * res cexn unit :=
    let f := Fut (pnext s) x in
    let '(n, (ev, r)) := prior_cov_matrix cluster (S (pnext s)) x (ph s) x f in
    let log := plog s ++ EvScatter (fid f) :: ev in
    match r with
    | Ok K => (PS x (ph s) K f n log, Ok tt)
    | Err e => (PS x (ph s) (pcov s) f n log, Err e)
    end.
  (** set_hyperparameters: 181-183 *)
  Definition psethps (s : pstate) (h : H) (cluster : cluster_t) : pstate * res cexn unit :=
    let '(n, (ev, r)) := prior_cov_matrix cluster (pnext s) (px s) h (px s) (pfut s) in
    match r with
    | Ok K => (PS (px s) h K (pfut s) n (plog s ++ ev), Ok tt)
    | Err e => (PS (px s) h (pcov s) (pfut s) n (plog s ++ ev), Err e)
    end.

  Inductive pop := PAppend (x : list P) (cB cD : cluster_t) | POverwrite (x : list P) (c : cluster_t)
                 | PSetHps (h : H) (c : cluster_t).
  Definition pstep (s : pstate) (o : pop) : pstate * res cexn unit :=
    match o with
    | PAppend x cB cD => pappend s x cB cD
    | POverwrite x c => poverwrite s x c
    | PSetHps h c => psethps s h c
    end.
  (** a session: failed operations raise to the caller, who carries on *)
  Fixpoint psteps (s : pstate) (os : list pop) : pstate * list (res cexn unit) :=
    match os with
    | [] => (s, [])
    | o :: r => let '(s1, x) := pstep s o in let '(s2, xs) := psteps s1 r in (s2, x :: xs)
    end.
End Cov.
