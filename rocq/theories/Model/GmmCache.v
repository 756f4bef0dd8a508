(** Model of the cache of station fits.  /repo/fvgp/ggmp.py: _gmm_cache_path 1781-1803, _load_gmm_cache 1807-1824, _save_gmm_cache 1828-1844,
    fit_station_gmms_fixed_weights_cached 1849-1985.

    [Meta] is the dictionary the cache is keyed by (data file with size and time, K, iteration limit, tolerance), [path_of] the file name derived from
    its hash, [Series] the data of a station, [F] a row of fitted means and variances.  [fit] stands for fit_gmm_fixed_weights with quantile initialization, None if it
    raises; [argsort] for np.argsort.  A file is broken if np.load or the shape checks of _load_gmm_cache fail on it.  The data file is assumed to exist and the
    numbers of series and of ids to agree; logging and creation of the directory are left out.  No proofs here. *)
From Verif Require Import Model.Prelude.

Section Cache.
Context {Meta P Series F : Type} (meta_eqb : Meta -> Meta -> bool) (p_eqb : P -> P -> bool).
Context (path_of : Meta -> P) (width : Meta -> nat).               (* width: K *)
Context (fit : Meta -> Series -> option F) (zeros : Meta -> F).
Context (argsort : list Z -> list nat).

Record content := { c_meta : Meta; c_width : nat; c_rows : list (Z * F) }.
Inductive file := Broken | Whole (c : content).
(** the cache files and the temporary files next to them *)
Record disk := { d_main : P -> option file; d_tmp : P -> option file }.
Definition load (f : option file) : option content := match f with Some (Whole c) => Some c | _ => None end.

(** ** saving: 1836-1844.  The writes to the temporary file are not distinguished: until it is closed it is broken. *)
Inductive op := Create (p : P) | WriteSome (p : P) | Finish (p : P) (c : content) | Replace (p : P).
Definition upd (f : P -> option file) (p : P) (v : option file) : P -> option file := fun q => if p_eqb q p then v else f q.
Definition exec (d : disk) (o : op) : disk :=
  match o with
  | Create p | WriteSome p => {| d_main := d_main d; d_tmp := upd (d_tmp d) p (Some Broken) |}
  | Finish p c => {| d_main := d_main d; d_tmp := upd (d_tmp d) p (Some (Whole c)) |}
  | Replace p => {| d_main := upd (d_main d) p (d_tmp d p); d_tmp := upd (d_tmp d) p None |}
  end.
Definition save_ops (writes : nat) (p : P) (c : content) : list op := Create p :: repeat (WriteSome p) writes ++ [Finish p c; Replace p].

(** ** a run: 1869-1985 *)
(** the dictionary from ids to rows: of several rows with one id the last one counts *)
Definition row_of (rows : list (Z * F)) (sid : Z) : option F :=
  fold_left (fun acc r => if Z.eqb (fst r) sid then Some (snd r) else acc) rows None.
(** 1918-1945: result rows and added rows *)
Fixpoint fit_all (m : Meta) (rows : list (Z * F)) (stations : list (Z * Series)) : list F * list (Z * F) :=
  match stations with
  | [] => ([], [])
  | (sid, y) :: r =>
      let '(out, added) := fit_all m rows r in
      match row_of rows sid with
      | Some f => (f :: out, added)
      | None => match fit m y with Some f => (f :: out, (sid, f) :: added) | None => (zeros m :: out, added) end
      end
  end.
(** np.unique with return_index on sorted ids: the first of each run *)
Fixpoint uniq (rows : list (Z * F)) : list (Z * F) :=
  match rows with
  | [] => []
  | a :: r => a :: match r with
                   | b :: _ => if Z.eqb (fst a) (fst b) then tl (uniq r) else uniq r
                   | [] => []
                   end
  end.
Definition ordered (rows : list (Z * F)) : list (Z * F) :=
  flat_map (fun i => match nth_error rows i with Some r => [r] | None => [] end) (argsort (map fst rows)).
Inductive cexn := CShape.                                          (* ValueError of np.vstack *)
(** results, and the content to be saved *)
Definition run (m : Meta) (stations : list (Z * Series)) (f : option file) : res cexn (list F * option content) :=
  let cached := match load f with
                | Some c => if meta_eqb (c_meta c) m then (if (c_width c =? width m)%nat then Some c else None) else Some c
                | None => None
                end in
  let rows := match load f with Some c => if (meta_eqb (c_meta c) m && (c_width c =? width m)%nat)%bool then c_rows c else [] | None => [] end in
  let '(out, added) := fit_all m rows stations in
  match cached with
  | None => Ok (out, match added with [] => None | _ => Some {| c_meta := m; c_width := width m; c_rows := uniq (ordered added) |} end)
  | Some c =>
      match added with
      | [] => Ok (out, Some {| c_meta := m; c_width := c_width c; c_rows := uniq (ordered (c_rows c)) |})
      | _ => if (c_width c =? width m)%nat then Ok (out, Some {| c_meta := m; c_width := width m; c_rows := uniq (ordered (c_rows c ++ added)) |})
             else Err CShape
      end
  end.
(** without the cache *)
Definition run_plain (m : Meta) (stations : list (Z * Series)) : list F := fst (fit_all m [] stations).

(** ** several runs, each of which may be killed while saving, after [k] operations of the disk *)
Record request := { r_meta : Meta; r_stations : list (Z * Series); r_writes : nat; r_killed : option nat }.
Definition serve (d : disk) (q : request) : disk * res cexn (list F) :=
  match run (r_meta q) (r_stations q) (d_main d (path_of (r_meta q))) with
  | Err e => (d, Err e)
  | Ok (out, None) => (d, Ok out)
  | Ok (out, Some c) =>
      let ops := save_ops (r_writes q) (path_of (r_meta q)) c in
      (fold_left exec (match r_killed q with Some k => firstn k ops | None => ops end) d, Ok out)
  end.
Fixpoint serve_all (d : disk) (qs : list request) : disk * list (res cexn (list F)) :=
  match qs with [] => (d, []) | q :: r => let '(d1, x) := serve d q in let '(d2, l) := serve_all d1 r in (d2, x :: l) end.
End Cache.

(** ** two processes saving to one path at the same time.  A name refers to an inode; opening for writing truncates the inode the temporary name refers to; a process that closes
    a file another one has truncated in between leaves it broken. *)
Section Shared.
Context {C : Type}.
Inductive data := Garbage | Complete (c : C).
Record names := { n_main : option nat; n_tmp : option nat; n_data : nat -> nat * data; n_next : nat }.       (* process that truncated last, data *)
Inductive stage := Begin | Writing (i : nat) | Written | Saved | Failed.          (* Failed: FileNotFoundError of replace *)
Definition set_data (f : nat -> nat * data) (i : nat) (v : nat * data) : nat -> nat * data := fun j => if (j =? i)%nat then v else f j.
Definition sstep (me : nat) (c : C) (s : names) (g : stage) : names * stage :=
  match g with
  | Begin => match n_tmp s with
             | Some i => ({| n_main := n_main s; n_tmp := n_tmp s; n_data := set_data (n_data s) i (me, Garbage); n_next := n_next s |}, Writing i)
             | None => ({| n_main := n_main s; n_tmp := Some (n_next s); n_data := set_data (n_data s) (n_next s) (me, Garbage); n_next := S (n_next s) |}, Writing (n_next s))
             end
  | Writing i => ({| n_main := n_main s; n_tmp := n_tmp s; n_data := set_data (n_data s) i (fst (n_data s i), if (fst (n_data s i) =? me)%nat then Complete c else Garbage); n_next := n_next s |}, Written)
  | Written => match n_tmp s with
               | None => (s, Failed)
               | Some i => ({| n_main := Some i; n_tmp := None; n_data := n_data s; n_next := n_next s |}, Saved)
               end
  | Saved | Failed => (s, g)
  end.
(** [cs p]: what process p saves; a schedule names the process that moves *)
Fixpoint sched (cs : nat -> C) (l : list nat) (s : names) (g : nat -> stage) : names * (nat -> stage) :=
  match l with
  | [] => (s, g)
  | p :: r => let '(s', x) := sstep p (cs p) s (g p) in sched cs r s' (fun q => if (q =? p)%nat then x else g q)
  end.
Definition reading (s : names) : option data := match n_main s with Some i => Some (snd (n_data s i)) | None => None end.
End Shared.
