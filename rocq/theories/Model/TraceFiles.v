(** ggmp.py: the trace files of MCMC training.  _atomic_savez 2025-2029, _save_gp_mcmc_info 2032-2086, and the calls of it in
    train_component_gps_mcmc 2217-2266.

    Simplifications: the file gp{k:02d}_mcmc_trace{suffix}.npz of the run directory is named by the pair (k, suffix), so tags
    contain no path separator; of the payload x, f(x), the summary statistics (one value) and thin, k, tag of the meta data are
    kept (time stamps are treated like f(x)); writing an array file may fail and then leaves a broken file behind. *)
From Coq Require Import String Ascii DecimalString.
From Verif Require Import Model.Prelude.
Local Open Scope string_scope.

(** f"chunk{n:06d}" 2226 *)
Definition zeros (k : nat) (s : string) : string := Nat.iter k (String "0"%char) s.
Definition six_digits (n : N) : string := let s := NilZero.string_of_uint (N.to_uint n) in zeros (6 - String.length s) s.
Definition chunk_tag (n : N) : string := "chunk" ++ six_digits n.

Section Files.
Variables X F St : Type.
(** gp.mcmc_info: None is "not a dict, or without x" 2047 *)
Record minfo := MInfo { mi_x : list X; mi_f : list F; mi_stats : St }.
Record payload := Payload { pl_x : list X; pl_f : list F; pl_stats : St; pl_k : Z; pl_thin : Z; pl_tag : string }.
Inductive content := Complete (p : payload) | Broken.
Definition fname := (Z * string)%type.
Definition fname_eqb (a b : fname) : bool := (fst a =? fst b)%Z && String.eqb (snd a) (snd b).
Definition fs := fname -> option content.
Definition upd (d : fs) (n : fname) (c : option content) : fs := fun m => if fname_eqb m n then c else d m.

(** l[::n] for a positive n: every n-th entry *)
Fixpoint every_from {A} (n skip : nat) (l : list A) : list A :=
  match l with
  | [] => []
  | a :: t => match skip with O => a :: every_from n (n - 1) t | S s => every_from n s t end
  end.
Definition every {A} (n : nat) (l : list A) : list A := every_from n 0 l.

Definition suffix (tag : string) : string := if String.eqb tag "" then "" else "_" ++ tag.
Definition path (k : Z) (tag : string) : fname := (k, suffix tag).
(** path.with_suffix(".tmp.npz") 2026 *)
Definition tmp_of (n : fname) : fname := (fst n, snd n ++ ".tmp").

(** how the write of the temporary file and the renaming end *)
Inductive outcome := Written | WriteFails | RenameFails.
(** _atomic_savez 2025-2029; the flag: returned normally *)
Definition atomic_savez (o : outcome) (n : fname) (p : payload) (d : fs) : fs * bool :=
  match o with
  | WriteFails => (upd d (tmp_of n) (Some Broken), false)
  | RenameFails => (upd d (tmp_of n) (Some (Complete p)), false)
  | Written => let d1 := upd d (tmp_of n) (Some (Complete p)) in (upd (upd d1 (tmp_of n) None) n (Some (Complete p)), true)
  end.
(** _save_gp_mcmc_info 2032-2086 *)
Definition save_info (o : outcome) (k : Z) (thin : Z) (tag : string) (info : option minfo) (d : fs) : fs * bool :=
  match info with
  | None => (d, true)
  | Some i =>
      let thin := Z.max 1 thin in
      let n := Z.to_nat thin in
      atomic_savez o (path k tag) (Payload (every n (mi_x i)) (every n (mi_f i)) (mi_stats i) k thin tag) d
  end.

(** the calls made while component k trains chunk by chunk 2217-2244 and at its end 2257-2264.
    [chunks]: for each chunk the iterations so far, gp.mcmc_info after it, and how writing ends.  An exception of a chunk is
    dropped 2138-2141. *)
Fixpoint save_chunks (on : bool) (k thin : Z) (chunks : list (N * option minfo * outcome)) (d : fs) : fs :=
  match chunks with
  | [] => d
  | (total, info, o) :: r => save_chunks on k thin r (if on then fst (save_info o k thin (chunk_tag total) info d) else d)
  end.
Definition last_info (start : option minfo) (chunks : list (N * option minfo * outcome)) : option minfo :=
  fold_left (fun _ c => snd (fst c)) chunks start.
Definition train_files (save save_chunk : bool) (k thin : Z) (start : option minfo) (chunks : list (N * option minfo * outcome)) (o : outcome) (d : fs) : fs * bool :=
  let d1 := save_chunks (save && save_chunk) k thin chunks d in
  if save then save_info o k thin "" (last_info start chunks) d1 else (d1, true).
End Files.
Arguments MInfo {X F St}. Arguments mi_x {X F St}. Arguments mi_f {X F St}. Arguments mi_stats {X F St}.
Arguments Payload {X F St}. Arguments pl_x {X F St}. Arguments pl_f {X F St}. Arguments pl_stats {X F St}. Arguments pl_k {X F St}. Arguments pl_thin {X F St}. Arguments pl_tag {X F St}.
Arguments Complete {X F St}. Arguments Broken {X F St}. Arguments save_info {X F St}. Arguments atomic_savez {X F St}. Arguments upd {X F St}.
Arguments save_chunks {X F St}. Arguments last_info {X F St}. Arguments train_files {X F St}.
