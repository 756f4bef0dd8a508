(** gp_mcmc.py: the Metropolis sampler.

    Simplifications: the log likelihood and the prior are functions of the position (args fixed); randomness
    is an arbitrary oracle: [rnd i k] is what the k-th proposal of iteration i draws, its second component the
    uniform number; time stamps are left out; [run_in_every_iteration] has no effect on the sampler; numpy
    broadcasting of a one-element proposal to several indices is left out (it counts as a shape error). *)
From Verif Require Import Model.Prelude Model.Ext.
Local Open Scope R_scope.

(** a ProposalDistribution object 234-300: indices, auto_accept, the jump trace and its adaptable arguments *)
Record prop (S : Type) := Prop_ { p_indices : list nat; p_auto : bool; p_jumps : list R; p_args : S }.
Arguments Prop_ {S}. Arguments p_indices {S}. Arguments p_auto {S}. Arguments p_jumps {S}. Arguments p_args {S}.

(** x[indices] 202 *)
Definition gather (x : list ext) (ind : list nat) : list ext := map (fun i => nth i x NaN) ind.
Fixpoint setn (x : list ext) (i : nat) (v : ext) : list ext :=
  match x, i with
  | [], _ => []
  | _ :: t, O => v :: t
  | a :: t, S j => a :: setn t j v
  end.
(** x_star[indices] = ..., entry by entry in order; None: shapes differ (numpy raises) *)
Fixpoint scatter (x : list ext) (ind : list nat) (vals : list ext) : option (list ext) :=
  match ind, vals with
  | [], [] => Some x
  | i :: ind', v :: vals' => scatter (setn x i v) ind' vals'
  | _, _ => None
  end.

Inductive mcmc_err := EShape | ENaNLikelihood.

(** the default prior 76-78 *)
Definition box_prior (bounds : list (ext * ext)) (x : list ext) : ext :=
  if forallb (fun p => eleb (fst (snd p)) (fst p) && eleb (fst p) (snd (snd p))) (combine x bounds) then Fin 0 else NInf.

(** metr_ratio 210-213 *)
Definition metr_ratio (expo : ext) : ext :=
  let r := if eltb expo (Fin 50) then eexp expo else Fin (11 / 10) in
  if isnan r then Fin 0 else r.
(** the acceptance test 214 *)
Definition accepts (expo : ext) (u : R) (auto : bool) : bool := eltb (Fin u) (metr_ratio expo) || auto.

(** np.argmax: first position of the maximum; NaN counts as largest *)
Definition better (a b : ext) : bool := if isnan b then false else if isnan a then true else eltb b a.
Fixpoint argmax_from (best : ext) (bi i : nat) (l : list ext) : nat :=
  match l with
  | [] => bi
  | a :: t => if better a best then argmax_from a i (S i) t else argmax_from best bi (S i) t
  end.
Definition argmax (l : list ext) : nat := match l with [] => O | a :: t => argmax_from a O 1 t end.

Record trace := Trace { t_x : list (list ext); t_f : list ext }.
(** mcmc_info 168-178; the windowed statistics are kept as the window they are computed from *)
Record info := Info { i_f : list ext; i_maxf : ext; i_map : ext; i_maxx : list ext; i_x : list (list ext); i_window : list (list ext) }.

(** int(len - len / 100) 167; for a non-negative length this is the floor of 99 len / 100 *)
Definition dist_index (n : nat) : nat := Z.to_nat (99 * Z.of_nat n / 100).

Definition collect (t : trace) : info :=
  let am := argmax (t_f t) in
  Info (t_f t) (nth am (t_f t) NaN) (nth am (t_f t) NaN) (nth am (t_x t) []) (t_x t) (skipn (dist_index (length (t_x t))) (t_x t)).

Section Sampler.
Variables (S Omega : Type) (lik prior : list ext -> ext).
(** proposal_dist(x_old[indices], x_old, obj); adapt(i, self) *)
Variable propose : Omega -> list ext -> list ext -> prop S -> list ext.
Variable adapt : nat -> trace -> prop S -> S.

(** _jump 196-224 *)
Definition jump (x_old : list ext) (o : prop S) (pr lk : ext) (w : Omega) (u : R) : res mcmc_err (list ext * ext * ext * R) :=
  match scatter x_old (p_indices o) (propose w (gather x_old (p_indices o)) x_old o) with
  | None => Err EShape
  | Some xs =>
      let ps := prior xs in
      if negb (isninf ps) then
        let ls := lik xs in
        if isnan ls then Err ENaNLikelihood else
        let expo := esub (esub (eadd ps ls) pr) lk in
        if accepts expo u (p_auto o) then Ok (xs, ps, ls, 1) else Ok (x_old, pr, lk, 0)
      else Ok (x_old, pr, lk, 0)
  end.

(** the inner loop over the proposal distributions 154-157 *)
Fixpoint sweep (i k : nat) (rnd : nat -> nat -> Omega * R) (t : trace) (x : list ext) (pr lk : ext) (os : list (prop S))
  : res mcmc_err (list ext * ext * ext * list (prop S)) :=
  match os with
  | [] => Ok (x, pr, lk, [])
  | o :: os' =>
      match jump x o pr lk (fst (rnd i k)) (snd (rnd i k)) with
      | Err e => Err e
      | Ok (x1, pr1, lk1, jt) =>
          let o1 := Prop_ (p_indices o) (p_auto o) (p_jumps o ++ [jt]) (p_args o) in
          let o2 := Prop_ (p_indices o) (p_auto o) (p_jumps o ++ [jt]) (adapt i t o1) in
          match sweep i (k + 1) rnd t x1 pr1 lk1 os' with
          | Err e => Err e
          | Ok (x2, pr2, lk2, os2) => Ok (x2, pr2, lk2, o2 :: os2)
          end
      end
  end.

(** the main loop 153-179; [left] iterations remain.  Result: the trace attribute, the last mcmc_info *)
Fixpoint loop (left i : nat) (rnd : nat -> nat -> Omega * R) (brk : trace -> bool) (t : trace) (inf : option info)
    (x : list ext) (pr lk : ext) (os : list (prop S)) : res mcmc_err (trace * option info) :=
  match left with
  | O => Ok (t, inf)
  | Datatypes.S left' =>
      match sweep i 0 rnd t x pr lk os with
      | Err e => Err e
      | Ok (x1, pr1, lk1, os1) =>
          let t1 := Trace (t_x t ++ [x1]) (t_f t ++ [lk1]) in
          if brk t1 then Ok (t1, inf)
          else loop left' (i + 1) rnd brk t1 (Some (collect t1)) x1 pr1 lk1 os1
      end
  end.

(** run_mcmc 96-181.  mcmc_info["f(x)"] is the list object of the trace itself, so it is the final one in the
    returned dictionary; None is the empty dictionary set in __init__ 94. *)
Definition run_mcmc (x0 : list ext) (n_updates : nat) (rnd : nat -> nat -> Omega * R) (brk : trace -> bool) (os : list (prop S))
  : res mcmc_err (trace * option info) :=
  match loop (Nat.max n_updates 2 - 1) 1 rnd brk (Trace [x0] []) None x0 (prior x0) (lik x0) os with
  | Err e => Err e
  | Ok (t, inf) => Ok (t, option_map (fun f => Info (t_f t) (i_maxf f) (i_map f) (i_maxx f) (i_x f) (i_window f)) inf)
  end.
End Sampler.
