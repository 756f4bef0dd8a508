(** Model of the containers and the call order of the GGMP.  /repo/fvgp/ggmp.py: class hyperparameters 781-859, class NormalLikelihood 862-902,
    GGMP.__init__ 104-123, __getattr__ 125-128, build_pairwise_data_generating_normals 130-145, initLikelihoods 147-222, initGPs 224-449,
    train 571-693, posterior_mean 695-724, posterior_variance 726-778.

    Simplifications: arrays are lists; what the methods do after their guards is reduced to whether it raises (an oracle) and to which of
    the attributes likelihoods, gps they assign, except for the first use of a missing attribute.  Indices are not negative.  No proofs here. *)
From Verif Require Import Model.Prelude.

Section Hps.
Context {A B : Type}.          (* numbers; bounds *)
Inductive hexn := HIndex | HSets | HWeights.      (* IndexError; the two Exceptions *)
Record hpo := HPO {
  h_bounds : list (list B); h_wbounds : list B; h_weights : list A; h_hps : list (list A);
  h_nw : nat; h_nsets : nat; h_nh : list nat; h_vec : list A; h_vbounds : list B }.

(** [l[0], ..., l[n-1]] *)
Definition upto {X} (l : list X) (n : nat) : res hexn (list X) := if length l <? n then Err HIndex else Ok (firstn n l).
(** the loop over the sets, 826-828 and 845-847 *)
Fixpoint flatten {X} (l : list (list X)) (ns : list nat) : res hexn (list X) :=
  match ns with
  | [] => Ok []
  | n :: ns' => match l with
                | [] => match n with O => flatten [] ns' | _ => Err HIndex end      (* hps[i] is only evaluated inside the inner loop *)
                | x :: l' => match upto x n with
                             | Err e => Err e
                             | Ok a => match flatten l' ns' with Err e => Err e | Ok b => Ok (a ++ b) end
                             end
                end
  end.
(** 823-829, 843-848 *)
Definition vectorize {X} (nw : nat) (nh : list nat) (w : list X) (h : list (list X)) : res hexn (list X) :=
  match upto w nw with Err e => Err e | Ok a => match flatten h nh with Err e => Err e | Ok b => Ok (a ++ b) end end.
(** slices v[index : index + n] *)
Fixpoint split_at {X} (v : list X) (ns : list nat) : list (list X) :=
  match ns with [] => [] | n :: ns' => firstn n v :: split_at (skipn n v) ns' end.
(** 831-839, 851-858 *)
Definition devectorize {X} (nw : nat) (nh : list nat) (v : list X) : list X * list (list X) := (firstn nw v, split_at (skipn nw v) nh).

(** 799-811 *)
Definition hps_init (w : list A) (wb : list B) (h : list (list A)) (hb : list (list B)) : res hexn hpo :=
  let nw := length w in let nh := map (@length A) h in
  if negb (length h =? length hb) then Err HSets
  else if negb (length w =? length wb) then Err HWeights
  else match vectorize nw nh w h with
       | Err e => Err e
       | Ok v => match vectorize nw nh wb hb with
                 | Err e => Err e
                 | Ok vb => Ok (HPO hb wb w h nw (length h) nh v vb)
                 end
       end.
(** 814-821: the attributes are assigned before the vector is computed *)
Definition hps_set (o : hpo) (w : list A) (h : list (list A)) : hpo * res hexn unit :=
  if negb (length h =? length (h_bounds o)) then (o, Err HSets)
  else if negb (length w =? length (h_wbounds o)) then (o, Err HWeights)
  else let o' v := HPO (h_bounds o) (h_wbounds o) w h (h_nw o) (h_nsets o) (h_nh o) v (h_vbounds o) in
       match vectorize (h_nw o) (h_nh o) w h with
       | Err e => (o' (h_vec o), Err e)
       | Ok v => (o' v, Ok tt)
       end.
Definition vectorize_hps (o : hpo) := @vectorize A (h_nw o) (h_nh o).
Definition devectorize_hps (o : hpo) := @devectorize A (h_nw o) (h_nh o).
Definition vectorize_bounds (o : hpo) := @vectorize B (h_nw o) (h_nh o).
Definition devectorize_bounds (o : hpo) := @devectorize B (h_nw o) (h_nh o).
(** any number of calls of set; those that raise are caught by the caller *)
Definition hps_sets (o : hpo) (l : list (list A * list (list A))) : hpo := fold_left (fun o x => fst (hps_set o (fst x) (snd x))) l o.

(** NormalLikelihood 880-902 *)
Record nlik := NLik { n_mean : list A; n_var : list A; n_dim : nat; n_weight : A }.
Definition nl_init (m v : list A) (w : A) : nlik := NLik m v (length m) w.
Definition nl_set_moments (l : nlik) (m v : list A) : nlik := NLik m v (n_dim l) (n_weight l).
Definition nl_set_weight (l : nlik) (w : A) : nlik := NLik (n_mean l) (n_var l) (n_dim l) w.
Definition nl_unravel (l : nlik) : list A := n_mean l ++ n_var l.
Definition nl_ravel (l : nlik) (vec : list A) : list A * list A := (firstn (n_dim l) vec, skipn (n_dim l) vec).
End Hps.
Arguments hpo : clear implicits.
Arguments nlik : clear implicits.

(** ** the order of calls *)
Section Order.
(** an attribute that was not assigned reads as the function made by __getattr__, 125-128: it is truthy, and hasattr is True *)
Inductive attr := AFun | AList (n : nat).
Inductive gexn := GValue | GType | GIndex | GLater.      (* ValueError of a guard; TypeError; IndexError; raised later *)
Record gstate := GS { g_terms : nat; g_liks : option nat; g_gps : option nat }.      (* K; lengths of likelihoods and gps if assigned *)
Definition read (a : option nat) : attr := match a with Some n => AList n | None => AFun end.
Definition has (a : attr) : bool := true.                                              (* hasattr *)
Definition falsy (a : attr) : bool := match a with AList 0 => true | _ => false end.    (* not a *)
Definition len (a : attr) : res gexn nat := match a with AList n => Ok n | AFun => Err GType end.
Definition index (a : attr) (k : nat) : res gexn unit := match a with AList n => if k <? n then Ok tt else Err GIndex | AFun => Err GType end.
Definition iterate (a : attr) : res gexn nat := match a with AList n => Ok n | AFun => Err GType end.
Fixpoint indices (a : attr) (ks : list nat) : res gexn unit :=
  match ks with [] => Ok tt | k :: r => match index a k with Err e => Err e | Ok _ => indices a r end end.

Inductive gcall :=
| InitLik (fine : bool) | InitGPs (fine : bool) | Train (fine : bool) | PostMean (fine : bool) | PostVar (fine : bool) | Pairwise (inrange : bool) (fine : bool).
Definition later (fine : bool) : res gexn unit := if fine then Ok tt else Err GLater.
Definition then_ (r : res gexn unit) (s : gstate -> gstate * res gexn unit) (g : gstate) : gstate * res gexn unit :=
  match r with Err e => (g, Err e) | Ok _ => s g end.

Definition gstep (g : gstate) (c : gcall) : gstate * res gexn unit :=
  let liks := read (g_liks g) in let gps := read (g_gps g) in let K := g_terms g in
  match c with
  | InitLik fine => if fine then (GS K (Some K) (g_gps g), Ok tt) else (g, Err GLater)
  | InitGPs fine =>                                                                    (* 381-382, 390, 431-442 *)
      if negb (has liks) || falsy liks then (g, Err GValue)
      else then_ (indices liks (seq 0 K)) (fun g => if fine then (GS K (g_liks g) (Some K), Ok tt) else (g, Err GLater)) g
  | Train fine =>                                                                      (* 629-634 *)
      if negb (has gps) || falsy gps then (g, Err GValue)
      else match iterate gps with Err e => (g, Err e) | Ok _ => then_ (indices liks (seq 0 K)) (fun g => (g, later fine)) g end
  | PostMean fine | PostVar fine =>                                                    (* 719-723, 761-770 *)
      if negb (has gps) || falsy gps then (g, Err GValue)
      else then_ (indices liks (seq 0 K)) (fun g => match iterate gps with Err e => (g, Err e) | Ok _ => (g, later fine) end) g
  | Pairwise inrange fine =>                                                           (* 135-144 *)
      match (if negb (has liks) then Ok true else match len liks with Err e => Err e | Ok n => Ok (n =? 0) end) with
      | Err e => (g, Err e)
      | Ok true => (g, Err GValue)
      | Ok false => if negb inrange then (g, Err GIndex) else then_ (indices liks (seq 0 K)) (fun g => (g, later fine)) g
      end
  end.
Definition gnew (K : nat) : gstate := GS K None None.
Fixpoint gcalls (g : gstate) (cs : list gcall) : gstate * list (gcall * res gexn unit) :=
  match cs with [] => (g, []) | c :: r => let '(g1, x) := gstep g c in let '(g2, l) := gcalls g1 r in (g2, (c, x) :: l) end.
End Order.
