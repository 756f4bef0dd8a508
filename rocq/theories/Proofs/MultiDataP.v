(** What the data object holds for the rest of the code after an accepted multi-task update. *)
From Coq Require Import Lia.
From Verif Require Import Model.Prelude Model.Data Model.FvGP Spec.DataSpec Spec.FvGPSpec Proofs.DataP Proofs.FvGPP.

Section MultiData.
Context {V Obj : Type} (isnan : V -> bool) (of_task : nat -> V).
Notation inv := (inv isnan of_task).

Lemma gp_update_new {Ob} (s : gdata V Ob) o s' : gp_update isnan s o = (s', Ok tt) -> o_append o = true ->
  exists x y, g_xnew s' = Some x /\ xpts x = op_xpts o /\ g_ynew s' = Some y /\ rows y = op_yrows o /\
    g_noisenew s' = match o_noise o with NVec l => Some l | _ => None end.
Proof.
intros U A. destruct o as [x y nv ap]. cbn [o_append] in A. subst ap. unfold gp_update in U. cbn [o_x o_y o_noise o_append] in U. unfold op_xpts, op_yrows. cbn [o_x o_y o_noise].
destruct x as [m| |l|]; try discriminate; destruct y as [yl|ym|yn|]; try discriminate; destruct nv as [|nl| |]; try discriminate.
all: match type of U with (if ?c then _ else _) = _ => destruct c; [discriminate|] end.
all: unfold data_update in U; destruct (g_euclid s); try discriminate; destruct (g_noise s); try discriminate; destruct (g_x s) as [a|a]; try discriminate.
all: cbv zeta in U; cbn [g_x g_y g_noise g_xnew g_ynew g_noisenew g_xold g_yold g_noiseold g_n g_euclid g_dim] in U.
all: try (destruct (vstack a _) as [xx|]; [|discriminate]).
all: destruct (vstack (g_y s) _) as [yy|]; [|discriminate].
all: match type of U with (if ?c then _ else _) = _ => destruct c; [discriminate|] end; injection U as <-; cbn [g_xnew g_ynew g_noisenew]; eexists _, _; repeat (split; [reflexivity|]); try reflexivity.
all: split; [reflexivity|]; split; [apply column_rows || reflexivity|reflexivity].
Qed.

(** the new rows of a call, as read from the data object *)
Definition new_x (ap : bool) (d : gdata V (Obj * nat)) : list (list V + Obj * nat) := if ap then match g_xnew d with Some x => xpts x | None => [] end else stored_x d.
Definition new_y (ap : bool) (d : gdata V (Obj * nat)) : list (list V) := if ap then match g_ynew d with Some y => rows y | None => [] end else stored_y d.
Definition new_n (ap : bool) (d : gdata V (Obj * nat)) : option (list V) := if ap then g_noisenew d else g_noise d.

Lemma base_step (s : fstate V Obj) o s' : inv s -> op_fine o -> fv_update isnan of_task s o = (s', Ok tt) ->
  let d := f_data s in let d' := f_data s' in let ap := p_append o in
  stored_x d' = (if ap then stored_x d ++ new_x ap d' else new_x ap d') /\
  stored_y d' = (if ap then stored_y d ++ new_y ap d' else new_y ap d') /\
  match g_noise d, g_noise d', new_n ap d' with
  | None, None, None => True
  | Some l, Some l', Some b => l' = (if ap then l ++ b else b) /\ length b = length (new_x ap d')
  | _, _, _ => False
  end.
Proof.
intros I [A [yo [Eyo Neo]]] U d d' ap. assert (I0 := I). destruct I as [W [Kp _]].
assert (A' := A). rewrite Eyo in A'. destruct (update_ok isnan of_task s o s' yo Eyo U) as [f [d1 [x' [y' [n' [T [G [E ST]]]]]]]]. 
assert (Ed : d' = d1) by (unfold d'; rewrite E; reflexivity). 
destruct (transform_obs isnan of_task _ _ _ _ _ T A') as [_ [L1 [L2 L3]]]. pose proof (noise_accept isnan _ _ _ G) as [NA NV]. cbn [o_noise] in NA, NV.
destruct (gp_update_spec isnan _ _ _ _ W G) as [GS _]. destruct (GS eq_refl) as [W' [Sx [Sy [Sn _]]]]. unfold op_xpts, op_yrows, op_noise_vals in *. cbn [o_x o_y o_noise o_append] in *.
fold ap in Sx, Sy, Sn, G. fold d in Sx, Sy, Sn, NA. rewrite Ed. unfold flat_noise in L3. clear GS.
assert (BX : new_x ap d1 = pyx_pts (fl_x f) /\ new_y ap d1 = pyy_rows (fl_y f) /\ (match fl_n f, new_n ap d1 with NVec l, Some b => b = l | NNone, None => True | _, _ => False end)).
{ destruct ap eqn:EA.
  - destruct (gp_update_new _ _ _ G eq_refl) as (x & y & N1 & N2 & N3 & N4 & N5). unfold op_xpts, op_yrows in *. cbn [o_x o_y o_noise] in *. unfold new_x, new_y, new_n. rewrite N1, N3, N5.
    split; [exact N2|]. split; [exact N4|]. destruct NV as [[l ->]| ->]; [reflexivity|exact I].
  - unfold new_x, new_y, new_n. split; [exact Sx|]. split; [exact Sy|]. rewrite Sn. destruct NV as [[l NV]|NV]; rewrite NV in *.
    + destruct (g_noise d); [reflexivity|]. assert (NVec l = NNone) by (apply NA; reflexivity). discriminate.
    + rewrite (proj2 NA eq_refl). exact I. }
destruct BX as [BX [BY BN]]. rewrite BX, BY. split; [exact Sx|]. split; [exact Sy|]. rewrite Sn.
destruct NV as [[l NV]|NV]; rewrite NV in *.
- destruct (g_noise d) as [l0|]; [|assert (NVec l = NNone) by (apply NA; reflexivity); discriminate]. destruct (new_n ap d1) as [b|]; [|contradiction]. subst b. cbn [pyn_vals]. split; [destruct ap; reflexivity|].
  destruct L3 as [L3 _]. congruence.
- rewrite (proj2 NA eq_refl). destruct (new_n ap d1); [contradiction|exact I].
Qed.
End MultiData.
