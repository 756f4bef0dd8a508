(** Entries of K + V. *)
From Coq Require Import Reals Lra List Arith Lia.
From Verif Require Import Model.Prelude Model.GPState Model.LifeCycle Spec.GPStateSpec Spec.LifeCycleSpec Proofs.GPStateP.

Section Entry.
Context {P H : Type} (p0 : P) (k : P -> P -> H -> R) (nz : noise_choice P H) (favg defnoise : list R -> R).
Notation addKV := (addKV R0 Rplus).
Notation noise_of := (noise_of favg defnoise (noise_call nz)).

Lemma nth_map (A B : Type) (f : A -> B) l i d e : i < length l -> nth i (map f l) e = f (nth i l d).
Proof. intros Hi. rewrite (nth_indep _ e (f d)) by (rewrite map_length; lia). apply map_nth. Qed.

Lemma kv_entry x y nv h kv i j : (nz = @Measured P H -> length nv = length x) ->
  addKV (kernel_call k x x h) (noise_of x y nv h) = Some kv -> i < length x -> j < length x ->
  mget R0 kv i j = (k (nth i x p0) (nth j x p0) h + noise_entry p0 nz defnoise (DS x y nv h) i j)%R.
Proof.
  intros L E Hi Hj. pose proof (rect_ent (fun a b => k a b h) x x) as RK.
  unfold noise_of, noise_call, noise_entry in *. cbn [ds_x ds_y ds_nv ds_h].
  destruct nz as [| |nu|nu]; cbn [GPState.addKV] in E.
  1: rewrite (L eq_refl), Nat.eqb_refl in E; cbn [GPState.addKV] in E.
  1-3: destruct (Nat.eqb _ _) in E; [|discriminate]; injection E as <-;
       unfold kernel_call; rewrite (mget_set_diag _ _ _ _ _ _ _ _ RK) by assumption;
       rewrite (mget_ent R0 (fun a b => k a b h) _ _ _ _ p0) by assumption;
       destruct (Nat.eqb_spec i j) as [->|]; [|lra].
  - reflexivity.
  - now rewrite (nth_map _ _ _ _ _ p0) by assumption.
  - now rewrite (nth_map _ _ _ _ _ p0) by assumption.
  - destruct (Nat.eqb _ _) in E; [|discriminate]; injection E as <-. unfold kernel_call.
    pose proof (rect_ent (fun a b => nu a b h) x x) as RN.
    rewrite (mget_madd _ _ _ _ _ _ _ _ RK RN) by assumption.
    rewrite (mget_ent R0 (fun a b => k a b h) _ _ _ _ p0), (mget_ent R0 (fun a b => nu a b h) _ _ _ _ p0) by assumption.
    reflexivity.
Qed.
Lemma kv_formed x y nv h : (nz = @Measured P H -> length nv = length x) -> exists kv, addKV (kernel_call k x x h) (noise_of x y nv h) = Some kv.
Proof.
  intros L. unfold noise_of, noise_call, kernel_call. destruct nz as [| |nu|nu]; cbn [GPState.addKV].
  1: rewrite (L eq_refl), Nat.eqb_refl; cbn [GPState.addKV].
  all: rewrite ?map_length, ?(L eq_refl), Nat.eqb_refl; eauto.
Qed.
(** the old entries after an append *)
Lemma entry_app d x y nv i j : (nz = @Measured P H -> length (ds_nv d) = length (ds_x d)) -> i < length (ds_x d) -> j < length (ds_x d) ->
  (nz = @Default P H -> y = []) ->
  noise_entry p0 nz defnoise (DS (ds_x d ++ x) (ds_y d ++ y) (ds_nv d ++ nv) (ds_h d)) i j = noise_entry p0 nz defnoise d i j.
Proof.
  intros L Hi Hj D. unfold noise_entry. destruct nz; cbn [ds_x ds_y ds_nv ds_h].
  - specialize (L eq_refl). now rewrite app_nth1 by lia.
  - now rewrite D, app_nil_r by reflexivity.
  - now rewrite app_nth1 by lia.
  - now rewrite !app_nth1 by lia.
Qed.
End Entry.
