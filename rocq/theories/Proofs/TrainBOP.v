(** Where Bayesian optimisation starts. *)
From Coq Require Import Lra.
From Verif Require Import Model.Prelude Model.Ext Model.BO Model.Training Props.BOProps Props.TrainingProps.
Local Open Scope R_scope.

Definition ext_box (bounds : list (R * R)) : box := map (fun b => (Fin (fst b), Fin (snd b))) bounds.
Lemma all_fin h bounds us x : start_point None (map Fin h) (ext_box bounds) us = Ok x -> x = map Fin (map to_r x).
Proof.
  unfold start_point, choose_init. destruct (out_of_bounds _ _) as [[|]|]; [| |discriminate].
  - destruct (uniform _ us) as [y|] eqn:EU; [|discriminate]. destruct (in_bounds y _) as [[|]|]; try discriminate. intros [= <-].
    destruct (uniform_spec _ _ _ EU) as [_ K]. clear EU. rewrite map_map. rewrite <- (map_id y) at 1. apply map_ext_in. intros v Hv. apply In_nth_error in Hv as [i Hi].
    destruct (K i v Hi) as (? & ? & _ & ->). reflexivity.
  - destruct (in_bounds _ _) as [[|]|]; try discriminate. intros [= <-]. rewrite !map_map. reflexivity.
Qed.
Lemma outside_box y bounds : not_outside (map Fin y) (ext_box bounds) <-> length y = length bounds /\ in_box bounds y.
Proof.
  unfold not_outside, ext_box, in_box. rewrite !map_length. split; intros [L H]; (split; [exact L|]).
  - intros j v Hv. destruct (nth_error bounds j) as [[lo hi]|] eqn:Eb.
    + exists lo, hi. split; [reflexivity|]. destruct (H j (Fin v) (Fin lo) (Fin hi)) as [A B].
      * now rewrite nth_error_map, Hv.
      * now rewrite nth_error_map, Eb.
      * cbn in A, B. destruct (Rlt_dec v lo); [discriminate|]. destruct (Rlt_dec hi v); [discriminate|]. lra.
    + apply nth_error_None in Eb. assert (j < length y)%nat by (apply nth_error_Some; congruence). lia.
  - intros j v lo hi Hv Hb. rewrite nth_error_map in Hv. rewrite nth_error_map in Hb.
    destruct (nth_error y j) as [w|] eqn:Ew; [|discriminate]. injection Hv as <-.
    destruct (H j w Ew) as (lo' & hi' & Eb & B). rewrite Eb in Hb. cbn in Hb. injection Hb as <- <-.
    cbn. destruct (Rlt_dec _ _); [exfalso; lra|]. destruct (Rlt_dec _ _); [exfalso; lra|]. auto.
Qed.
Lemma start_box h bounds us x : start_point None (map Fin h) (ext_box bounds) us = Ok x ->
  length (map to_r x) = length bounds /\ in_box bounds (map to_r x) /\ (length h = length bounds -> in_box bounds h -> map to_r x = h).
Proof.
  intros E. destruct (start_in_bounds None (map Fin h) (ext_box bounds) us) as (A & _ & C). pose proof (A x E) as O. rewrite (all_fin _ _ _ _ E) in O.
  apply outside_box in O. destruct O as [L B]. split; [exact L|]. split; [exact B|]. intros L' B'.
  rewrite C in E by (now apply outside_box). injection E as <-. rewrite map_map. apply map_id.
Qed.
(** inside the bounds, or else with draws from the unit interval, there is a starting point *)
Lemma start_total h bounds us : length h = length bounds -> (forall j lo hi, nth_error bounds j = Some (lo, hi) -> lo <= hi) -> (forall i, 0 <= us i <= 1) ->
  exists x, start_point None (map Fin h) (ext_box bounds) us = Ok x.
Proof.
  intros L Hb Hu. destruct (start_in_bounds None (map Fin h) (ext_box bounds) us) as (_ & B & _).
  assert (Lw : length (map Fin h) = length (ext_box bounds)) by (unfold ext_box; now rewrite !map_length).
  assert (EB : forall i lo hi, nth_error (ext_box bounds) i = Some (Fin lo, Fin hi) -> lo <= hi).
  { intros i lo hi. unfold ext_box. rewrite nth_error_map. destruct (nth_error bounds i) as [[a b]|] eqn:Eb; [|discriminate]. intros [= <- <-]. eapply Hb; eassumption. }
  assert (CI : exists x, choose_init None (map Fin h) (ext_box bounds) us = Ok x).
  { unfold choose_init. destruct (out_of_bounds (map Fin h) (ext_box bounds)) as [[|]|] eqn:Eo; [| eauto |].
    - assert (U : forall bs vs, exists y, uniform (ext_box bs) vs = Some y).
      { clear. induction bs as [|[a b] bs IH]; intros vs; cbn; [eauto|]. destruct (IH (fun i => vs (S i))) as [y Ey]. unfold ext_box in Ey. rewrite Ey. eauto. }
      destruct (U bounds us) as [y ->]. eauto.
    - exfalso. revert Lw Eo. clear. generalize (map Fin h), (ext_box bounds). intros l. induction l as [|v l IH]; intros [|[lo hi] b]; cbn; try discriminate.
      intros [= L]. destruct (eltb v lo || eltb hi v); [discriminate|]. now apply IH. }
  destruct CI as [x Ex]. exists x. unfold start_point. rewrite Ex. pose proof (B x Ex Lw Hu EB) as O. apply in_bounds_spec in O. now rewrite O.
Qed.
