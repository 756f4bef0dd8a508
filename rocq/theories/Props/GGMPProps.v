(** C50, C56, C89: the containers and the call order of the GGMP. *)
From Verif Require Import Model.Prelude Model.GGMP Spec.GGMPSpec Proofs.GGMPP.

Section C50.
Context {A B : Type}.
(** C50: hyperparameters of the shape given at construction become the weights followed by the sets, and splitting gives them back *)
Theorem hps_round_trip : forall (w0 : list A) (wb0 : list B) h0 hb0 o, hps_init w0 wb0 h0 hb0 = Ok o ->
  forall w h, same_shape w h w0 h0 -> vectorize_hps o w h = Ok (flat w h) /\ devectorize_hps o (flat w h) = (w, h).
Proof.
intros w0 wb0 h0 hb0 o E w h [L1 L2]. destruct (init_inv _ _ _ _ _ E) as [_ [N1 [N2 _]]].
unfold vectorize_hps, devectorize_hps. rewrite N1, N2. split; [apply vectorize_ok; assumption|apply devectorize_flat; assumption].
Qed.
(** C50: and every vector of the right length is what its parts are flattened to *)
Theorem vector_round_trip : forall (w0 : list A) (wb0 : list B) h0 hb0 o, hps_init w0 wb0 h0 hb0 = Ok o ->
  forall v w h, length v = length (flat w0 h0) -> devectorize_hps o v = (w, h) -> same_shape w h w0 h0 /\ vectorize_hps o w h = Ok v.
Proof.
intros w0 wb0 h0 hb0 o E v w h L D. destruct (init_inv _ _ _ _ _ E) as [_ [N1 [N2 _]]]. unfold vectorize_hps, devectorize_hps in *. rewrite N1, N2 in *.
assert (LS : length (concat h0) = list_sum (map (@length A) h0)). { clear. induction h0 as [|x l IH]; [reflexivity|]. change (length (x ++ concat l) = length x + list_sum (map (@length A) l)). rewrite app_length, IH. reflexivity. }
unfold flat in L. rewrite app_length, LS in L. destruct (devectorize_shape _ _ v w h L D) as [S1 [S2 S3]]. split; [split; assumption|]. rewrite (vectorize_ok _ _ w h S1 S2), S3. reflexivity.
Qed.
(** C50: the same for bounds *)
Theorem bounds_round_trip : forall (w0 : list A) (wb0 : list B) h0 hb0 o, hps_init w0 wb0 h0 hb0 = Ok o ->
  forall wb hb, same_shape wb hb w0 h0 -> vectorize_bounds o wb hb = Ok (flat wb hb) /\ devectorize_bounds o (flat wb hb) = (wb, hb).
Proof.
intros w0 wb0 h0 hb0 o E w h [L1 L2]. destruct (init_inv _ _ _ _ _ E) as [_ [N1 [N2 _]]].
unfold vectorize_bounds, devectorize_bounds. rewrite N1, N2. split; [apply vectorize_ok; assumption|apply devectorize_flat; assumption].
Qed.
(** C89, the part that holds: as long as only hyperparameters of the shape given at construction are set, the stored vector is the flattened stored
    hyperparameters, which are the last ones set.  Missing: sets of other shapes, which are accepted or leave a mixed state. *)
Theorem stored_vector_partial : forall (w0 : list A) (wb0 : list B) h0 hb0 o, hps_init w0 wb0 h0 hb0 = Ok o ->
  forall l, Forall (fun x => same_shape (fst x) (snd x) w0 h0) l ->
  let o' := hps_sets o l in (h_weights o', h_hps o') = last l (w0, h0) /\ h_vec o' = flat (h_weights o') (h_hps o') /\ devectorize_hps o' (h_vec o') = (h_weights o', h_hps o').
Proof.
intros w0 wb0 h0 hb0 o E l F. destruct (init_inv _ _ _ _ _ E) as [I [N1 [N2 [W [H V]]]]].
destruct (sets_shape l o I) as [H1 [H2 [H3 [H4 [H5 H6]]]]]; [rewrite W; auto|rewrite H; auto|rewrite W, H; exact V| |].
{ eapply Forall_impl; [|exact F]. intros x [L1 L2]. rewrite N1, N2. auto. }
cbn zeta. rewrite W, H in H6. split; [exact H6|]. split; [exact H3|]. rewrite H3. unfold devectorize_hps. rewrite H1, H2. apply devectorize_flat; assumption.
Qed.
(** C50: the likelihood container *)
Theorem moments_round_trip : forall (m v : list A) w, length m = length v -> let l := nl_init m v w in nl_ravel l (nl_unravel l) = (m, v) /\
  forall m' v', length m' = length m -> nl_ravel l (nl_unravel (nl_set_moments l m' v')) = (m', v') /\
    forall w', let l' := nl_set_moments (nl_set_weight l w') m' v' in n_weight l' = w' /\ nl_ravel l' (nl_unravel l') = (m', v') /\ nl_set_weight (nl_set_moments l m' v') w' = l'.
Proof.
intros m v w L. cbn. assert (R : forall m' v' : list A, length m' = length m -> nl_ravel (nl_init m v w) (m' ++ v') = (m', v')).
{ intros m' v' L'. unfold nl_ravel. cbn. rewrite <- L', firstn_app, Nat.sub_diag, firstn_all, skipn_app, Nat.sub_diag, skipn_all. cbn. rewrite app_nil_r. reflexivity. }
split; [apply R; reflexivity|]. intros m' v' L'. split; [apply R; assumption|]. intros w'. split; [reflexivity|]. split; [exact (R m' v' L')|reflexivity].
Qed.
End C50.
Print Assumptions hps_round_trip.
Print Assumptions vector_round_trip.
Print Assumptions bounds_round_trip.
Print Assumptions stored_vector_partial.
Print Assumptions moments_round_trip.

Definition o_ex := hps_init [1; 2] [10; 20] [[3; 4]; []; [5]] [[30; 40]; []; [50]].
Example ex_flat : match o_ex with Ok o => h_vec o = [1; 2; 3; 4; 5] /\ h_vbounds o = [10; 20; 30; 40; 50] /\ devectorize_hps o [6; 7; 8; 9; 0] = ([6; 7], [[8; 9]; []; [0]]) | _ => False end.
Proof. repeat split. Qed.
Example ex_lengths : hps_init [1; 2] [10] [[3]] [[30]] = Err HWeights /\ hps_init [1; 2] [10; 20] [[3]] ([] : list (list nat)) = Err HSets /\ hps_init [1] [10] [[3; 4]] [[30]] = Err HIndex.
Proof. repeat split. Qed.

(** C89 fails: a set with a longer component is accepted and its last entry is left out of the vector *)
Theorem set_longer_refuted : ~ (forall (o : hpo nat nat) w h, hps_init [1] [10] [[3; 4]; [5]] [[30; 40]; [50]] = Ok o -> snd (hps_set o w h) = Ok tt ->
  let o' := fst (hps_set o w h) in h_vec o' = flat (h_weights o') (h_hps o')).
Proof. intros H. specialize (H _ [1] [[3; 4; 9]; [5]] eq_refl eq_refl). discriminate H. Qed.
(** C89 fails: a set with a shorter component raises, but the hyperparameters are changed and the vector is not *)
Theorem set_shorter_refuted : ~ (forall (o : hpo nat nat) w h, hps_init [1] [10] [[3; 4]; [5]] [[30; 40]; [50]] = Ok o -> snd (hps_set o w h) <> Ok tt -> fst (hps_set o w h) = o).
Proof. intros H. specialize (H _ [7] [[3]; [5]] eq_refl). cbn in H. discriminate H. discriminate. Qed.
(** C89 fails for bounds: longer bounds are accepted by the constructor and cut *)
Theorem longer_bounds_refuted : ~ (forall (w : list nat) (wb : list nat) h hb o, hps_init w wb h hb = Ok o -> h_vbounds o = flat wb hb).
Proof. intros H. specialize (H [1] [10] [[3]] [[30; 40]] _ eq_refl). discriminate H. Qed.
Print Assumptions set_longer_refuted.

(** C56, the part that holds: with at least one component, in any sequence of calls, every call made before the calls it requires have returned raises a
    TypeError, and no other call raises a TypeError or the ValueError of a guard.  Missing: the documented ValueError. *)
Theorem call_order_partial : forall K cs g l, 0 < K -> gcalls (gnew K) cs = (g, l) ->
  forall l1 c r l2, l = l1 ++ (c, r) :: l2 -> (ready c l1 -> r <> Err GValue /\ r <> Err GType) /\ (~ ready c l1 -> r = Err GType).
Proof.
intros K cs g l P R l1 c r l2 E. apply (calls_order cs (gnew K) [] g l P) with (l2 := l2) (l1 := l1); [|exact R|exact E].
split; [left; reflexivity|]. split; [left; reflexivity|]. split; (split; [discriminate|intros [d [[] _]]]).
Qed.
(** C56: a call made too early changes nothing *)
Theorem early_call_no_effect : forall K cs g l, 0 < K -> gcalls (gnew K) cs = (g, l) -> forall c, ~ ready c l -> fst (gstep g c) = g.
Proof.
intros K cs g l P R c N.
assert (G : forall cs g0 l0 g l, 0 < g_terms g0 -> ginv g0 l0 -> gcalls g0 cs = (g, l) -> 0 < g_terms g /\ ginv g (l0 ++ l)).
{ clear. induction cs as [|c cs IH]; intros g0 l0 g l P I R; cbn in R; [injection R as <- <-; rewrite app_nil_r; auto|].
  destruct (gstep g0 c) as [g1 x] eqn:S. destruct (gcalls g1 cs) as [g2 l3] eqn:R2. injection R as <- <-. pose proof (step_inv g0 l0 c P I) as [I1 T1]. rewrite S in *. cbn [fst snd] in *.
  destruct (IH g1 (l0 ++ [(c, x)]) g2 l3) as [H1 H2]; [lia|exact I1|exact R2|]. rewrite <- app_assoc in H2. auto. }
destruct (G cs (gnew K) [] g l) as [P' I']; [exact P| |exact R|exact (proj1 (proj2 (step_ready g l c P' I') N))].
split; [left; reflexivity|]. split; [left; reflexivity|]. split; (split; [discriminate|intros [d [[] _]]]).
Qed.
(** C56 fails: none of the guards ever raises its ValueError, since a missing attribute reads as a function *)
Theorem guards_refuted : forall c, In c [InitGPs true; Train true; PostMean true; PostVar true; Pairwise true true] ->
  ~ ready c [] /\ snd (gstep (gnew 5) c) <> Err GValue.
Proof. intros c [<-|[<-|[<-|[<-|[<-|[]]]]]]; (split; [cbn; intros H; firstorder|cbn; discriminate]). Qed.
Print Assumptions call_order_partial.
Print Assumptions early_call_no_effect.
Print Assumptions guards_refuted.
Example ex_order : map snd (snd (gcalls (gnew 2) [Train true; InitLik true; PostMean true; InitGPs true; Train true; PostVar true; Pairwise false true]))
  = [Err GType; Ok tt; Err GType; Ok tt; Ok tt; Ok tt; Err GIndex].
Proof. reflexivity. Qed.
(** without components initGPs succeeds although nothing was initialized *)
Example ex_no_terms : snd (gstep (gnew 0) (InitGPs true)) = Ok tt.
Proof. reflexivity. Qed.
