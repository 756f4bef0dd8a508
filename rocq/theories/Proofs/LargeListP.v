(** The covariance held by the cluster as an array, and the derived state computed from it. *)
From Coq Require Import Reals List Arith ZArith Lia.
From Verif Require Import Model.Prelude Model.GPState Model.Gp2Scale Model.LifeCycle Model.LargeGP.
From Verif Require Import Spec.GPStateSpec Spec.Gp2ScaleSpec Spec.LifeCycleSpec Spec.LargeGPSpec Proofs.GPStateP Proofs.Gp2ScaleP Proofs.Gp2ScaleHistP.
Import ListNotations.
Local Open Scope nat_scope.

Lemma at_entry_get m i j : at_entry m i j = get R0 Rplus (ents m) i j.
Proof. unfold at_entry, get. induction (map _ _) as [|a l IH]; cbn; [reflexivity|]. now rewrite IH. Qed.

Lemma nth_map_seq (B : Type) (f : nat -> B) n i d : i < n -> nth i (map f (seq 0 n)) d = f i.
Proof.
  intros Hi. rewrite (nth_indep _ d (f 0)) by (rewrite map_length, seq_length; lia).
  now rewrite map_nth, seq_nth by lia.
Qed.
Lemma toarray_rect m : rect (nr m) (nc m) (toarray m).
Proof.
  unfold toarray. split; [now rewrite map_length, seq_length|].
  intros r Hr. apply in_map_iff in Hr as (i & <- & _). now rewrite map_length, seq_length.
Qed.
Lemma toarray_get m i j : i < nr m -> j < nc m -> mget R0 (toarray m) i j = get R0 Rplus (ents m) i j.
Proof. intros Hi Hj. unfold GPState.mget, toarray. rewrite nth_map_seq by exact Hi. rewrite nth_map_seq by exact Hj. apply at_entry_get. Qed.

Section L.
Context {P H : Type} (k : P -> P -> H -> R).
Lemma cov_at xs ys h i j (d : P) : i < length xs -> j < length ys -> cov R0 k xs ys h i j = k (nth i xs d) (nth j ys d) h.
Proof.
  intros Hi Hj. unfold cov. rewrite (nth_error_nth' xs d Hi), (nth_error_nth' ys d Hj). reflexivity.
Qed.
Lemma toarray_kernel m xs ys h : is_matrix R0 Rplus m (length xs) (length ys) (cov R0 k xs ys h) ->
  toarray m = kernel_call k xs ys h.
Proof.
  intros (E1 & E2 & _ & E3). pose proof (toarray_rect m) as Rm. rewrite E1, E2 in Rm.
  pose proof (rect_ent (fun a b => k a b h) xs ys) as Rk.
  apply (mat_ext R0 (length xs) (length ys) _ _ Rm Rk). intros i j Hi Hj.
  rewrite toarray_get by lia. rewrite E3 by assumption.
  destruct xs as [|d xs']; [cbn in Hi; lia|]. rewrite (cov_at _ _ _ _ _ d) by assumption.
  unfold kernel_call. now rewrite (mget_ent R0 (fun a b => k a b h) _ _ i j d).
Qed.

Variable kernel : list P -> list P -> H -> res cexn (@kout R).
Variables (batch : Z) (dist : distribution) (isz : R -> bool).
Variables (mu : option (P -> H -> R)) (nz : noise_choice P H) (favg defnoise : list R -> R).
Hypothesis Hz : forall v, isz v = true <-> v = R0.
Hypothesis Hk : kernel_is R0 Rplus kernel k.
Hypothesis KS : forall a b h, k a b h = k b a h.

Notation gd := (good R0 Rplus k).
Notation ginv := (Inv (kernel_call k) (mean_call mu) favg defnoise (noise_call nz)).
Notation gstep1 := (g_step k mu nz favg defnoise).

Lemma ok_tt (r : res cexn unit) u : r = Ok u -> r = Ok tt. Proof. now destruct u. Qed.

Lemma start_same c x h p y nv : lossy c -> (Z.of_nat (length x) < 2 ^ 63)%Z ->
  pinit isz kernel batch dist c x h = (p, Ok tt) ->
  gd p x h /\
  derived nz favg defnoise false p y nv (mean_of (mean_call mu) favg x y h) [] = g_build k mu nz favg defnoise x y nv h.
Proof.
  intros Hl B E.
  assert (G : gd p x h) by exact (init_good R0 Rplus isz kernel Rplus_comm (fun a b c => eq_sym (Rplus_assoc a b c)) Rplus_0_l Hz k Hk KS batch dist c x h p Hl B E).
  split; [exact G|]. destruct G as (G1 & G2 & _ & G4). unfold derived. rewrite G1, G2, (toarray_kernel _ _ _ _ G4). reflexivity.
Qed.

Lemma next_same p s o p' : gd p (xd s) (hp s) -> ginv s -> few (xd s) [prior_op o] -> on_cluster (prior_op o) ->
  pstep isz kernel batch dist p (prior_op o) = (p', Ok tt) ->
  g_after mu nz favg defnoise s p' o = gstep1 s (request o) /\
  (forall s', gstep1 s (request o) = Some s' -> gd p' (xd s') (hp s')).
Proof.
  intros G (I1 & I2 & I3) Hf Hc E.
  assert (G' : gd p' (supplied (xd s) [prior_op o]) (chosen (hp s) [prior_op o])).
  { exact (step_good R0 Rplus isz kernel Rplus_comm (fun a b c => eq_sym (Rplus_assoc a b c)) Rplus_0_l Hz k Hk KS batch dist p (xd s) (hp s) (prior_op o) p' G Hf Hc E). }
  pose proof G' as (G1 & G2 & _ & G4).
  destruct o as [r x y nv cB cD|x y nv c|h c]; cbn [prior_op supplied chosen request] in *.
  - split.
    + unfold g_after, derived, g_step, gstep, gp_append. rewrite G1, G2, (toarray_kernel _ _ _ _ G4), I2.
      unfold kernel_call. rewrite (ent_block R0 (fun a b => k a b (hp s)) (xd s) x (fun a b => KS a b (hp s))). reflexivity.
    + intros s' Es. unfold g_step, gstep, gp_append in Es. apply refresh_some in Es as (E1 & _ & _ & E4 & _). cbn in E1, E4. rewrite E1, E4. exact G'.
  - split.
    + unfold g_after, derived, g_step, gstep, gp_overwrite. now rewrite G1, G2, (toarray_kernel _ _ _ _ G4).
    + intros s' Es. unfold g_step, gstep, gp_overwrite in Es. apply refresh_some in Es as (E1 & _ & _ & E4 & _). cbn in E1, E4. rewrite E1, E4. exact G'.
  - split.
    + unfold g_after, derived, g_step, gstep, gp_set_hps. now rewrite G1, G2, (toarray_kernel _ _ _ _ G4).
    + intros s' Es. unfold g_step, gstep, gp_set_hps in Es. apply refresh_some in Es as (E1 & _ & _ & E4 & _). cbn in E1, E4. rewrite E1, E4. exact G'.
Qed.

(** the cross covariance of a prediction *)
Lemma cross_array p x h c next xp n ev K : gd p x h -> lossy c -> (Z.of_nat (length x) < 2 ^ 63)%Z -> (Z.of_nat (length xp) < 2 ^ 63)%Z ->
  gp2scale_cov isz kernel batch dist c next x xp h false (Some (pfut p)) None = (n, (ev, Ok K)) -> toarray K = kernel_call k x xp h.
Proof.
  intros (_ & _ & G3 & _) Hl B1 B2 E. apply toarray_kernel.
  refine (gp2scale_cov_sound R0 Rplus isz kernel Rplus_comm (fun a b c => eq_sym (Rplus_assoc a b c)) Rplus_0_l Hz k Hk
    c batch dist next x xp h false (Some (pfut p)) None n ev K Hl B1 B2 _ _ _ E); [discriminate| |discriminate].
  intros f [= <-]. exact G3.
Qed.
Lemma own_array xp h o : kernel xp xp h = Ok o -> forall i j d, i < length xp -> j < length xp ->
  mget R0 (match o with KDense _ rows => rows | KSparse m => toarray m end) i j = k (nth i xp d) (nth j xp d) h.
Proof.
  intros E i j d Hi Hj. pose proof (Hk _ _ _ _ E) as Ko. destruct o as [c rows|m].
  - destruct Ko as (_ & _ & _ & Ko). unfold GPState.mget. rewrite Ko by assumption. now apply cov_at.
  - rewrite (toarray_kernel _ _ _ _ Ko). unfold kernel_call. now rewrite (mget_ent R0 (fun a b => k a b h) xp xp i j d).
Qed.

(** ** success *)
Lemma faithful_lossy (c : @cluster_t R) : faithful c -> lossy c.
Proof. intros Hf l. exists l. split; [apply Hf|]. induction l; constructor; auto. Qed.

Hypothesis Kt : forall xs ys h, exists o, kernel xs ys h = Ok o.
Lemma cov_total c next x1 x2 h sym f1 f2 : faithful c -> (Z.of_nat (length x1) < 2 ^ 63)%Z -> (Z.of_nat (length x2) < 2 ^ 63)%Z ->
  (sym = true -> x1 = x2) -> (forall f, f1 = Some f -> fdata f = x1) -> (forall f, f2 = Some f -> fdata f = x2) ->
  exists n ev K, gp2scale_cov isz kernel batch dist c next x1 x2 h sym f1 f2 = (n, (ev, Ok K)).
Proof.
  intros Hf B1 B2 Hs F1 F2. unfold gp2scale_cov. destruct (should_distribute _ _ _ _) eqn:Ed; cbn [negb].
  2:{ destruct (Kt x1 x2 h) as [o ->]. cbn. eauto. }
  unfold should_distribute in Ed. apply Nat.ltb_lt in Ed.
  assert (D : forall same ev, (sym = true -> same = true) -> exists ev' K,
    (let '(e, r) := distributed_covariance isz kernel c h x1 (length x1) x2 (length x2) same batch sym dist in (ev e, r)) = (ev' : list event, Ok K)).
  { intros same ev Hsame.
    destruct (distributed_total R0 Rplus isz kernel Rplus_comm (fun a b c => eq_sym (Rplus_assoc a b c)) Rplus_0_l Hz k Hk c x1 x2 (length x1) (length x2) h batch sym dist) as (e & K & E); auto.
    - destruct (length x1); cbn in Ed; lia.
    - destruct (length x2); [rewrite Nat.mul_0_r in Ed|]; lia.
    - assert (Es : distributed_covariance isz kernel c h x1 (length x1) x2 (length x2) same batch sym dist = (e, Ok K)).
      { destruct sym; [rewrite (Hsame eq_refl); exact E|]. exact E. }
      rewrite Es. eauto. }
  destruct f1 as [u1|].
  - pose proof (F1 u1 eq_refl) as U1. destruct sym.
    + rewrite <- (Hs eq_refl) in *. rewrite Nat.eqb_refl. cbn [negb andb]. rewrite U1, Nat.eqb_refl.
      destruct (D true (fun e => ([] ++ [] ++ e ++ [] ++ [])) (fun e => e)) as (ev' & K & E).
      destruct (distributed_covariance _ _ _ _ _ _ _ _ _ _ _ _) as [e r]. injection E as _ ->. eauto.
    + cbn [andb]. destruct f2 as [u2|].
      * pose proof (F2 u2 eq_refl) as U2. rewrite U1, U2.
        destruct (D (fid u1 =? fid u2) (fun e => e) ltac:(discriminate)) as (ev' & K & E).
        destruct (distributed_covariance _ _ _ _ _ _ _ _ _ _ _ _) as [e r]. injection E as _ ->. eauto.
      * cbn [fdata fid]. rewrite U1.
        destruct (D (fid u1 =? next) (fun e => e) ltac:(discriminate)) as (ev' & K & E).
        destruct (distributed_covariance _ _ _ _ _ _ _ _ _ _ _ _) as [e r]. injection E as _ ->. eauto.
  - destruct sym.
    + rewrite <- (Hs eq_refl) in *. rewrite Nat.eqb_refl. cbn [negb andb fdata fid]. rewrite Nat.eqb_refl.
      destruct (D true (fun e => e) (fun e => e)) as (ev' & K & E).
      destruct (distributed_covariance _ _ _ _ _ _ _ _ _ _ _ _) as [e r]. injection E as _ ->. eauto.
    + cbn [andb]. destruct f2 as [u2|].
      * pose proof (F2 u2 eq_refl) as U2. cbn [fdata fid]. rewrite U2.
        destruct (D (next =? fid u2) (fun e => e) ltac:(discriminate)) as (ev' & K & E).
        destruct (distributed_covariance _ _ _ _ _ _ _ _ _ _ _ _) as [e r]. injection E as _ ->. eauto.
      * cbn [fdata fid].
        destruct (D (next =? S next) (fun e => e) ltac:(discriminate)) as (ev' & K & E).
        destruct (distributed_covariance _ _ _ _ _ _ _ _ _ _ _ _) as [e r]. injection E as _ ->. eauto.
Qed.

Lemma prior_total c next x h f : faithful c -> (Z.of_nat (length x) < 2 ^ 63)%Z -> fdata f = x ->
  exists n ev K, prior_cov_matrix isz kernel batch dist c next x h x f = (n, (ev, Ok K)).
Proof.
  intros Hf B F. unfold prior_cov_matrix. rewrite Nat.eqb_refl. apply cov_total; auto; [|discriminate]. intros g [= <-]. exact F.
Qed.
Lemma init_total c x h : faithful c -> (Z.of_nat (length x) < 2 ^ 63)%Z -> exists p, pinit isz kernel batch dist c x h = (p, Ok tt).
Proof.
  intros Hf B. unfold pinit. destruct (prior_total c 1 x h (Fut 0 x) Hf B eq_refl) as (n & ev & K & ->). eauto.
Qed.
Lemma pstep_total p x h o : gd p x h -> few x [prior_op o] -> good_cluster o ->
  exists p', pstep isz kernel batch dist p (prior_op o) = (p', Ok tt).
Proof.
  unfold few. intros (G1 & G2 & G3 & G4) Hf Hc. destruct o as [r xn y nv cB cD|xn y nv c|hn c]; cbn in Hf, Hc |- *.
  - unfold pappend. rewrite G1, G2. cbn [px ph pcov pfut pnext plog fid].
    destruct Hc as [HB HD].
    destruct (cov_total cB (S (pnext p)) x xn h false (Some (pfut p)) (Some (Fut (pnext p) xn))) as (n1 & ev1 & B & EB); auto; try lia; try discriminate.
    { intros f [= <-]. exact G3. } { intros f [= <-]. reflexivity. }
    rewrite EB.
    destruct (cov_total cD n1 xn xn h true (Some (Fut (pnext p) xn)) None) as (n2 & ev2 & D & ED); auto; try lia; try discriminate.
    { intros f [= <-]. reflexivity. }
    rewrite ED.
    eapply (gp2scale_cov_sound R0 Rplus isz kernel Rplus_comm (fun a b c => eq_sym (Rplus_assoc a b c)) Rplus_0_l Hz k Hk) in EB; try (apply faithful_lossy; assumption); try lia; try discriminate.
    2:{ intros g [= <-]. exact G3. } 2:{ intros g [= <-]. reflexivity. }
    eapply (gp2scale_cov_sound R0 Rplus isz kernel Rplus_comm (fun a b c => eq_sym (Rplus_assoc a b c)) Rplus_0_l Hz k Hk) in ED; try (apply faithful_lossy; assumption); try lia; try discriminate; auto.
    2:{ intros g [= <-]. reflexivity. }
    destruct (augmented_ok R0 Rplus Rplus_comm (fun a b c => eq_sym (Rplus_assoc a b c)) Rplus_0_l k (pcov p) B D x xn h G4 EB ED (fun a b => KS a b h)) as (M & EM & _).
    rewrite EM. eauto.
  - unfold poverwrite. destruct (prior_total c (S (pnext p)) xn (ph p) (Fut (pnext p) xn) Hc ltac:(lia) eq_refl) as (n & ev & K & ->). eauto.
  - unfold psethps. rewrite G1. destruct (prior_total c (pnext p) x hn (pfut p) Hc ltac:(lia) G3) as (n & ev & K & ->). eauto.
Qed.
End L.
