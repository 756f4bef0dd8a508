From Verif Require Import Model.Prelude Model.Gp2Scale Spec.Gp2ScaleSpec Proofs.Gp2ScaleP.
Local Open Scope nat_scope.

Section Hist.
  Context {P H F : Type} (f0 : F) (fadd : F -> F -> F) (isz : F -> bool).
  Variable kernel : list P -> list P -> H -> res cexn (@kout F).
  Hypothesis Hcomm : forall a b, fadd a b = fadd b a.
  Hypothesis Hassoc : forall a b c, fadd a (fadd b c) = fadd (fadd a b) c.
  Hypothesis H0 : forall a, fadd f0 a = a.
  Hypothesis Hz : forall v, isz v = true <-> v = f0.
  Variable k : P -> P -> H -> F.
  Hypothesis Hk : kernel_is f0 fadd kernel k.
  Hypothesis Hsym : forall a b h, k a b h = k b a h.
  Variables (batch : Z) (dist : distribution).

  Definition good (s : @pstate P H F) (x : list P) (h : H) : Prop :=
    px s = x /\ ph s = h /\ fdata (pfut s) = x /\
    is_matrix f0 fadd (pcov s) (length x) (length x) (cov f0 k x x h).

  Lemma prior_sound cl next x h f n ev K : lossy cl -> (Z.of_nat (length x) < 2 ^ 63)%Z -> fdata f = x ->
    prior_cov_matrix isz kernel batch dist cl next x h x f = (n, (ev, Ok K)) ->
    is_matrix f0 fadd K (length x) (length x) (cov f0 k x x h).
  Proof.
    intros Hl B Hf E. unfold prior_cov_matrix in E. rewrite Nat.eqb_refl in E.
    eapply (gp2scale_cov_sound f0 fadd isz kernel Hcomm Hassoc H0 Hz k Hk); [exact Hl|exact B|exact B| | | |exact E]; auto.
    - intros g [= <-]. exact Hf.
    - discriminate.
  Qed.

  Lemma init_good cl x h s : lossy cl -> (Z.of_nat (length x) < 2 ^ 63)%Z ->
    pinit isz kernel batch dist cl x h = (s, Ok tt) -> good s x h.
  Proof.
    intros Hl B E. unfold pinit in E.
    destruct (prior_cov_matrix _ _ _ _ _ _ _ _ _ _) as [n [ev [K|]]] eqn:Ep; [|discriminate].
    injection E as <-. repeat split; cbn; auto. all: apply prior_sound in Ep; auto; apply Ep; auto.
  Qed.

  Lemma step_good s x h o s' : good s x h -> few x [o] -> on_cluster o ->
    pstep isz kernel batch dist s o = (s', Ok tt) -> good s' (supplied x [o]) (chosen h [o]).
  Proof.
    unfold few. intros (G1 & G2 & G3 & G4) Hf Hc E. destruct o as [xn cB cD|xn cl|hn cl]; cbn in *.
    - unfold pappend in E. rewrite G1, G2 in E. cbn [px ph pcov pfut pnext plog fid] in E.
      destruct (gp2scale_cov _ _ _ _ cB _ _ _ _ _ _ _) as [m1 [ev1 [B|]]] eqn:EB; [|discriminate].
      destruct (gp2scale_cov _ _ _ _ cD _ _ _ _ _ _ _) as [m2 [ev2 [D|]]] eqn:ED; [|discriminate].
      eapply (gp2scale_cov_sound f0 fadd isz kernel Hcomm Hassoc H0 Hz k Hk) in EB; try apply Hc; try lia; try discriminate.
      2:{ intros g [= <-]. exact G3. } 2:{ intros g [= <-]. reflexivity. }
      eapply (gp2scale_cov_sound f0 fadd isz kernel Hcomm Hassoc H0 Hz k Hk) in ED; try apply Hc; try lia; try discriminate; auto.
      2:{ intros g [= <-]. reflexivity. }
      destruct (augmented_ok f0 fadd Hcomm Hassoc H0 k (pcov s) B D x xn h G4 EB ED (fun a b => Hsym a b h)) as (M & EM & HM).
      rewrite EM in E. injection E as <-. split; [reflexivity|]. split; [reflexivity|]. split; [reflexivity|exact HM].
    - unfold poverwrite in E. rewrite G2 in E.
      destruct (prior_cov_matrix _ _ _ _ _ _ _ _ _ _) as [n [ev [K|]]] eqn:Ep; [|discriminate].
      injection E as <-. split; [reflexivity|]. split; [reflexivity|]. split; [reflexivity|].
      eapply prior_sound; [exact Hc|lia| |exact Ep]. reflexivity.
    - unfold psethps in E. rewrite G1 in E.
      destruct (prior_cov_matrix _ _ _ _ _ _ _ _ _ _) as [n [ev [K|]]] eqn:Ep; [|discriminate].
      injection E as <-. split; [reflexivity|]. split; [reflexivity|]. split; [exact G3|].
      eapply prior_sound; [exact Hc|lia| |exact Ep]. exact G3.
  Qed.

  Lemma steps_good os : forall s x h s' rs, good s x h -> few x os -> (forall o, In o os -> on_cluster o) ->
    psteps isz kernel batch dist s os = (s', rs) -> accepted rs -> good s' (supplied x os) (chosen h os).
  Proof.
    induction os as [|o os IH]; intros s x h s' rs G Hf Hc E Ha.
    - cbn in E. injection E as <- <-. exact G.
    - cbn [psteps] in E. destruct (pstep isz kernel batch dist s o) as [s1 r1] eqn:E1.
      destruct (psteps isz kernel batch dist s1 os) as [s2 rs2] eqn:E2. injection E as <- <-.
      rewrite (Ha r1 (or_introl eq_refl)) in E1. unfold few in *. cbn [map list_sum fold_right] in Hf. fold (list_sum (map points os)) in Hf.
      assert (G1 : good s1 (supplied x [o]) (chosen h [o])).
      { apply (step_good s x h o s1 G); auto; [unfold few; cbn; lia|apply Hc; now left]. }
      assert (Hsz : length (supplied x [o]) <= length x + points o).
      { destruct o; cbn; rewrite ?app_length; lia. }
      specialize (IH s1 _ _ s2 rs2 G1). assert (Z.of_nat (length (supplied x [o]) + list_sum (map points os)) < 2 ^ 63)%Z by lia.
      specialize (IH H1 (fun q Hq => Hc q (or_intror Hq)) E2 (fun r Hr => Ha r (or_intror Hr))).
      destruct o; exact IH.
  Qed.

  (** an accepted overwrite puts any state in order *)
  Lemma overwrite_good s xn cl s' : lossy cl -> (Z.of_nat (length xn) < 2 ^ 63)%Z ->
    poverwrite isz kernel batch dist s xn cl = (s', Ok tt) -> good s' xn (ph s).
  Proof.
    intros Hl B E. unfold poverwrite in E.
    destruct (prior_cov_matrix _ _ _ _ _ _ _ _ _ _) as [n [ev [K|]]] eqn:Ep; [|discriminate].
    injection E as <-. split; [reflexivity|]. split; [reflexivity|]. split; [reflexivity|].
    eapply prior_sound; [exact Hl|exact B| |exact Ep]. reflexivity.
  Qed.

  Lemma psteps_app os1 os2 s : psteps isz kernel batch dist s (os1 ++ os2) =
    let '(s1, r1) := psteps isz kernel batch dist s os1 in
    let '(s2, r2) := psteps isz kernel batch dist s1 os2 in (s2, r1 ++ r2).
  Proof.
    revert s. induction os1 as [|o os1 IH]; intros s; cbn [app psteps].
    - now destruct (psteps _ _ _ _ s os2).
    - destruct (pstep _ _ _ _ s o) as [s1 r1]. rewrite IH. destruct (psteps _ _ _ _ s1 os1) as [s2 r2].
      now destruct (psteps _ _ _ _ s2 os2).
  Qed.
End Hist.

(** * budget *)
Lemma clamp_pos b : 1 <= clamp1 b. Proof. unfold clamp1. lia. Qed.
Lemma clamp_nat w : 1 <= w -> clamp1 (Z.of_nat w) = w. Proof. unfold clamp1. lia. Qed.

Lemma strip_bound l s b : strip_width l s b * l <= Nat.max b l.
Proof.
  unfold strip_width. destruct (Nat.eq_dec l 0) as [->|Hl]; [lia|].
  rewrite (Nat.max_l l 1) by lia. pose proof (Nat.mul_div_le b l Hl).
  destruct (Nat.le_gt_cases 1 (Nat.min s (b / l))).
  - rewrite Nat.max_r by lia. assert (Nat.min s (b / l) * l <= b / l * l) by (apply Nat.mul_le_mono_r; lia). lia.
  - rewrite Nat.max_l by lia. lia.
Qed.

Lemma plan_budget n1 n2 batch sym d t : In t (snd (plan n1 n2 batch sym d)) -> (sym = true -> n1 = n2) ->
  task_entries n1 n2 t <= if sym then task_budget n1 batch d else Nat.max (task_budget n1 batch d) (Nat.max n1 n2).
Proof.
  intros Hin Hn. unfold plan in Hin.
  assert (Hr : forall n b r, In r (ranges n b) -> fst r < snd r /\ snd r - fst r <= clamp1 b).
  { intros n b r Hr. split; [|exact (proj2 (ranges_chain n b) r Hr)].
    pose proof (proj2 (chain_bounds _ _ _ (proj1 (ranges_chain n b))) r Hr). lia. }
  destruct sym.
  - rewrite <- (Hn eq_refl) in *. destruct d; cbn [snd] in Hin; apply in_map_iff in Hin as (p & <- & Hp); unfold task_entries, task_budget.
    + apply filter_In in Hp as [Hp _]. destruct p as [[a b] [c e]]. apply in_prod_iff in Hp as [I1 I2]. apply Hr in I1, I2. cbn in *. nia.
    + destruct p as [a b]. apply Hr in Hp. cbn in Hp. nia.
  - destruct (Nat.leb_spec n2 n1); cbn [snd] in Hin; apply in_map_iff in Hin as ([a b] & <- & Hp); apply Hr in Hp; cbn [fst snd] in Hp; unfold task_entries;
    rewrite clamp_nat in Hp by (unfold strip_width; lia).
    + pose proof (strip_bound n1 n2 (task_budget n1 batch d)). nia.
    + pose proof (strip_bound n2 n1 (task_budget n1 batch d)). nia.
Qed.

(** * futures *)
Lemma occ_app e a b : occ e (a ++ b) = occ e a + occ e b.
Proof. induction a as [|x a IH]; cbn [app occ]; [reflexivity|]. rewrite IH. lia. Qed.
Lemma occ_perm e a b : Permutation a b -> occ e a = occ e b.
Proof. induction 1; cbn [occ]; lia. Qed.
Lemma occ_map_other (f : nat -> event) e l : (forall i, occ e [f i] = 0) -> occ e (map f l) = 0.
Proof. intros Hf. induction l as [|x l IH]; cbn [map]; [reflexivity|]. change (occ e ([f x] ++ map f l) = 0). rewrite occ_app, Hf. exact IH. Qed.
Lemma occ_task_seq i s n : occ (EvTaskRelease i) (map EvTaskRelease (seq s n)) = if (s <=? i) && (i <? s + n) then 1 else 0.
Proof.
  revert s. induction n as [|n IH]; intros s; cbn [seq map occ].
  - destruct (Nat.leb_spec s i), (Nat.ltb_spec i (s + 0)); cbn; lia.
  - rewrite IH. destruct (Nat.eqb_spec s i), (Nat.leb_spec s i), (Nat.leb_spec (S s) i), (Nat.ltb_spec i (s + S n)), (Nat.ltb_spec i (S s + n)); cbn; lia.
Qed.
Lemma occ_submit_seq i s n : occ (EvSubmit i) (map EvSubmit (seq s n)) = if (s <=? i) && (i <? s + n) then 1 else 0.
Proof.
  revert s. induction n as [|n IH]; intros s; cbn [seq map occ].
  - destruct (Nat.leb_spec s i), (Nat.ltb_spec i (s + 0)); cbn; lia.
  - rewrite IH. destruct (Nat.eqb_spec s i), (Nat.leb_spec s i), (Nat.leb_spec (S s) i), (Nat.ltb_spec i (s + S n)), (Nat.ltb_spec i (S s + n)); cbn; lia.
Qed.

Section Fut.
  Context {P H F : Type} (isz : F -> bool).
  Variable kernel : list P -> list P -> H -> res cexn (@kout F).
  Variables (batch : Z) (dist : distribution).

  Lemma harvest_events (l : list (nat * res cexn (@wres F))) e : (forall i, e <> EvTaskRelease i) -> occ e (fst (harvest l)) = 0.
  Proof.
    intros He. induction l as [|[i [w|x]] l IH]; cbn; [reflexivity|..].
    - destruct (harvest l) as [ev out]. cbn in *. rewrite IH. destruct e; auto. now destruct (He i0).
    - destruct e; auto. now destruct (He i0).
  Qed.

  Lemma task_events cl h x1 n1 x2 n2 same sym ev K : lossy cl ->
    distributed_covariance isz kernel cl h x1 n1 x2 n2 same batch sym dist = (ev, Ok K) ->
    forall i, occ (EvSubmit i) ev = occ (EvTaskRelease i) ev /\ occ (EvTaskRelease i) ev <= 1.
  Proof.
    intros Hl E i. unfold distributed_covariance in E.
    destruct (sym && negb (n1 =? n2)); [discriminate|]. destruct (sym && negb same); [discriminate|].
    destruct (plan n1 n2 batch sym dist) as [strat tasks].
    destruct (harvest _) as [ev' out] eqn:Eh. injection E as <- Eo. destruct out as [ws|]; [|discriminate].
    pose proof (harvest_events (cl (combine (seq 0 (length tasks)) (map (run_task isz kernel x1 x2 h n1 n2 sym (index_dtype_for n1 n2)) tasks))) (EvSubmit i) ltac:(discriminate)) as Hs.
    rewrite Eh in Hs. cbn [fst] in Hs.
    apply (lossy_ok cl) in Eh as (rs & _ & _ & Hp); [|exact Hl]. rewrite combine_seq_fst in Hp.
    rewrite !occ_app, Hs, occ_submit_seq. rewrite (occ_map_other EvSubmit (EvTaskRelease i)) by reflexivity.
    rewrite (occ_perm _ _ _ Hp), occ_task_seq. destruct ((0 <=? i) && (i <? 0 + length tasks)); lia.
  Qed.

  Lemma distributed_no_scatter cl h x1 n1 x2 n2 same sym i :
    occ (EvScatter i) (fst (distributed_covariance isz kernel cl h x1 n1 x2 n2 same batch sym dist)) = 0 /\
    occ (EvRelease i) (fst (distributed_covariance isz kernel cl h x1 n1 x2 n2 same batch sym dist)) = 0.
  Proof.
    unfold distributed_covariance. destruct (sym && negb (n1 =? n2)); [now split|]. destruct (sym && negb same); [now split|].
    destruct (plan n1 n2 batch sym dist) as [strat tasks].
    match goal with |- context [harvest ?l] => pose proof (harvest_events l (EvScatter i) ltac:(discriminate)); pose proof (harvest_events l (EvRelease i) ltac:(discriminate)); destruct (harvest l) as [ev' out] end.
    cbn [fst] in *. rewrite !occ_app, !occ_map_other by reflexivity. lia.
  Qed.

  (** every scatter a covariance call makes it releases, whether or not it raises; futures handed in
      are not released *)
  Lemma scatter_events cl next x1 x2 h sym f1 f2 i :
    (sym = true -> length x1 = length x2) ->
    occ (EvScatter i) (fst (snd (gp2scale_cov isz kernel batch dist cl next x1 x2 h sym f1 f2))) =
    occ (EvRelease i) (fst (snd (gp2scale_cov isz kernel batch dist cl next x1 x2 h sym f1 f2))) /\
    occ (EvRelease i) (fst (snd (gp2scale_cov isz kernel batch dist cl next x1 x2 h sym f1 f2))) <=
      (if (next <=? i) && (i <? fst (gp2scale_cov isz kernel batch dist cl next x1 x2 h sym f1 f2)) then 1 else 0).
  Proof.
    intros Hs. unfold gp2scale_cov. destruct (negb (should_distribute _ _ _ _)).
    { cbn [fst snd occ]. lia. }
    assert (sym && negb (length x2 =? length x1) = false) as Ee.
    { destruct sym; [|reflexivity]. now rewrite (Hs eq_refl), Nat.eqb_refl. }
    destruct f1 as [[i1 d1]|]; (destruct sym; [|destruct f2 as [[i2 d2]|]]); cbn [andb] in Ee |- *; rewrite ?Ee; cbn [fid fdata];
    match goal with |- context [distributed_covariance ?a ?b ?c ?d ?e ?f ?g ?hh ?ii ?j ?kk ?l] =>
      pose proof (distributed_no_scatter c d e f g hh ii kk i) as [Q1 Q2]; destruct (distributed_covariance a b c d e f g hh ii j kk l) as [ev r] end;
    cbn [fst snd] in *; rewrite !occ_app, Q1, Q2; cbn [occ];
    repeat match goal with |- context [?a =? i] => destruct (Nat.eqb_spec a i) end;
    repeat match goal with |- context [?a <=? i] => destruct (Nat.leb_spec a i) end;
    repeat match goal with |- context [i <? ?a] => destruct (Nat.ltb_spec i a) end; cbn [andb]; lia.
  Qed.
End Fut.

Section FutAppend.
  Context {P H F : Type} (isz : F -> bool).
  Variable kernel : list P -> list P -> H -> res cexn (@kout F).
  Variables (batch : Z) (dist : distribution).

  Lemma append_events (s : @pstate P H F) xn cB cD i :
    let '(s', r) := pappend isz kernel batch dist s xn cB cD in
    exists ev, plog s' = plog s ++ ev /\
      occ (EvScatter i) ev = occ (EvRelease i) ev + (if is_ok r && (fid (pfut s') =? i) then 1 else 0).
  Proof.
    unfold pappend. cbn [px ph pcov pfut pnext plog fid].
    pose proof (scatter_events isz kernel batch dist cB (S (pnext s)) (px s) xn (ph s) false (Some (pfut s)) (Some (Fut (pnext s) xn)) i ltac:(discriminate)) as [Q1 _].
    destruct (gp2scale_cov isz kernel batch dist cB _ _ _ _ _ _ _) as [m1 [ev1 [B|]]]; cbn [fst snd] in Q1.
    - pose proof (scatter_events isz kernel batch dist cD m1 xn xn (ph s) true (Some (Fut (pnext s) xn)) None i ltac:(reflexivity)) as [Q2 _].
      destruct (gp2scale_cov isz kernel batch dist cD _ _ _ _ _ _ _) as [m2 [ev2 [D|]]]; cbn [fst snd] in Q2.
      + destruct (stack_augmented (pcov s) B D); cbn [plog pfut fid is_ok andb].
        * rewrite <- app_assoc. eexists. split; [reflexivity|]. cbn [app occ]. rewrite !occ_app. cbn [occ]. rewrite Q1, Q2.
          destruct (pnext s =? i), (m2 =? i); lia.
        * eexists. split; [reflexivity|]. cbn [app occ]. rewrite !occ_app. cbn [occ]. rewrite Q1, Q2. destruct (pnext s =? i); lia.
      + cbn [plog pfut fid is_ok andb].
        eexists. split; [reflexivity|]. cbn [app occ]. rewrite !occ_app. cbn [occ]. rewrite Q1, Q2. destruct (pnext s =? i); lia.
    - cbn [plog pfut fid is_ok andb].
      eexists. split; [reflexivity|]. cbn [app occ]. rewrite !occ_app. cbn [occ]. rewrite Q1. destruct (pnext s =? i); lia.
  Qed.
End FutAppend.
