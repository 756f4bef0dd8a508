(** Lemmas for the adaptive normal proposal and the default break condition. *)
From Coq Require Import Reals Lra.
From Verif Require Import Model.Prelude Model.Ext Model.MCMC Model.Adapt Model.AdaptRun Spec.AdaptRunSpec.
Local Open Scope R_scope.

Section Sim.
Variables (Omega : Type) (lik prior : list ext -> ext) (draw : option (nat -> nat -> R) -> Omega -> list ext -> list ext).
Notation J := (jump nargs Omega lik prior (normal_proposal Omega draw)).
Notation SW := (sweep nargs Omega lik prior (normal_proposal Omega draw)).
Notation LP := (loop nargs Omega lik prior (normal_proposal Omega draw)).

Lemma jump_sim x o p pr lk w u : same_but_rate o p -> J x o pr lk w u = J x p pr lk w u.
Proof. intros (E1 & E2 & _ & _ & _ & E6). unfold jump, normal_proposal. now rewrite E1, E2, E6. Qed.

Lemma adapt_sim i t o p jt : same_but_rate o p ->
  same_but_rate (Prop_ (p_indices o) (p_auto o) (p_jumps o ++ [jt]) (adapt_args i t (Prop_ (p_indices o) (p_auto o) (p_jumps o ++ [jt]) (p_args o))))
    (Prop_ (p_indices p) (p_auto p) (p_jumps p ++ [jt]) (adapt_args i t (Prop_ (p_indices p) (p_auto p) (p_jumps p ++ [jt]) (p_args p)))).
Proof.
  intros (E1 & E2 & E3 & E4 & E5 & E6). unfold adapt_args, same_but_rate. cbn [p_args p_indices p_auto p_jumps]. rewrite E4.
  destruct (i mod n_K (p_args p) =? 0)%nat; cbn [n_c1 n_K n_adapt_cov n_Sigma]; repeat match goal with |- _ /\ _ => split end; auto.
  unfold new_Sigma. now rewrite E1, E3, E4, E5, E6.
Qed.

Definition sim_res (a b : res mcmc_err (list ext * ext * ext * list (prop nargs))) : Prop :=
  match a, b with
  | Err e, Err e' => e = e'
  | Ok (x, p, l, os), Ok (x', p', l', os') => x = x' /\ p = p' /\ l = l' /\ Forall2 same_but_rate os os'
  | _, _ => False
  end.
Lemma sweep_sim rnd t os : forall os' i k x pr lk, Forall2 same_but_rate os os' ->
  sim_res (SW adapt_args i k rnd t x pr lk os) (SW adapt_args i k rnd t x pr lk os').
Proof.
  induction os as [|o os IH]; intros os' i k x pr lk H; inversion H as [|? p ? os1 H1 H2]; subst; cbn [sweep].
  - cbn. auto.
  - rewrite (jump_sim x o p) by exact H1. destruct (J x p pr lk (fst (rnd i k)) (snd (rnd i k))) as [[[[x1 pr1] lk1] jt]|e]; [|reflexivity].
    cbv zeta. specialize (IH os1 i (k + 1)%nat x1 pr1 lk1 H2).
    destruct (SW adapt_args i (k + 1) rnd t x1 pr1 lk1 os) as [[[[x2 pr2] lk2] os2]|e],
             (SW adapt_args i (k + 1) rnd t x1 pr1 lk1 os1) as [[[[x3 pr3] lk3] os3]|e']; cbn in IH; try contradiction; [|now subst].
    destruct IH as (-> & -> & -> & IH). cbn. repeat match goal with |- _ /\ _ => split end; auto. constructor; [|exact IH]. now apply adapt_sim.
Qed.
Lemma loop_sim rnd brk left : forall i t inf x pr lk os os', Forall2 same_but_rate os os' ->
  LP adapt_args left i rnd brk t inf x pr lk os = LP adapt_args left i rnd brk t inf x pr lk os'.
Proof.
  induction left as [|left IH]; intros i t inf x pr lk os os' H; [reflexivity|]. cbn [loop].
  pose proof (sweep_sim rnd t os os' i 0 x pr lk H) as S.
  destruct (SW adapt_args i 0 rnd t x pr lk os) as [[[[x2 pr2] lk2] os2]|e],
           (SW adapt_args i 0 rnd t x pr lk os') as [[[[x3 pr3] lk3] os3]|e']; cbn in S; try contradiction; [|now subst].
  destruct S as (-> & -> & -> & S). cbv zeta. destruct (brk _); [reflexivity|]. now apply IH.
Qed.
Lemma run_sim x0 n rnd brk os os' : Forall2 same_but_rate os os' ->
  run_mcmc nargs Omega lik prior (normal_proposal Omega draw) adapt_args x0 n rnd brk os =
  run_mcmc nargs Omega lik prior (normal_proposal Omega draw) adapt_args x0 n rnd brk os'.
Proof. intros H. unfold run_mcmc. now rewrite (loop_sim rnd brk _ _ _ _ _ _ _ os os' H). Qed.

(** with adapt_cov off the covariance of the proposals is the initial one *)
Definition fixed (o : prop nargs) := n_adapt_cov (p_args o) = false.
Definition off (o p : prop nargs) := p_indices o = p_indices p /\ p_auto o = p_auto p /\ n_Sigma (p_args o) = n_Sigma (p_args p) /\ fixed o.
Definition off_res (a b : res mcmc_err (list ext * ext * ext * list (prop nargs))) : Prop :=
  match a, b with
  | Err e, Err e' => e = e'
  | Ok (x, p, l, os), Ok (x', p', l', os') => x = x' /\ p = p' /\ l = l' /\ Forall2 off os os'
  | _, _ => False
  end.
Lemma sweep_off rnd t os : forall os' i k x pr lk, Forall2 off os os' ->
  off_res (SW adapt_args i k rnd t x pr lk os) (SW no_adapt i k rnd t x pr lk os').
Proof.
  induction os as [|o os IH]; intros os' i k x pr lk H; inversion H as [|? p ? os1 H1 H2]; subst; cbn [sweep].
  - cbn. auto.
  - destruct H1 as (E1 & E2 & E3 & E4).
    assert (EJ : J x o pr lk (fst (rnd i k)) (snd (rnd i k)) = J x p pr lk (fst (rnd i k)) (snd (rnd i k))).
    { unfold jump, normal_proposal. now rewrite E1, E2, E3. }
    rewrite EJ. destruct (J x p pr lk (fst (rnd i k)) (snd (rnd i k))) as [[[[x1 pr1] lk1] jt]|e]; [|reflexivity].
    cbv zeta. specialize (IH os1 i (k + 1)%nat x1 pr1 lk1 H2).
    destruct (SW adapt_args i (k + 1) rnd t x1 pr1 lk1 os) as [[[[x2 pr2] lk2] os2]|e],
             (SW no_adapt i (k + 1) rnd t x1 pr1 lk1 os1) as [[[[x3 pr3] lk3] os3]|e']; cbn in IH; try contradiction; [|now subst].
    destruct IH as (-> & -> & -> & IH). cbn. repeat match goal with |- _ /\ _ => split end; auto. constructor; [|exact IH].
    unfold off, no_adapt, adapt_args, fixed in *. cbn [p_args p_indices p_auto p_jumps].
    destruct (i mod n_K (p_args o) =? 0)%nat; cbn [n_adapt_cov n_Sigma]; repeat match goal with |- _ /\ _ => split end; auto.
    unfold new_Sigma. now rewrite E4.
Qed.
Lemma loop_off rnd brk left : forall i t inf x pr lk os os', Forall2 off os os' ->
  LP adapt_args left i rnd brk t inf x pr lk os = LP no_adapt left i rnd brk t inf x pr lk os'.
Proof.
  induction left as [|left IH]; intros i t inf x pr lk os os' H; [reflexivity|]. cbn [loop].
  pose proof (sweep_off rnd t os os' i 0 x pr lk H) as S.
  destruct (SW adapt_args i 0 rnd t x pr lk os) as [[[[x2 pr2] lk2] os2]|e],
           (SW no_adapt i 0 rnd t x pr lk os') as [[[[x3 pr3] lk3] os3]|e']; cbn in S; try contradiction; [|now subst].
  destruct S as (-> & -> & -> & S). cbv zeta. destruct (brk _); [reflexivity|]. now apply IH.
Qed.
Lemma run_off x0 n rnd brk os : Forall fixed os ->
  run_mcmc nargs Omega lik prior (normal_proposal Omega draw) adapt_args x0 n rnd brk os =
  run_mcmc nargs Omega lik prior (normal_proposal Omega draw) no_adapt x0 n rnd brk os.
Proof.
  intros H. unfold run_mcmc. rewrite (loop_off rnd brk _ _ _ _ _ _ _ os os); [reflexivity|].
  induction H; constructor; unfold off; auto.
Qed.
End Sim.

(** a window in which the chain did not move has covariance zero *)
Lemma all_some_repeat {A} (a : A) n : all_some (repeat (Some a) n) = Some (repeat a n).
Proof. induction n; cbn; [reflexivity|]. now rewrite IHn. Qed.
Lemma lsum_repeat {A} (f : A -> R) a n : lsum f (repeat a n) = INR n * f a.
Proof. induction n; [cbn; lra|]. rewrite S_INR. cbn [repeat]. unfold lsum in *. cbn [fold_right]. rewrite IHn. lra. Qed.
Lemma mean_repeat {A} (f : A -> R) a n : (0 < n)%nat -> mean f (repeat a n) = f a.
Proof. intros H. unfold mean. rewrite lsum_repeat, repeat_length. apply lt_0_INR in H. field. lra. Qed.
Lemma cov_repeat x n i j : (0 < n)%nat -> cov (repeat x n) i j = 0.
Proof.
  intros H. unfold cov. rewrite lsum_repeat, !(mean_repeat (fun y : nat -> R => y _)) by exact H. unfold Rdiv. ring.
Qed.
Lemma all_eq_repeat {A} (l : list A) a : (forall b, In b l -> b = a) -> l = repeat a (length l).
Proof. induction l as [|b l IH]; intros H; cbn; [reflexivity|]. rewrite (H b) by now left. f_equal. apply IH. intros c Hc. apply H. now right. Qed.
Lemma window_length {A} e K (l : list A) : (e <= length l)%nat -> (K <= e)%nat -> (0 < K)%nat -> length (window e K l) = (K - 1)%nat.
Proof. intros H1 H2 H3. unfold window. rewrite firstn_length, skipn_length. lia. Qed.
Lemma standstill a i ind xs M x :
  (3 <= n_K a)%nat -> (n_K a <= i <= length xs)%nat -> n_adapt_cov a = true -> n_Sigma a = Some M ->
  all_finite (gather x ind) -> (forall y, In y (window i (n_K a) xs) -> gather y ind = gather x ind) ->
  exists M', new_Sigma a i ind xs = Some M' /\ forall k l, M' k l = (1 - gamma2 (n_c1 a) i (n_K a)) * M k l.
Proof.
  intros HK Hi Ha HM Hx Hw. unfold new_Sigma. rewrite Ha, HM.
  assert (Hf : exists v, finite (gather x ind) = Some v).
  { clear - Hx. unfold all_finite in Hx. induction (gather x ind) as [|e g IH]; [now exists []|].
    destruct (Hx e) as [r ->]; [now left|]. destruct IH as [v Hv]; [intros; apply Hx; now right|]. exists (r :: v). cbn. now rewrite Hv. }
  destruct Hf as [v Hv]. set (c := fun k => nth k v 0).
  assert (Ew : map (coords ind) (window i (n_K a) xs) = repeat (Some c) (n_K a - 1)).
  { rewrite <- (window_length i (n_K a) xs) by lia. rewrite <- (map_length (coords ind)). apply all_eq_repeat.
    intros b Hb. apply in_map_iff in Hb as (y & <- & Hy). unfold coords. rewrite (Hw y Hy), Hv. reflexivity. }
  unfold sample_cov. rewrite Ew, all_some_repeat. destruct (n_K a - 1)%nat as [|[|m]] eqn:E; [lia|lia|]. cbn [repeat].
  change (c :: c :: repeat c m) with (repeat c (S (S m))). eexists. split; [reflexivity|]. intros k l. cbn beta.
  rewrite (cov_repeat c) by lia. ring.
Qed.

(** the break condition *)
Lemma fold_eadd_fin l : all_finite l -> fold_right eadd (Fin 0) l = Fin (fold_right (fun v s => match v with Fin r => r | _ => 0 end + s) 0 l).
Proof.
  intros H. induction l as [|v l IH]; [reflexivity|]. cbn [fold_right]. rewrite IH by (intros w Hw; apply H; now right).
  destruct (H v) as [r ->]; [now left|]. reflexivity.
Qed.
Lemma nth_skipn' {A} (l : list A) k i d : nth i (skipn k l) d = nth (k + i) l d.
Proof. revert l. induction k as [|k IH]; intros [|a l]; cbn; auto. now destruct i. Qed.
Lemma list_seq {A} (d : A) l : l = map (fun i => nth i l d) (seq 0 (length l)).
Proof.
  induction l as [|a l IH]; [reflexivity|]. cbn [length seq map nth]. f_equal. rewrite <- seq_shift, map_map. exact IH.
Qed.
Lemma fold_map_sum {A B} (f : B -> R) (g : A -> B) l : fold_right (fun v s => f v + s) 0 (map g l) = fold_right (fun i s => f (g i) + s) 0 l.
Proof. induction l; cbn; congruence. Qed.
Lemma fold_sum_ext {A} (f g : A -> R) l : (forall a, In a l -> f a = g a) -> fold_right (fun v s => f v + s) 0 l = fold_right (fun v s => g v + s) 0 l.
Proof. induction l as [|a l IH]; intros H; [reflexivity|]. cbn. rewrite (H a) by now left. f_equal. apply IH. intros b Hb. apply H. now right. Qed.
Lemma emean_average l n : length l = n -> (0 < n)%nat -> all_finite l ->
  emean l = Fin (average n (fun i => match nth i l NaN with Fin r => r | _ => 0 end)).
Proof.
  intros <- Hn Hf. unfold emean. destruct l as [|v l]; [cbn in Hn; lia|]. set (l' := v :: l) in *. rewrite (fold_eadd_fin l') by exact Hf.
  cbn [escale]. f_equal. unfold average. f_equal. rewrite (list_seq NaN l') at 1.
  exact (fold_map_sum (fun v => match v with Fin r => r | _ => 0 end) (fun i => nth i l' NaN) (seq 0 (length l'))).
Qed.
Lemma average_ext n f g : (forall i, (i < n)%nat -> f i = g i) -> average n f = average n g.
Proof. intros H. unfold average. f_equal. apply fold_sum_ext. intros i Hi. apply in_seq in Hi. apply H. lia. Qed.
Lemma in_skipn {A} k (l : list A) v : In v (skipn k l) -> In v l.
Proof. intros H. rewrite <- (firstn_skipn k l). apply in_or_app. now right. Qed.
Lemma in_firstn {A} k (l : list A) v : In v (firstn k l) -> In v l.
Proof. intros H. rewrite <- (firstn_skipn k l). apply in_or_app. now left. Qed.

Lemma emean_last k l : (0 < k)%nat -> (2 * k <= length l)%nat -> all_finite l ->
  emean (last_n k l) = Fin (average k (fun i => match nth (length l - k + i) l NaN with Fin r => r | _ => 0 end)) /\
  emean (before_last_n k l) = Fin (average k (fun i => match nth (length l - 2 * k + i) l NaN with Fin r => r | _ => 0 end)).
Proof.
  intros Hk Hl Hf. split.
  - rewrite (emean_average (last_n k l) k); [|unfold last_n; rewrite skipn_length; lia|exact Hk|intros v Hv; apply Hf; now apply in_skipn in Hv].
    f_equal. apply average_ext. intros i Hi. unfold last_n. now rewrite nth_skipn'.
  - assert (L : length (before_last_n k l) = k) by (unfold before_last_n; rewrite firstn_length, skipn_length; lia).
    rewrite (emean_average (before_last_n k l) k L Hk); [|intros v Hv; apply Hf; now apply in_firstn, in_skipn in Hv].
    f_equal. apply average_ext. intros i Hi. unfold before_last_n.
    assert (Nf : forall (m : list ext), nth i (firstn k m) NaN = nth i m NaN).
    { clear - Hi. revert k Hi. induction i as [|i IH]; intros [|k] Hi [|a m]; cbn; auto; try lia. apply IH. lia. }
    rewrite Nf, nth_skipn'. reflexivity.
Qed.
Lemma default_break_spec t : all_finite (t_f t) ->
  default_break t = true <-> (1000 <= Z.of_nat (length (t_f t)))%Z /\ value_settled t.
Proof.
  intros Hf. unfold default_break. destruct (Z.ltb_spec (Z.of_nat (length (t_f t))) 1000) as [H|H].
  - split; [discriminate|]. intros []. lia.
  - destruct (emean_last 100 (t_f t)) as [-> ->]; [lia|lia|exact Hf|]. cbn [eopp esub eadd eabs eltb].
    unfold value_settled, value. change (2 * 100)%nat with 200%nat. cbv zeta.
    destruct (Rlt_dec _ _) as [L|L].
    + split; [|auto]. intros _. split; [lia|]. exact L.
    + split; [discriminate|]. intros [_ L']. exfalso. apply L. exact L'.
Qed.

(** only finite values have a finite mean *)
Lemma emean_finite l r : emean l = Fin r -> all_finite l.
Proof.
  unfold emean. destruct l as [|v l]; [discriminate|]. generalize (v :: l) as m. clear. intros m H.
  assert (H' : exists q, fold_right eadd (Fin 0) m = Fin q). { destruct (fold_right eadd (Fin 0) m); cbn in H; try discriminate. eauto. }
  clear H. destruct H' as [q H]. revert q H. induction m as [|a m IH]; intros q H w Hw; [destruct Hw|].
  cbn [fold_right] in H. destruct (fold_right eadd (Fin 0) m) eqn:E; destruct a; try discriminate.
  destruct Hw as [<-|Hw]; [eauto|]. exact (IH _ eq_refl w Hw).
Qed.
Lemma skipn_skipn' {A} i j (l : list A) : skipn i (skipn j l) = skipn (j + i) l.
Proof. revert l. induction j as [|j IH]; intros [|a l]; cbn; auto. destruct i; reflexivity. Qed.
Lemma break_finite t : default_break t = true ->
  (1000 <= Z.of_nat (length (t_f t)))%Z /\ let l := skipn (length (t_f t) - 200) (t_f t) in all_finite l /\ value_settled (Trace (t_x t) l).
Proof.
  unfold default_break. destruct (Z.ltb_spec (Z.of_nat (length (t_f t))) 1000) as [H|H]; [discriminate|]. intros B. split; [exact H|].
  set (l := skipn (length (t_f t) - 200) (t_f t)). cbv zeta.
  assert (L : length l = 200%nat) by (unfold l; rewrite skipn_length; lia).
  assert (E1 : last_n 100 l = last_n 100 (t_f t)).
  { unfold last_n. rewrite L. unfold l. rewrite skipn_skipn'. f_equal. lia. }
  assert (E2 : before_last_n 100 l = before_last_n 100 (t_f t)).
  { unfold before_last_n. rewrite L. unfold l. rewrite skipn_skipn'. f_equal. f_equal. lia. }
  rewrite <- E1, <- E2 in B.
  destruct (emean (last_n 100 l)) as [| | |a] eqn:F1; try (destruct (emean (before_last_n 100 l)); discriminate B).
  destruct (emean (before_last_n 100 l)) as [| | |b] eqn:F2; try discriminate B.
  assert (F : all_finite l).
  { apply emean_finite in F1, F2. assert (S : l = before_last_n 100 l ++ last_n 100 l).
    { unfold before_last_n, last_n. rewrite L. change (200 - 2 * 100)%nat with O. change (200 - 100)%nat with 100%nat. cbn [skipn]. now rewrite firstn_skipn. }
    intros v Hv. rewrite S in Hv. apply in_app_or in Hv as [Hv|Hv]; auto. }
  split; [exact F|]. destruct (emean_last 100 l) as [G1 G2]; [lia|lia|exact F|]. rewrite G1 in F1. rewrite G2 in F2. injection F1 as <-. injection F2 as <-.
  cbn [eopp esub eadd eabs eltb] in B. unfold value_settled, value. cbn [t_f]. change (2 * 100)%nat with 200%nat in B. cbv zeta. destruct (Rlt_dec _ _) as [Q|Q]; [exact Q|discriminate].
Qed.

Lemma loop_brk S Om lk pr pp ad left : forall i rnd brk t inf x p l os t' inf',
  loop S Om lk pr pp ad left i rnd brk t inf x p l os = Ok (t', inf') ->
  (length (t_x t) = length (t_f t) + 1)%nat ->
  (exists mx mf, t_x t' = t_x t ++ mx /\ t_f t' = t_f t ++ mf /\ length mx = length mf /\ (length mf <= left)%nat) /\
  (forall k, (length (t_f t) < k < length (t_f t'))%nat -> brk (after k t') = false).
Proof.
  induction left as [|left IH]; intros i rnd brk t inf x p l os t' inf' H Ht.
  - cbn in H. injection H as <- <-. split; [exists [], []; rewrite !app_nil_r; auto|]. intros; lia.
  - cbn [loop] in H. destruct (sweep _ _ _ _ _ _ _ _ _ _ _ _ _ _) as [[[[x1 p1] l1] os1]|e]; [|discriminate]. cbv zeta in H.
    destruct (brk (Trace (t_x t ++ [x1]) (t_f t ++ [l1]))) eqn:B.
    + injection H as <- <-. cbn [t_x t_f]. split; [exists [x1], [l1]; cbn [length]; repeat split; lia|]. intros k Hk. rewrite app_length in Hk. cbn in Hk. lia.
    + apply IH in H; [|cbn [t_x t_f]; rewrite !app_length; cbn; lia]. destruct H as [(mx & mf & E1 & E2 & E3 & E4) H]. cbn [t_x t_f] in *. split.
      * exists (x1 :: mx), (l1 :: mf). rewrite <- app_assoc in E1, E2. cbn in *. repeat match goal with |- _ /\ _ => split end; auto; lia.
      * intros k Hk. destruct (Nat.eq_dec k (Datatypes.S (length (t_f t)))) as [->|N].
        -- replace (after (Datatypes.S (length (t_f t))) t') with (Trace (t_x t ++ [x1]) (t_f t ++ [l1])); [exact B|].
           unfold after. rewrite E1, E2. f_equal.
           ++ rewrite firstn_app, firstn_all2, app_length by (rewrite app_length; cbn; lia). cbn [length].
              replace (Datatypes.S (Datatypes.S (length (t_f t))) - (length (t_x t) + 1))%nat with O by lia. cbn. now rewrite app_nil_r.
           ++ rewrite firstn_app, firstn_all2, app_length by (rewrite app_length; cbn; lia). cbn [length].
              replace (Datatypes.S (length (t_f t)) - (length (t_f t) + 1))%nat with O by lia. cbn. now rewrite app_nil_r.
        -- apply H. rewrite app_length. cbn. lia.
Qed.
