(** The mixture a GGMP starts from: C199. *)
From Coq Require Import Reals Lra Lia List.
From Verif Require Import Model.Prelude Spec.Sums Model.GGMPDensity Model.MixtureInit Spec.MixtureInitSpec Props.GGMPDensityProps.
Import ListNotations.
Local Open Scope R_scope.

Lemma rsum_INR n : rsum INR n = INR n * (INR n - 1) / 2.
Proof. induction n; cbn [rsum]; [cbn; lra|]. rewrite IHn, S_INR. field. Qed.
Lemma rsum_INR2 n : rsum (fun k => INR k * INR k) n = INR n * (INR n - 1) * (2 * INR n - 1) / 6.
Proof. induction n; cbn [rsum]; [cbn; lra|]. rewrite IHn, S_INR. field. Qed.
Lemma offsets_sum K : (2 <= K)%nat -> rsum (offset K) K = 0.
Proof.
intros L. assert (N : 2 <= INR K) by (change 2 with (INR 2); apply le_INR, L).
rewrite (rsum_ext _ (fun k => -1 + 2 / (INR K - 1) * INR k)); [|intros i _; unfold offset; destruct (Nat.eqb_spec K 1); [lia|ring]].
rewrite (rsum_plus (fun _ => -1)), rsum_const, rsum_scal, rsum_INR. field. lra.
Qed.
Lemma offsets_sq K : (2 <= K)%nat -> rsum (fun k => offset K k * offset K k) K = INR K * (INR K + 1) / (3 * (INR K - 1)).
Proof.
intros L. assert (N : 2 <= INR K) by (change 2 with (INR 2); apply le_INR, L). set (s := 2 / (INR K - 1)).
rewrite (rsum_ext _ (fun k => 1 + (-2 * s * INR k + s * s * (INR k * INR k)))); [|intros i _; unfold offset; fold s; destruct (Nat.eqb_spec K 1); [lia|ring]].
rewrite (rsum_plus (fun _ => 1)), rsum_const, (rsum_plus (fun k => -2 * s * INR k)), !rsum_scal, rsum_INR, rsum_INR2. unfold s. field. lra.
Qed.

Lemma make_ok means stds ws : forall n k l, make k means stds ws n = Ok l ->
  length l = n /\ forall j, (j < n)%nat -> exists w, nth_error ws (k + j) = Some w /\ nth_error l j = Some (Lik (means (k + j)%nat) (map (fun s => s ^ 2) (stds (k + j)%nat)) w).
Proof.
induction n as [|n IH]; intros k l E; cbn in E; [injection E as <-; split; [reflexivity|intros; lia]|].
destruct (nth_error ws k) as [w|] eqn:W; [|discriminate]. destruct (make (S k) means stds ws n) as [r|] eqn:M; [|discriminate]. injection E as <-.
destruct (IH _ _ M) as [L J]. split; [cbn; lia|]. intros [|j] Hj; [exists w; rewrite Nat.add_0_r; auto|].
destruct (J j) as [w' [W' E']]; [lia|]. exists w'. cbn [nth_error]. replace (k + S j)%nat with (S k + j)%nat by lia. auto.
Qed.
Lemma make_total means stds ws : forall n k, (k + n <= length ws)%nat -> exists l, make k means stds ws n = Ok l.
Proof.
induction n as [|n IH]; intros k L; [eexists; reflexivity|]. cbn. destruct (nth_error ws k) as [w|] eqn:W; [|apply nth_error_None in W; lia].
destruct (IH (S k)) as [l ->]; [lia|]. eexists; reflexivity.
Qed.
Lemma make_short means stds ws : forall n k, (k <= length ws)%nat -> (length ws < k + n)%nat -> make k means stds ws n = Err IIndex.
Proof.
induction n as [|n IH]; intros k A L; [lia|]. cbn. destruct (nth_error ws k) as [w|] eqn:W; [|reflexivity].
assert (k < length ws)%nat by (apply nth_error_Some; congruence). rewrite IH by lia. reflexivity.
Qed.
Lemma lsum_index {X} (f : X -> R) (g : nat -> R) : forall l s, (forall j c, nth_error l j = Some c -> f c = g (s + j)%nat) -> lsum (map f l) = rsum (fun j => g (s + j)%nat) (length l).
Proof.
induction l as [|x l IH] using rev_ind; intros s E; [reflexivity|].
rewrite map_app, app_length, Nat.add_1_r. cbn [rsum map].
assert (A : forall u v, lsum (u ++ v) = lsum u + lsum v) by (clear; induction u as [|a u IHu]; intros v; cbn; [lra|rewrite IHu; lra]).
rewrite A. rewrite (IH s); [|intros j c Hj; apply E; rewrite nth_error_app1; [exact Hj|apply nth_error_Some; congruence]].
cbn. rewrite (E (length l) x) by (rewrite nth_error_app2, Nat.sub_diag by lia; reflexivity). lra.
Qed.
(** the moments of each station, in order *)
Definition moments_of (ys : list (list R * list R)) (base vars : list R) : Prop :=
  length base = length ys /\ length vars = length ys /\
  forall i domain density, nth_error ys i = Some (domain, density) -> station_moments domain density = Ok (nth i base 0, nth i vars 0).
Lemma all_moments_ok ys : forall base vars, all_moments ys = Ok (base, vars) -> moments_of ys base vars.
Proof.
induction ys as [|[d f] ys IH]; intros base vars E; cbn in E; [injection E as <- <-; split; [reflexivity|split; [reflexivity|intros [|i]; discriminate]]|].
destruct (station_moments d f) as [[mu var]|] eqn:M; [|discriminate]. destruct (all_moments ys) as [[ms vs]|]; [|discriminate]. injection E as <- <-.
destruct (IH _ _ eq_refl) as [A [B C]]. split; [cbn; lia|]. split; [cbn; lia|]. intros [|i] d' f' H; cbn in *; [injection H as <- <-; exact M|apply C, H].
Qed.
Lemma all_moments_fail ys e : all_moments ys = Err e -> exists d f e', In (d, f) ys /\ station_moments d f = Err e'.
Proof.
induction ys as [|[d f] ys IH]; cbn; [discriminate|]. destruct (station_moments d f) as [[mu var]|e'] eqn:M; [|exists d, f, e'; auto].
destruct (all_moments ys) as [[ms vs]|e']; [discriminate|]. intros [= ->]. destruct (IH eq_refl) as [d' [f' [e' [I E]]]]. exists d', f', e'; auto.
Qed.

(** what initLikelihoods returns: K components, given means, squares of given deviations and given weights as they are given, otherwise shifted
    station means, station variances and equal weights *)
Lemma init_ok K ys im is_ ws l : init_likelihoods K ys im is_ ws = Ok l ->
  exists base vars, moments_of ys base vars /\ length l = K /\ (forall L, im = Some L -> length L = K) /\ (forall L, is_ = Some L -> length L = K) /\
  forall k, (k < K)%nat -> exists c, nth_error l k = Some c /\
    lk_mean c = match im with Some L => nth k L [] | None => map (fun m => m + offset K k) base end /\
    lk_var c = match is_ with Some L => map (fun s => s ^ 2) (nth k L []) | None => vars end /\
    match ws with Some w => nth_error w k = Some (lk_weight c) | None => lk_weight c = 1 / INR K end.
Proof.
unfold init_likelihoods. intros E. destruct (right_length K im) eqn:R1; [|discriminate]. destruct (right_length K is_) eqn:R2; [|discriminate]. cbn [negb andb] in E.
destruct (all_moments ys) as [[base vars]|] eqn:M; [|discriminate]. apply all_moments_ok in M. exists base, vars. split; [exact M|].
destruct (make_ok _ _ _ _ _ _ E) as [L J]. split; [exact L|].
split; [intros L' ->; apply Nat.eqb_eq, R1|]. split; [intros L' ->; apply Nat.eqb_eq, R2|].
intros k Hk. destruct (J k Hk) as [w [W C]]. eexists. split; [exact C|]. cbn [lk_mean lk_var lk_weight Nat.add].
split; [reflexivity|]. split.
- destruct is_; [reflexivity|]. rewrite map_map. rewrite <- (map_id vars) at 2. apply map_ext_in. intros v Hv.
  apply pow2_sqrt. destruct M as [_ [LV MV]]. apply (In_nth _ _ 0) in Hv as [i [Hi <-]].
  destruct (nth_error ys i) as [[d f]|] eqn:Y; [|apply nth_error_None in Y; lia]. specialize (MV _ _ _ Y).
  assert (Q : / 1000000 <= nth i vars 0).
  { unfold station_moments in MV. destruct (gradient d); [|discriminate]. destruct (Rle_dec _ 0); injection MV as _ <-; apply Rmax_r. }
  lra.
- destruct ws as [w'|]; [exact W|]. cbn [Nat.add] in W. rewrite rsum_const in W. apply nth_error_In in W. apply repeat_spec in W. rewrite W. replace (INR K * 1) with (INR K) by ring. reflexivity.
Qed.

(** the moments of the mixture at a station *)
Lemma start_moments K ys l base vars : (1 <= K)%nat -> length l = K -> moments_of ys base vars ->
  (forall k, (k < K)%nat -> exists c, nth_error l k = Some c /\ lk_mean c = map (fun m => m + offset K k) base /\ lk_var c = vars /\ lk_weight c = 1 / INR K) ->
  weights_of l = 1 /\ forall i, (i < length ys)%nat ->
    total_mean l i = nth i base 0 + rsum (offset K) K / INR K /\
    total_var l i = nth i vars 0 + (rsum (fun k => offset K k * offset K k) K / INR K - (rsum (offset K) K / INR K) * (rsum (offset K) K / INR K)).
Proof.
intros K1 L [B1 [B2 _]] C. assert (N : 1 <= INR K) by (change 1 with (INR 1); apply le_INR, K1).
assert (at_c : forall j c, nth_error l j = Some c -> lk_mean c = map (fun m => m + offset K j) base /\ lk_var c = vars /\ lk_weight c = 1 / INR K).
{ intros j c Hj. assert (j < K)%nat by (rewrite <- L; apply nth_error_Some; congruence). destruct (C j) as [c' [E Q]]; [assumption|]. rewrite Hj in E. injection E as <-. exact Q. }
split.
- unfold weights_of. rewrite (lsum_index lk_weight (fun _ => 1 / INR K) l 0); [|intros j c Hj; apply at_c with j; exact Hj]. rewrite rsum_const, L. field. lra.
- intros i Hi.
  assert (M : forall j c, nth_error l j = Some c -> mean_at c i = nth i base 0 + offset K j).
  { intros j c Hj. destruct (at_c j c Hj) as [Q _]. unfold mean_at. rewrite Q.
    rewrite (nth_indep _ 0 ((fun m => m + offset K j) 0)) by (rewrite map_length; lia). apply (map_nth (fun m => m + offset K j)). }
  assert (TM : total_mean l i = nth i base 0 + rsum (offset K) K / INR K).
  { unfold total_mean. rewrite (lsum_index _ (fun j => 1 / INR K * (nth i base 0 + offset K j)) l 0); [|intros j c Hj; rewrite (M j c Hj); destruct (at_c j c Hj) as [_ [_ ->]]; reflexivity].
    cbn [Nat.add]. rewrite rsum_scal, (rsum_plus (fun _ => nth i base 0)), rsum_const, L. field. lra. }
  split; [exact TM|]. unfold total_var. rewrite TM. set (b := nth i base 0). set (v := nth i vars 0).
  rewrite (lsum_index _ (fun j => 1 / INR K * ((v + b * b) + (2 * b * offset K j + offset K j * offset K j))) l 0);
    [|intros j c Hj; rewrite (M j c Hj); destruct (at_c j c Hj) as [_ [Q ->]]; unfold var_at; rewrite Q; cbn [Nat.add]; fold b v; ring].
  cbn [Nat.add]. rewrite rsum_scal, (rsum_plus (fun _ => v + b * b)), rsum_const, (rsum_plus (fun j => 2 * b * offset K j)), rsum_scal, L. field. lra.
Qed.

(** * C199 *)
(** with two components or more the mixture has the mean of every station, and its variance is that of the station plus a number
    between 1/3 and 1 that depends on K only; what the caller gives is used as given, and only missing weights or grids of fewer than
    two points raise *)
Theorem default_mixture_partial :
  (forall K ys l, (2 <= K)%nat -> init_likelihoods K ys None None None = Ok l ->
     exists base vars, moments_of ys base vars /\ length l = K /\ weights_of l = 1 /\
       forall i, (i < length ys)%nat ->
         total_mean l i = nth i base 0 /\ total_var l i = nth i vars 0 + (INR K + 1) / (3 * (INR K - 1)) /\
         (forall c, In c l -> lk_weight c = 1 / INR K /\ Rabs (mean_at c i - nth i base 0) <= 1 /\ var_at c i = nth i vars 0) /\
         NoDup (map (fun c => mean_at c i) l)) /\
  (forall K ys means stds ws l, init_likelihoods K ys (Some means) (Some stds) (Some ws) = Ok l ->
     length means = K /\ length stds = K /\ map lk_mean l = means /\ map lk_var l = map (map (fun s => s * s)) stds /\ map lk_weight l = firstn K ws) /\
  (forall K ys im is_ ws, (forall d f, In (d, f) ys -> (2 <= length d)%nat) ->
     (forall L, im = Some L -> length L = K) -> (forall L, is_ = Some L -> length L = K) -> (forall w, ws = Some w -> (K <= length w)%nat) ->
     exists l, init_likelihoods K ys im is_ ws = Ok l).
Proof.
split; [|split].
- intros K ys l K2 E. destruct (init_ok _ _ _ _ _ _ E) as [base [vars [M [L [_ [_ C]]]]]]. exists base, vars. split; [exact M|]. split; [exact L|].
  assert (N : 2 <= INR K) by (change 2 with (INR 2); apply le_INR, K2).
  destruct (start_moments K ys l base vars) as [W T]; [lia|exact L|exact M|exact C|]. split; [exact W|]. intros i Hi. destruct (T i Hi) as [T1 T2].
  rewrite offsets_sum in T1, T2 by exact K2. rewrite offsets_sq in T2 by exact K2.
  split; [rewrite T1; field; lra|]. split; [rewrite T2; field; lra|].
  assert (at_c : forall j c, nth_error l j = Some c -> lk_weight c = 1 / INR K /\ mean_at c i = nth i base 0 + offset K j /\ var_at c i = nth i vars 0).
  { intros j c Hj. assert (j < K)%nat by (rewrite <- L; apply nth_error_Some; congruence). destruct (C j) as [c' [E' [Q1 [Q2 Q3]]]]; [assumption|]. rewrite Hj in E'. injection E' as <-.
    split; [exact Q3|]. unfold mean_at, var_at. rewrite Q1, Q2. split; [|reflexivity]. destruct M as [B _].
    rewrite (nth_indep _ 0 ((fun m => m + offset K j) 0)) by (rewrite map_length; lia). apply (map_nth (fun m => m + offset K j)). }
  assert (OF : forall j, offset K j = -1 + INR j * (2 / (INR K - 1))) by (intros j; unfold offset; destruct (Nat.eqb_spec K 1); [lia|reflexivity]).
  assert (P : 0 < 2 / (INR K - 1)) by (apply Rdiv_lt_0_compat; lra).
  split.
  + intros c Hc. apply In_nth_error in Hc as [j Hj]. destruct (at_c j c Hj) as [Q1 [Q2 Q3]]. split; [exact Q1|]. split; [|exact Q3]. rewrite Q2, OF.
    assert (J : (j < K)%nat) by (rewrite <- L; apply nth_error_Some; congruence).
    assert (J1 : INR j <= INR K - 1) by (assert (INR (S j) <= INR K) by (apply le_INR; lia); rewrite S_INR in *; lra). pose proof (pos_INR j).
    assert (INR j * (2 / (INR K - 1)) <= 2).
    { replace 2 with ((INR K - 1) * (2 / (INR K - 1))) at 2 by (field; lra). apply Rmult_le_compat_r; [lra|exact J1]. }
    assert (0 <= INR j * (2 / (INR K - 1))) by (apply Rmult_le_pos; lra). apply Rabs_le; lra.
  + apply NoDup_nth_error. rewrite map_length. intros a b Ha Hab. destruct (nth_error l a) as [ca|] eqn:Ea; [|apply nth_error_None in Ea; lia].
    rewrite nth_error_map, Ea in Hab. cbn in Hab. rewrite nth_error_map in Hab. destruct (nth_error l b) as [cb|] eqn:Eb; [|discriminate]. cbn in Hab. injection Hab as Hab.
    rewrite (proj1 (proj2 (at_c _ _ Ea))), (proj1 (proj2 (at_c _ _ Eb))), !OF in Hab. apply INR_eq. nra.
- intros K ys means stds ws l E. destruct (init_ok _ _ _ _ _ _ E) as [base [vars [M [L [L1 [L2 C]]]]]].
  specialize (L1 _ eq_refl). specialize (L2 _ eq_refl). split; [exact L1|]. split; [exact L2|].
  assert (ext : forall (X : Type) (u v : list X), length u = length v -> (forall j x, nth_error u j = Some x -> nth_error v j = Some x) -> u = v).
  { intros X. induction u as [|a u IH]; intros [|b v] Luv Huv; try discriminate; [reflexivity|]. pose proof (Huv 0%nat a eq_refl) as Q. cbn in Q. injection Q as ->. f_equal. apply IH; [injection Luv; auto|]. intros j x Hj. exact (Huv (S j) x Hj). }
  assert (at_c : forall j c, nth_error l j = Some c -> (j < K)%nat /\ lk_mean c = nth j means [] /\ lk_var c = map (fun s => s ^ 2) (nth j stds []) /\ nth_error ws j = Some (lk_weight c)).
  { intros j c Hj. assert (J : (j < K)%nat) by (rewrite <- L; apply nth_error_Some; congruence). destruct (C j J) as [c' [E' Q]]. rewrite Hj in E'. injection E' as <-. auto. }
  split; [|split].
  + apply ext; [rewrite map_length; lia|]. intros j x Hj. rewrite nth_error_map in Hj. destruct (nth_error l j) as [c|] eqn:Ej; [|discriminate]. injection Hj as <-.
    destruct (at_c j c Ej) as [J [Q _]]. rewrite Q. apply nth_error_nth'. lia.
  + apply ext; [rewrite !map_length; lia|]. intros j x Hj. rewrite nth_error_map in Hj. destruct (nth_error l j) as [c|] eqn:Ej; [|discriminate]. injection Hj as <-.
    destruct (at_c j c Ej) as [J [_ [Q _]]]. rewrite Q, nth_error_map, (nth_error_nth' _ []) by lia. cbn. f_equal. apply map_ext. intros; ring.
  + assert (LW : (K <= length ws)%nat).
    { destruct K as [|K]; [lia|]. destruct (C K) as [c [Ec _]]; [lia|]. destruct (at_c K c Ec) as [_ [_ [_ Q]]].
      assert (K < length ws)%nat by (apply nth_error_Some; congruence). lia. }
    apply ext; [rewrite map_length, firstn_length; lia|]. intros j x Hj. rewrite nth_error_map in Hj. destruct (nth_error l j) as [c|] eqn:Ej; [|discriminate]. injection Hj as <-.
    destruct (at_c j c Ej) as [J [_ [_ Q]]]. rewrite <- Q. clear -J. revert ws K J. induction j as [|j IH]; intros [|w ws] [|K] J; cbn; try lia; try reflexivity. apply IH. lia.
- intros K ys im is_ ws D L1 L2 LW. unfold init_likelihoods.
  replace (right_length K im) with true by (destruct im as [L|]; [cbn; symmetry; apply Nat.eqb_eq, L1; reflexivity|reflexivity]).
  replace (right_length K is_) with true by (destruct is_ as [L|]; [cbn; symmetry; apply Nat.eqb_eq, L2; reflexivity|reflexivity]). cbn [andb negb].
  destruct (all_moments ys) as [[base vars]|e] eqn:M.
  + apply make_total. destruct ws as [w|]; [cbn; apply LW; reflexivity|rewrite repeat_length; lia].
  + destruct (all_moments_fail _ _ M) as [d [f [e' [I E]]]]. destruct (station_moments_total d f (D d f I)) as [mv E']. congruence.
Qed.
(** with one component the mixture is one below the mean of every station, whatever the data; with more, its variance exceeds that
    of every station by more than 1/3, in whatever unit the data are *)
Theorem default_mixture_refuted :
  (forall ys l, init_likelihoods 1 ys None None None = Ok l -> exists base vars, moments_of ys base vars /\
     forall i, (i < length ys)%nat -> total_mean l i = nth i base 0 - 1) /\
  (forall K ys l, (2 <= K)%nat -> init_likelihoods K ys None None None = Ok l -> exists base vars, moments_of ys base vars /\
     forall i, (i < length ys)%nat -> nth i vars 0 + 1 / 3 < total_var l i) /\
  exists ys l, init_likelihoods 1 ys None None None = Ok l /\ (0 < length ys)%nat.
Proof.
split; [|split].
- intros ys l E. destruct (init_ok _ _ _ _ _ _ E) as [base [vars [M [L [_ [_ C]]]]]]. exists base, vars. split; [exact M|].
  destruct (start_moments 1 ys l base vars) as [_ T]; [lia|exact L|exact M|exact C|]. intros i Hi. destruct (T i Hi) as [T1 _]. rewrite T1. unfold offset. cbn. field.
- intros K ys l K2 E. destruct (proj1 default_mixture_partial K ys l K2 E) as [base [vars [M [_ [_ T]]]]]. exists base, vars. split; [exact M|].
  intros i Hi. destruct (T i Hi) as [_ [-> _]]. assert (N : 2 <= INR K) by (change 2 with (INR 2); apply le_INR, K2).
  apply Rplus_lt_compat_l. apply (Rmult_lt_reg_r (3 * (INR K - 1))); [lra|]. replace ((INR K + 1) / (3 * (INR K - 1)) * (3 * (INR K - 1))) with (INR K + 1) by (field; lra). lra.
- destruct (proj2 (proj2 default_mixture_partial) 1%nat [([0; 1], [1; 3])] None None None) as [l E]; try discriminate.
  + intros d f [[= <- <-]|[]]. cbn. lia.
  + exists [([0; 1], [1; 3])], l. split; [exact E|cbn; lia].
Qed.
Print Assumptions default_mixture_partial.
Print Assumptions default_mixture_refuted.
(** a station with density 1 at 0 and 3 at 1 has mean 3/4 and variance 3/16; one component starts at -1/4, two have mean 3/4 and variance 19/16 *)
Example default_mixture_ex :
  (exists l, init_likelihoods 1 [([0; 1], [1; 3])] None None None = Ok l /\ total_mean l 0 = - / 4) /\
  (exists l, init_likelihoods 2 [([0; 1], [1; 3])] None None None = Ok l /\ total_mean l 0 = 3 / 4 /\ total_var l 0 = 19 / 16).
Proof.
destruct station_ex as [var [SM ->]].
assert (D : forall d f, In (d, f) [([0; 1], [1; 3])] -> (2 <= length d)%nat) by (intros d f [[= <- <-]|[]]; cbn; lia).
split.
- destruct (proj2 (proj2 default_mixture_partial) 1%nat [([0; 1], [1; 3])] None None None D) as [l E]; try discriminate. exists l. split; [exact E|].
  destruct (proj1 default_mixture_refuted _ _ E) as [base [vars [[_ [_ M]] T]]]. specialize (M 0%nat _ _ eq_refl). rewrite SM in M. injection M as Mb _.
  rewrite T by (cbn; lia). rewrite <- Mb. lra.
- destruct (proj2 (proj2 default_mixture_partial) 2%nat [([0; 1], [1; 3])] None None None D) as [l E]; try discriminate. exists l. split; [exact E|].
  destruct (proj1 default_mixture_partial 2%nat _ _ ltac:(lia) E) as [base [vars [[_ [_ M]] [_ [_ T]]]]]. specialize (M 0%nat _ _ eq_refl). rewrite SM in M. injection M as Mb Mv.
  destruct (T 0%nat) as [-> [-> _]]; [cbn; lia|]. rewrite <- Mb, <- Mv. cbn. split; lra.
Qed.
