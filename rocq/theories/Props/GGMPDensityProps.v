(** C51, C52, C55, C90, C91: the numerical helpers of the GGMP. *)
From Coq Require Import Reals Lra Lia.
From Verif Require Import Model.Prelude Spec.Sums Model.GGMPDensity Spec.GGMPDensitySpec Proofs.GGMPDensityP.
Local Open Scope R_scope.

Section C51.
Context (K : nat) (tiny extra floor tol : R) (ts : list station).
Hypotheses (K1 : (0 < K)%nat) (Ti : 0 < tiny) (Ex : 0 <= extra) (Fl : 0 <= floor) (W : weighted ts) (T : 0 < total ts).
(** C51: all weights in the history and the weights returned are positive and sum to one *)
Theorem em_on_simplex : forall max_iter w0 w wh oh, em K tiny extra floor tol ts max_iter w0 = (w, wh, oh) ->
  simplex K w /\ Forall (simplex K) wh /\ length oh = length wh /\ (length wh <= max_iter)%nat /\ w = last wh (em_start K w0).
Proof.
intros n w0 w wh oh E. unfold em in E. assert (S : Forall (simplex K) wh /\ (w = em_start K w0 /\ n = 0%nat \/ simplex K w)) by exact (loop_simplex K tiny K1 Ti extra floor Ex ts W T tol n _ _ _ _ E). destruct S as [F S].
pose proof E as H. eapply loop_hist in H; try eassumption. destruct H as [L [_ H]].
split; [destruct S as [[-> _]|S]; [apply start_simplex; exact K1|exact S]|]. split; [exact F|]. split; [congruence|]. split; [|exact H].
clear -E. revert E. generalize (em_start K w0) as v. intros v. revert v w wh oh. induction n as [|n IH]; intros v w wh oh E; cbn in E; [injection E as <- <- <-; cbn; lia|].
destruct (Rlt_dec _ tol); [injection E as <- <- <-; cbn; lia|]. destruct (em_loop _ _ _ _ _ _ n _) as [[wf' wh'] oh'] eqn:Q. injection E as <- <- <-. apply IH in Q. cbn. lia.
Qed.
(** C51: the loop stops at the first iteration that moves the weights by less than tol, added over the components, or after max_iter iterations *)
Theorem em_stops : forall max_iter w0 w wh oh, em K tiny extra floor tol ts max_iter w0 = (w, wh, oh) ->
  let at_ i := nth i (em_start K w0 :: wh) (em_start K w0) in
  (forall i, (S i < length wh)%nat -> tol <= moved K (at_ i) (at_ (S i))) /\
  ((length wh < max_iter)%nat -> exists i, length wh = S i /\ moved K (at_ i) (at_ (S i)) < tol).
Proof.
intros n w0 w wh oh E. unfold em in E. revert E. generalize (em_start K w0) as v. clear K1 Ti Ex Fl W T.
assert (D : forall a b, delta K b a = moved K a b) by (intros; apply rsum_ext; intros; unfold Rmax, Rmin, Rabs; destruct (Rle_dec _ _), (Rcase_abs _); lra).
assert (H : forall d v w wh oh, em_loop K tiny extra floor tol ts n v = (w, wh, oh) ->
  (forall i, (S i < length wh)%nat -> tol <= moved K (nth i (v :: wh) d) (nth (S i) (v :: wh) d)) /\
  ((length wh < n)%nat -> exists i, length wh = S i /\ moved K (nth i (v :: wh) d) (nth (S i) (v :: wh) d) < tol)).
{ intros d. clear w0 w wh oh. induction n as [|n' IH]; intros v w wh oh E; cbn in E; [injection E as <- <- <-; cbn; split; intros; lia|].
  destruct (Rlt_dec _ tol) as [Q|Q].
  - injection E as <- <- <-. split; [cbn; intros; lia|]. intros _. exists 0%nat. split; [reflexivity|]. cbn [nth]. rewrite <- D. exact Q.
  - destruct (em_loop _ _ _ _ _ _ n' _) as [[wf' wh'] oh'] eqn:F. injection E as <- <- <-. destruct (IH _ _ _ _ F) as [H1 H2]. split.
    + intros [|i] Hi; [cbn [nth]; rewrite <- D; lra|]. apply (H1 i). cbn in Hi. lia.
    + intros L. destruct H2 as (i & H2 & H3); [cbn in L; lia|]. exists (S i). split; [cbn; congruence|exact H3]. }
intros v E. exact (H v v w wh oh E).
Qed.
(** C51: the objective of an iteration is the log likelihood of the mixture with the weights before it (where these exceed the guard against log 0), the next
    weights are those of the EM algorithm when the floor does not bind, and then the objective does not decrease; in general it can decrease by no more than
    the floor and the guard explain *)
Theorem em_monotone : forall max_iter w0 w wh oh, em K tiny extra floor tol ts max_iter w0 = (w, wh, oh) ->
  forall i, (i < length wh)%nat -> let v := nth i (em_start K w0 :: wh) (em_start K w0) in let v' := nth i wh (em_start K w0) in
    ((forall k, (k < K)%nat -> tiny <= v k) -> nth i oh 0 = loglik K ts v /\
       ((forall k, (k < K)%nat -> floor * (total ts + extra) <= total ts * em_update K ts v k) ->
          (forall k, (k < K)%nat -> v' k = em_update K ts v k) /\ ((S i < length oh)%nat -> nth i oh 0 <= nth (S i) oh 0))) /\
    ((S i < length oh)%nat -> nth i oh 0 - total ts * (ln (1 + INR K * tiny) + ln (1 + INR K * floor * ((total ts + extra) / total ts))) <= nth (S i) oh 0).
Proof.
intros n w0 w wh oh E i Hi. assert (SW := em_on_simplex n w0 w wh oh E). destruct SW as [_ [F _]]. unfold em in E.
pose proof E as H. eapply loop_hist in H; try eassumption. destruct H as [L [H _]]. cbn zeta. set (s := em_start K w0) in *.
assert (SV : simplex K (nth i (s :: wh) s)). { destruct i as [|i]; [apply start_simplex; exact K1|]. cbn [nth]. rewrite Forall_forall in F. apply F. apply nth_In. lia. }
destruct (H i Hi) as [H1 H2]. set (v := nth i (s :: wh) s) in *.
assert (N : (S i < length oh)%nat -> nth (S i) oh 0 = obj K tiny (em_new K tiny extra floor ts v) ts).
{ intros Q. destruct (H (S i)) as [_ Q2]; [lia|]. rewrite Q2. change (nth (S i) (s :: wh) s) with (nth i wh s). rewrite H1. reflexivity. }
split.
- intros G. assert (CL : nth i oh 0 = loglik K ts v).
  { rewrite H2, obj_loglik by assumption. unfold loglik. apply rowsum_ext. intros t x _ _. f_equal. f_equal. apply rsum_ext. intros k Hk. rewrite Rmax_left by auto. reflexivity. }
  split; [exact CL|]. intros B.
  assert (U : forall k, (k < K)%nat -> counts K tiny v ts k / total ts = em_update K ts v k) by (eapply upd_textbook; eassumption).
  assert (B' : forall k, (k < K)%nat -> floor <= counts K tiny v ts k / (total ts + extra)).
  { intros k Hk. specialize (B k Hk). rewrite <- (U k Hk) in B. apply (Rmult_le_reg_r (total ts + extra)); [lra|]. unfold Rdiv. rewrite Rmult_assoc, Rinv_l by lra.
    replace (total ts * (counts K tiny v ts k / total ts)) with (counts K tiny v ts k) in B by (field; lra). lra. }
  split.
  + intros k Hk. rewrite H1, <- (U k Hk). apply new_exact; auto; intros j Hj; rewrite ?counts_sum by assumption; auto.
  + intros Q. rewrite H2, (N Q). apply obj_new_mono; auto; intros j Hj; rewrite ?counts_sum by assumption; auto.
- intros Q. rewrite H2, (N Q). apply obj_new_ge; auto.
Qed.
End C51.
Print Assumptions em_on_simplex. Print Assumptions em_monotone. Print Assumptions em_stops.

(** one iteration on two grid points of weight one, where the components have densities 2, 1 and 1, 1 *)
Definition two : list station := [[(1, fun k => match k with O => ln 2 | _ => 0 end); (1, fun _ => 0)]].
Example em_two : let '(w, _, _) := em 2 (/ 1000) 0 0 0 two 1 None in w 0%nat = 7 / 12 /\ w 1%nat = 5 / 12.
Proof.
assert (Q : forall k, (k < 2)%nat -> em_new 2 (/ 1000) 0 0 two (em_start 2 None) k = match k with O => 7 / 12 | _ => 5 / 12 end).
{ assert (T : total two = 2) by (cbv [total two rowsum map lsum fst]; lra). assert (W : weighted two) by (intros t x [<-|[]] [<-|[<-|[]]]; cbn [fst]; lra).
  assert (U : forall k, (k < 2)%nat -> em_update 2 two (em_start 2 None) k = match k with O => 7 / 12 | _ => 5 / 12 end).
  { intros k Hk. unfold em_update. rewrite T. cbv [em_start two rowsum map lsum fst snd rsum INR]. rewrite exp_ln by lra. rewrite exp_0. destruct k as [|[|k]]; [rewrite exp_ln by lra; field|rewrite exp_0; field|lia]. }
  assert (G : forall k, (k < 2)%nat -> / 1000 <= em_start 2 None k) by (intros k _; cbv [em_start INR]; lra).
  intros k Hk. rewrite <- U by exact Hk. rewrite <- (upd_textbook 2 (/ 1000) ltac:(lia) ltac:(lra) two (em_start 2 None) G k Hk).
  apply (new_exact 2 (/ 1000)); try lra; try lia; try assumption.
  intros j Hj. unfold before_floor. apply Rmult_le_pos; [|left; apply Rinv_0_lt_compat; lra]. left. apply counts_pos; try lra; try lia; assumption. }
unfold em, em_loop. destruct (Rlt_dec _ 0); (split; [apply (Q 0%nat)|apply (Q 1%nat)]; lia).
Qed.

(** C52, the part that holds: a density with finite values and some positive mass is scaled so that the values times the grid spacings sum to one, negative values
    are dropped, and the proportions of the others are kept.  Missing: densities without positive mass or with values that are not finite. *)
Theorem normalize_partial : forall domain f g, length domain = length f -> gradient domain = Ok g -> 0 < lsum (map2 Rmult (map pos f) (map Rabs g)) ->
  exists p, normalize_pdf domain (map Some f) = Ok (domain, p, map Rabs g) /\ lsum (map2 Rmult p (map Rabs g)) = 1 /\ (forall x, In x p -> 0 <= x) /\
  exists z, 0 < z /\ p = map (fun x => pos x / z) f.
Proof.
intros domain f g L G Z. destruct (normalize_pdf domain (map Some f)) as [[[d p] dx]|e] eqn:E.
- destruct (normalize_cases _ _ _ _ _ E) as [-> [_ [_ [_ [P [_ [(f' & g' & F & G' & -> & Z' & EP & S1)|[N _]]]]]]]].
  + assert (g' = g) as -> by congruence. assert (f' = f) as -> by (revert F; clear; revert f'; induction f as [|x f IH]; intros [|y f'] E; cbn in E; try congruence; injection E as -> E; f_equal; auto).
    exists p. split; [reflexivity|]. split; [exact S1|]. split; [exact P|]. exists (lsum (map2 Rmult (map pos f) (map Rabs g))). auto.
  + specialize (N f g eq_refl G). lra.
- exfalso. unfold normalize_pdf in E. rewrite map_length, L, Nat.eqb_refl in E. cbn [negb] in E. rewrite G in E. destruct (all_some _); [destruct (Rle_dec _ 0)|]; discriminate.
Qed.
(** C52 is false as stated: on every grid, a density without positive mass is replaced by values that times the spacings sum to one over the number of points *)
Theorem normalize_refuted : forall domain f g, length domain = length f -> gradient domain = Ok g -> (forall x, In x f -> x <= 0) ->
  exists p dx, normalize_pdf domain (map Some f) = Ok (domain, p, dx) /\ lsum (map2 Rmult p dx) = 1 / INR (length domain) /\ lsum (map2 Rmult p dx) < 1.
Proof.
intros domain f g L G Z. destruct (gradient_length _ _ G) as [_ L2].
assert (NI : 2 <= INR (length domain)) by (change 2 with (INR 2); apply le_INR; exact L2).
assert (NL : 1 / INR (length domain) < 1) by (apply (Rmult_lt_reg_r (INR (length domain))); [lra|]; unfold Rdiv; rewrite Rmult_assoc, Rinv_l by lra; lra).
destruct (normalize_pdf domain (map Some f)) as [[[d p] dx]|e] eqn:E.
- destruct (normalize_cases _ _ _ _ _ E) as [-> [_ [_ [_ [_ [_ [(f' & g' & F & G' & -> & Z' & _)|[_ S1]]]]]]]].
  + exfalso. assert (f' = f) as -> by (revert F; clear; revert f'; induction f as [|x f IH]; intros [|y f'] E; cbn in E; try congruence; injection E as -> E; f_equal; auto).
    assert (Q : lsum (map2 Rmult (map pos f) (map Rabs g')) = 0).
    { revert Z. generalize (map Rabs g') as l. clear. induction f as [|x f IH]; intros [|y l] Z; cbn; try reflexivity. rewrite IH by (intros; apply Z; right; assumption). unfold pos. rewrite Rmax_right by (apply Z; left; reflexivity). lra. }
    lra.
  + exists p, dx. split; [reflexivity|]. split; [exact S1|]. rewrite S1. exact NL.
- exfalso. unfold normalize_pdf in E. rewrite map_length, L, Nat.eqb_refl in E. cbn [negb] in E. rewrite G in E. destruct (all_some _); [destruct (Rle_dec _ 0)|]; discriminate.
Qed.
Print Assumptions normalize_partial. Print Assumptions normalize_refuted.
Example normalize_ex : gradient [0; 1; 3] = Ok [1; 3 / 2; 2] /\ exists p dx, normalize_pdf [0; 1; 3] (map Some [2; -1; 3]) = Ok ([0; 1; 3], p, dx) /\ p = [1 / 4; 0; 3 / 8].
Proof.
assert (G : gradient [0; 1; 3] = Ok [1; 3 / 2; 2]) by (cbv [gradient length Nat.ltb Nat.leb Nat.eqb Nat.sub Nat.add seq map nth]; repeat f_equal; lra).
split; [exact G|]. assert (A : map Rabs [1; 3 / 2; 2] = [1; 3 / 2; 2]) by (cbn; rewrite !Rabs_pos_eq by lra; reflexivity).
assert (P : map pos [2; -1; 3] = [2; 0; 3]) by (cbn; unfold pos; rewrite (Rmax_left 2), (Rmax_left 3), Rmax_right by lra; reflexivity).
destruct (normalize_partial [0; 1; 3] [2; -1; 3] [1; 3 / 2; 2] eq_refl G) as (p & E & S1 & _ & z & Z & EP); [rewrite A, P; cbn; lra|].
exists p, (map Rabs [1; 3 / 2; 2]). split; [exact E|]. assert (EQ : p = map (fun x => x / z) [2; 0; 3]) by (rewrite EP, <- P, map_map; reflexivity).
rewrite EQ, A in S1. cbn in S1. assert (z = 8) as -> by (apply (Rmult_eq_reg_r (/ z)); [rewrite Rinv_r by lra; unfold Rdiv in S1; lra|apply Rinv_neq_0_compat; lra]). rewrite EQ. cbn [map]. replace (2 / 8) with (1 / 4) by lra. replace (0 / 8) with 0 by lra. reflexivity.
Qed.
Example normalize_zero : exists p dx, normalize_pdf [0; 1; 3] (map Some [0; 0; 0]) = Ok ([0; 1; 3], p, dx) /\ lsum (map2 Rmult p dx) = 1 / 3.
Proof.
destruct (normalize_refuted [0; 1; 3] [0; 0; 0] [1; 3 / 2; 2] eq_refl (proj1 normalize_ex)) as (p & dx & E & S1 & _); [intros x I; cbn in I; intuition subst; lra|].
exists p, dx. split; [exact E|]. rewrite S1. cbn. lra.
Qed.

(** C55: with weights that are not negative and not all zero, the predictive mean and variance are those of the mixture with the scaled weights and the components' variances
    including their average noise; the variance is at least the average of these and thus not negative *)
Theorem mixture_variance : forall K w m v noise, (forall k, (k < K)%nat -> 0 <= w k) -> 0 < rsum w K ->
  let q k := w k / rsum w K in let u k := v k + mean (noise k) in
  rsum q K = 1 /\ mix_mean K w m = mixture_mean K q m /\
  mix_var K w m v noise = mixture_second K q m u - mixture_mean K q m * mixture_mean K q m /\
  rsum (fun k => q k * u k) K <= mix_var K w m v noise /\
  ((forall k, (k < K)%nat -> 0 <= v k) -> (forall k x, (k < K)%nat -> In x (noise k) -> 0 <= x) -> (forall k, (k < K)%nat -> noise k <> []) -> 0 <= mix_var K w m v noise) /\
  (forall lo hi, (forall k, (k < K)%nat -> lo <= m k <= hi) -> lo <= mix_mean K w m <= hi).
Proof.
intros K w m v noise P S q u. split; [exact (normalized_sum K w S)|]. split; [reflexivity|]. split; [exact (mix_var_moments K w m v noise S)|].
assert (G := mix_var_ge K w m v noise P S). split; [exact G|]. split; [|intros lo hi; exact (mix_mean_hull K w m lo hi P S)].
intros V N NE. eapply Rle_trans; [|exact G]. apply rsum_nonneg. intros k Hk. apply Rmult_le_pos; [apply Rmult_le_pos; [auto|left; apply Rinv_0_lt_compat; exact S]|].
assert (0 <= mean (noise k)); [|specialize (V k Hk); lra]. unfold mean. apply Rmult_le_pos; [apply lsum_nonneg; intros x I; exact (N k x Hk I)|]. left. apply Rinv_0_lt_compat. apply lt_0_INR.
specialize (NE k Hk). destruct (noise k); [congruence|cbn; lia].
Qed.
Print Assumptions mixture_variance.
(** two components of equal weight at 0 and 2 with variance 1 and noise 0 and 2: mean 1, variance (1 + 2) + 1 *)
Example mixture_ex : mix_mean 2 (fun _ => 3) (fun k => 2 * INR k) = 1 /\ mix_var 2 (fun _ => 3) (fun k => 2 * INR k) (fun _ => 1) (fun k => if (k =? 0)%nat then [0; 0] else [1; 3]) = 3.
Proof. split; [|unfold mix_var]; cbv [mix_mean normalized rsum mean lsum length INR Nat.eqb]; lra. Qed.

(** C90: the moments of a station are those of the discrete distribution with masses proportional to the positive part of the density times the spacing (equal
    masses if there is none), so the mean lies between the ends of the domain; the variance is at least 1e-6 *)
Theorem station_moments_correct : forall domain density mu var, length density = length domain -> station_moments domain density = Ok (mu, var) ->
  / 1000000 <= var /\ (forall lo hi, (forall x, In x domain -> lo <= x <= hi) -> lo <= mu <= hi) /\
  exists p, length p = length domain /\ (forall a, In a p -> 0 <= a) /\ lsum p = 1 /\ mu = lsum (map2 Rmult p domain) /\
    var = Rmax (lsum (map2 Rmult p (map (fun x => x * x) domain)) - mu * mu) (/ 1000000) /\
    forall g, gradient domain = Ok g -> (exists z, 0 < z /\ p = map (fun m => m / z) (map2 Rmult (map pos density) (map Rabs g))) \/
      (lsum (map2 Rmult (map pos density) (map Rabs g)) <= 0 /\ p = repeat (1 / INR (length domain)) (length domain)).
Proof.
intros domain density mu var L E. destruct (station_weights _ _ _ _ L E) as (p & LP & P & S1 & M & V & Q). unfold dot in *.
split; [rewrite V; apply Rmax_r|]. split.
- intros lo hi B. destruct (dot_bounds lo hi p domain LP P B) as [B1 B2]. rewrite S1 in B1, B2. unfold dot in *. lra.
- exists p. repeat (split; [assumption|]). intros g G. destruct (Q g G) as [Q1 Q2]. set (z := lsum (map2 Rmult (map pos density) (map Rabs g))) in *. destruct (Rle_dec z 0) as [H|H]; [right; auto|left; exists z; split; [lra|apply Q1; lra]].
Qed.
(** and a domain with two points or more never fails *)
Theorem station_moments_total : forall domain density, (2 <= length domain)%nat -> exists mv, station_moments domain density = Ok mv.
Proof. intros domain density L. unfold station_moments, gradient. destruct (Nat.ltb_spec (length domain) 2); [lia|]. destruct (Rle_dec _ 0); eexists; reflexivity. Qed.
Print Assumptions station_moments_correct. Print Assumptions station_moments_total.
Example station_ex : exists var, station_moments [0; 1] [1; 3] = Ok (3 / 4, var) /\ var = 3 / 16.
Proof.
unfold station_moments, gradient. cbn [length Nat.ltb Nat.leb seq map Nat.eqb nth Nat.sub Nat.add map2]. unfold pos. rewrite !Rmax_left by lra. replace (1 - 0) with 1 by lra. rewrite Rabs_pos_eq by lra. cbn [lsum].
destruct (Rle_dec _ 0) as [H|H]; [lra|]. eexists. split; [f_equal; f_equal; field|]. rewrite Rmax_left; [field|]. match goal with |- _ <= ?x => replace x with (3 / 16) by field end. lra.
Qed.

(** C91 *)
Section C91.
Context (tiny : R) (Ti : 0 < tiny).
Theorem bhattacharyya_distance : forall domain p q d, tiny <= 1 -> bhattacharyya tiny domain p q = Ok d -> 0 <= d /\ d <= - ln tiny /\ bhattacharyya tiny domain q p = Ok d.
Proof.
intros domain p q d T1 E. unfold bhattacharyya in *. destruct (length domain =? length p)%nat eqn:E1; cbn in E; [|discriminate]. destruct (length p =? length q)%nat eqn:E2; cbn in E; [|discriminate].
apply Nat.eqb_eq in E1, E2. unfold with_grid in *. destruct (gradient domain) as [g|]; [|discriminate]. assert (D : forall x, In x (map Rabs g) -> 0 <= x) by (intros x; apply abs_nonneg).
set (dx := map Rabs g) in *. rewrite <- E2, E1, Nat.eqb_refl. cbn. set (bc := lsum _) in E.
assert (B : bc <= 1). { unfold bc. fold (dot (map2 (fun a b => sqrt (pos (a * b))) (unit_mass tiny dx p) (unit_mass tiny dx q)) dx). eapply Rle_trans; [apply bc_le; [apply unit_nonneg; assumption|apply unit_nonneg; assumption|exact D|rewrite !unit_length; exact E2]|].
  assert (dot (unit_mass tiny dx p) dx <= 1) by (apply unit_le1; assumption). assert (dot (unit_mass tiny dx q) dx <= 1) by (apply unit_le1; assumption). lra. }
assert (ED : d = - ln (Rmax bc tiny)) by congruence. assert (M : Rmax bc tiny <= 1) by (apply Rmax_lub; assumption). assert (M2 : 0 < Rmax bc tiny) by (eapply Rlt_le_trans; [exact Ti|apply Rmax_r]).
split; [|split].
- rewrite ED. assert (ln (Rmax bc tiny) <= Rmax bc tiny - 1) by (apply ln_le_sub; exact M2). lra.
- rewrite ED. assert (H : ln tiny <= ln (Rmax bc tiny)). { destruct (Rle_lt_or_eq_dec _ _ (Rmax_r bc tiny)) as [H|H]; [left; apply ln_increasing; assumption|rewrite <- H; right; reflexivity]. } lra.
- rewrite <- E. rewrite (map2_comm (fun a b => sqrt (pos (a * b)))) by (intros a b; rewrite Rmult_comm; reflexivity). reflexivity.
Qed.
Theorem wasserstein_pseudometric : forall domain p q r a b c, length p = length domain -> length q = length domain -> length r = length domain ->
  wasserstein_1d tiny domain p q = Ok a -> wasserstein_1d tiny domain q r = Ok b -> wasserstein_1d tiny domain p r = Ok c ->
  0 <= a /\ wasserstein_1d tiny domain q p = Ok a /\ wasserstein_1d tiny domain p p = Ok 0 /\ c <= a + b.
Proof.
intros domain p q r a b c LP LQ LR. unfold wasserstein_1d, with_grid. destruct (gradient domain) as [g|] eqn:G; [|discriminate]. destruct (gradient_length _ _ G) as [LG _]. set (dx := map Rabs g).
assert (LD : length dx = length domain) by (unfold dx; rewrite map_length; exact LG).
assert (D : forall x, In x dx -> 0 <= x) by (intros x; apply abs_nonneg). set (F x := cumsum 0 (map2 Rmult (unit_mass tiny dx x) dx)).
assert (LF : forall x, length x = length domain -> length (F x) = length domain) by (intros x Lx; unfold F; rewrite cumsum_length, map2_length; rewrite unit_length; congruence).
intros Ea Eb Ec. assert (A : a = l1 (F p) (F q) dx) by (injection Ea; intros H; symmetry; exact H). assert (B : b = l1 (F q) (F r) dx) by (injection Eb; intros H; symmetry; exact H). assert (C : c = l1 (F p) (F r) dx) by (injection Ec; intros H; symmetry; exact H).
split; [rewrite A; apply l1_nonneg; exact D|]. split; [rewrite A, l1_comm; reflexivity|]. split; [f_equal; exact (l1_refl (F p) dx)|]. rewrite A, B, C. apply l1_triangle; [exact D|rewrite !LF; auto|rewrite !LF; auto].
Qed.
Theorem kl_nonnegative : forall domain p q d g, length p = length domain -> length q = length domain -> gradient domain = Ok g -> kl_divergence tiny domain p q = Ok d ->
  let mass := lsum (map2 Rmult (map pos p) (map Rabs g)) in - tiny * (1 / (mass + tiny) + lsum (map Rabs g)) <= d /\ kl_divergence tiny domain p p = Ok 0.
Proof.
intros domain p q d g LP LQ G. unfold kl_divergence, with_grid. rewrite G. destruct (gradient_length _ _ G) as [LG _]. set (dx := map Rabs g).
assert (LD : length dx = length domain) by (unfold dx; rewrite map_length; exact LG). assert (D : forall x, In x dx -> 0 <= x) by (intros x; apply abs_nonneg). intros E. set (mass := lsum (map2 Rmult (map pos p) dx)).
assert (ED : d = dot (map2 (fun a b => a * (ln (a + tiny) - ln (b + tiny))) (unit_mass tiny dx p) (unit_mass tiny dx q)) dx) by (unfold dot; congruence).
split.
- assert (H := kl_sum tiny Ti (unit_mass tiny dx p) (unit_mass tiny dx q) dx (unit_nonneg tiny Ti dx p D) (unit_nonneg tiny Ti dx q D) D ltac:(rewrite !unit_length; congruence) ltac:(rewrite unit_length; congruence)).
  destruct (unit_sum tiny dx p D) as [SP MP]. assert (SQ := unit_le1 tiny Ti dx q D). rewrite SP in H. rewrite <- ED in H. change (dot (map pos p) dx) with mass in *.
  assert (X : mass / (mass + tiny) - 1 = - tiny * (1 / (mass + tiny))) by (field; lra). lra.
- f_equal. generalize (unit_mass tiny dx p) as l. generalize dx as k. clear. intros k l. revert k. induction l as [|x l IH]; intros [|y k]; cbn; try reflexivity. rewrite IH. lra.
Qed.
End C91.
Print Assumptions bhattacharyya_distance. Print Assumptions wasserstein_pseudometric. Print Assumptions kl_nonnegative.
Lemma grid01 : gradient [0; 1] = Ok [1; 1] /\ map Rabs [1; 1] = [1; 1].
Proof. split; [unfold gradient; cbn [length Nat.ltb Nat.leb seq map Nat.eqb nth Nat.sub Nat.add]; replace (1 - 0) with 1 by lra; reflexivity|cbn; rewrite Rabs_pos_eq by lra; reflexivity]. Qed.
(** densities on different points: Wasserstein distance 1 up to the guard, Bhattacharyya distance at its maximum *)
Example disjoint : forall tiny, 0 < tiny -> wasserstein_1d tiny [0; 1] [1; 0] [0; 1] = Ok (1 / (1 + tiny)) /\ bhattacharyya tiny [0; 1] [1; 0] [0; 1] = Ok (- ln tiny).
Proof.
intros t T. destruct grid01 as [G A]. assert (P1 : pos 1 = 1) by (apply Rmax_left; lra). assert (P0 : pos 0 = 0) by (apply Rmax_left; lra). split.
- unfold wasserstein_1d, with_grid. rewrite G, A. f_equal. unfold unit_mass. cbn [map map2 lsum cumsum]. rewrite P1, P0.
  match goal with |- Rabs ?x * 1 + (Rabs ?y * 1 + 0) = _ => replace x with (1 / (1 + t)) by (field; lra); replace y with 0 by (field; lra) end.
  rewrite Rabs_R0, Rabs_pos_eq; [lra|]. left. apply Rdiv_lt_0_compat; lra.
- unfold bhattacharyya, with_grid. cbn [length Nat.eqb andb negb]. rewrite G, A. f_equal. unfold unit_mass. cbn [map map2 lsum]. rewrite P1, P0.
  match goal with |- context [sqrt (pos ?x) * 1 + (sqrt (pos ?y) * 1 + 0)] => replace x with 0 by (field; lra); replace y with 0 by (field; lra) end.
  rewrite P0, sqrt_0. f_equal. f_equal. rewrite Rmax_right; lra.
Qed.
(** the slack in [kl_nonnegative] is not idle: a density whose mass is that of the guard has negative divergence from the uniform one *)
Example kl_negative : forall tiny, 0 < tiny -> tiny <= / 8 -> exists d, kl_divergence tiny [0; 1] [tiny / 2; tiny / 2] [1; 1] = Ok d /\ d < 0.
Proof.
intros t T T8. destruct grid01 as [G A]. unfold kl_divergence, with_grid. rewrite G, A. eexists. split; [reflexivity|]. unfold unit_mass. cbn [map map2 lsum].
assert (P1 : pos 1 = 1) by (apply Rmax_left; lra). assert (Pt : pos (t / 2) = t / 2) by (apply Rmax_left; lra). rewrite P1, Pt.
replace (t / 2 / (t / 2 * 1 + (t / 2 * 1 + 0) + t)) with (1 / 4) by (field; lra). replace (1 / (1 * 1 + (1 * 1 + 0) + t)) with (1 / (2 + t)) by (f_equal; lra).
assert (H : ln (1 / 4 + t) < ln (1 / (2 + t) + t)); [|lra]. apply ln_increasing; [lra|]. assert (1 / 4 < 1 / (2 + t)); [|lra].
unfold Rdiv. rewrite !Rmult_1_l. apply Rinv_lt_contravar; lra.
Qed.
