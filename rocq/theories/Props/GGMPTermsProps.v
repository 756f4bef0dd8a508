(** C194, C195: what the mixture weights are fitted to. *)
From Coq Require Import Reals Lra Lia.
From Verif Require Import Model.Prelude Spec.Sums Model.GGMPDensity Model.GGMPTerms Spec.GGMPDensitySpec Spec.GGMPTermsSpec Proofs.GGMPDensityP Props.GGMPDensityProps.
Local Open Scope R_scope.

Lemma ln_sqrt x : 0 < x -> ln (sqrt x) = ln x / 2.
Proof. intros H. assert (0 < sqrt x) by (apply sqrt_lt_R0, H). rewrite <- (sqrt_sqrt x) at 2 by lra. rewrite ln_mult by assumption. lra. Qed.
Lemma gaussian_log m s x : 0 < s -> gaussian m s x = exp (- ((x - m) ^ 2 / (2 * s)) - ln (2 * PI) / 2 - ln s / 2).
Proof.
intros H. assert (P := PI_RGT_0). unfold gaussian. rewrite <- (exp_ln (sqrt (2 * PI * s))) by (apply sqrt_lt_R0; apply Rmult_lt_0_compat; lra).
unfold Rdiv at 1. rewrite <- exp_Ropp, <- exp_plus. f_equal. rewrite ln_sqrt by (apply Rmult_lt_0_compat; lra). rewrite (ln_mult (2 * PI)) by lra. lra.
Qed.
Lemma norm_gaussian x m s : 0 < s -> exp (norm_logpdf x m (sqrt s)) = gaussian m s x.
Proof.
intros H. assert (P := PI_RGT_0). rewrite gaussian_log by exact H. f_equal. unfold norm_logpdf. rewrite !ln_sqrt by lra.
assert (Q : 0 < sqrt s) by (apply sqrt_lt_R0, H). replace (((x - m) / sqrt s) ^ 2) with ((x - m) ^ 2 / s); [field; lra|]. rewrite <- (sqrt_sqrt s) at 1 by lra. field. lra.
Qed.
Lemma mvn_gaussian x m s : 0 < s -> exp (mvn1_logpdf x m s) = gaussian m s x.
Proof. intros H. rewrite gaussian_log by exact H. f_equal. unfold mvn1_logpdf. field. lra. Qed.
Lemma map2_nth {X Y Z} (f : X -> Y -> Z) : forall l m j, nth_error (map2 f l m) j = match nth_error l j, nth_error m j with Some x, Some y => Some (f x y) | _, _ => None end.
Proof. induction l as [|x l IH]; intros [|y m] [|j]; cbn; try reflexivity; [destruct (nth_error l j); reflexivity|apply IH]. Qed.

Section Terms.
Context (K : nat) (mu v : nat -> nat -> R) (lv : nat -> list R).
Notation terms_from := (terms_from mu v lv). Notation prepare := (prepare K mu v lv).
Notation station_variance := (station_variance v lv).
Lemma noise_at l i : at_station l i = noise_of l i.
Proof. destruct l as [|c [|c' l]]; reflexivity. Qed.
Lemma var_station i k : var_total v lv i k = station_variance i k.
Proof. unfold var_total, GGMPTermsSpec.station_variance. rewrite noise_at. reflexivity. Qed.
Lemma var_pos i k : / 10 ^ 9 <= var_total v lv i k.
Proof. unfold var_total. pose proof (Rmax_r (v i k) 0). pose proof (Rmax_r (at_station (lv k) i) (/ 10 ^ 9)). lra. Qed.
Lemma floor_idle i k : Rmax (var_total v lv i k) (/ 10 ^ 12) = var_total v lv i k.
Proof. apply Rmax_left. pose proof (var_pos i k). assert (/ 10 ^ 12 <= / 10 ^ 9); [|lra]. apply Rinv_le_contravar; [lra|]. lra. Qed.

Lemma terms_spec : forall ys n ts, terms_from n ys = Ok ts -> length ts = length ys /\
  forall i d f t, nth_error ys i = Some (d, f) -> nth_error ts i = Some t -> exists p dx, normalize_pdf d f = Ok (d, p, dx) /\ t = map2 (fun x a => (a, log_pdf mu v lv (n + i) x)) d (map2 Rmult p dx).
Proof.
induction ys as [|[d0 f0] ys IH]; intros n ts E; cbn in E.
- injection E as <-. split; [reflexivity|]. intros [|i]; discriminate.
- destruct (normalize_pdf d0 f0) as [[[d1 p] dx]|] eqn:N; [|discriminate]. destruct (terms_from (S n) ys) as [ts'|] eqn:T; [|discriminate]. injection E as <-. destruct (IH _ _ T) as [L H].
  split; [cbn; congruence|]. intros [|i] d f t Y Q; cbn in Y, Q.
  + injection Y as <- <-. injection Q as <-. destruct (normalize_cases _ _ _ _ _ N) as [-> _]. exists p, dx. rewrite Nat.add_0_r. auto.
  + destruct (H i d f t Y Q) as (p' & dx' & A & B). exists p', dx'. split; [exact A|]. rewrite B. replace (n + S i)%nat with (S n + i)%nat by lia. reflexivity.
Qed.
Lemma prepare_terms ys ts ll : prepare ys = Ok (ts, ll) -> terms_from 0 ys = Ok ts /\ (forall k, ll k = rowsum (fun x => fst x * snd x k) ts) /\ forall k, (k < K)%nat -> length (lv k) = length ys \/ length (lv k) = 1%nat.
Proof.
unfold GGMPTerms.prepare. destruct (forallb _ _) eqn:F; [|discriminate]. destruct (terms_from 0 ys) eqn:T; [|discriminate]. intros [= <- <-]. split; [reflexivity|]. split; [reflexivity|].
intros k Hk. rewrite forallb_forall in F. specialize (F k ltac:(apply in_seq; lia)). apply orb_true_iff in F. destruct F as [F|F]; apply Nat.eqb_eq in F; auto.
Qed.
Lemma map2_fst (g : R -> nat -> R) : forall d m, length d = length m -> lsum (map fst (map2 (fun x a => (a, g x)) d m)) = lsum m.
Proof. induction d as [|x d IH]; intros [|a m] L; cbn in *; try lia; [reflexivity|]. rewrite IH by lia. reflexivity. Qed.

(** the rows of a station *)
Lemma station_rows ys ts i d f t : terms_from 0 ys = Ok ts -> nth_error ys i = Some (d, f) -> nth_error ts i = Some t ->
  exists p dx, normalize_pdf d f = Ok (d, p, dx) /\ length t = length d /\
    (forall x, In x t -> 0 <= fst x) /\ 0 < lsum (map fst t) <= 1 /\ ((0 < lsum (map2 Rmult p dx) -> lsum (map fst t) = lsum (map2 Rmult p dx))) /\
    forall j x, nth_error d j = Some x -> exists a g, nth_error t j = Some (a, g) /\ a = nth j p 0 * nth j dx 0 /\ forall k, exp (g k) = gaussian (mu i k) (station_variance i k) x.
Proof.
intros T Y S. destruct (proj2 (terms_spec _ _ _ T) i d f t Y S) as (p & dx & N & E). exists p, dx. split; [exact N|]. cbn [Nat.add] in E.
destruct (normalize_cases _ _ _ _ _ N) as (_ & Lp & Ld & L2 & Pp & Pd & M).
assert (LM : length d = length (map2 Rmult p dx)) by (rewrite map2_length; congruence).
assert (SM : lsum (map fst t) = lsum (map2 Rmult p dx)) by (rewrite E; apply map2_fst, LM).
split; [rewrite E, map2_length; [reflexivity|exact LM]|]. split; [|split; [|split; [intros _; exact SM|]]].
- intros x I. apply In_nth_error in I. destruct I as [j I]. rewrite E, map2_nth in I. destruct (nth_error d j); [|discriminate]. destruct (nth_error (map2 Rmult p dx) j) as [a|] eqn:A; [|discriminate]. injection I as <-. cbn.
  apply (map2_nonneg p dx Pp Pd). exact (nth_error_In _ _ A).
- rewrite SM. assert (NI : 2 <= INR (length d)) by (change 2 with (INR 2); apply le_INR; exact L2).
  destruct M as [(f' & g & _ & _ & _ & _ & _ & ->)|[_ ->]]; [lra|]. split; [apply Rdiv_lt_0_compat; lra|]. apply (Rmult_le_reg_r (INR (length d))); [lra|]. unfold Rdiv. rewrite Rmult_assoc, Rinv_l by lra. lra.
- intros j x D. assert (J : (j < length d)%nat) by (apply nth_error_Some; congruence).
  assert (A : nth_error (map2 Rmult p dx) j = Some (nth j p 0 * nth j dx 0)) by (rewrite map2_nth, (nth_error_nth' p 0), (nth_error_nth' dx 0); [reflexivity|congruence|congruence]).
  exists (nth j p 0 * nth j dx 0), (log_pdf mu v lv i x). split; [rewrite E, map2_nth, D, A; reflexivity|]. split; [reflexivity|].
  intros k. unfold log_pdf. rewrite floor_idle. rewrite <- var_station. apply norm_gaussian. pose proof (var_pos i k). assert (0 < / 10 ^ 9) by (apply Rinv_0_lt_compat; lra). lra.
Qed.

Lemma total_bounds (ts : list station) : (forall t, In t ts -> 0 < lsum (map fst t) <= 1) -> (ts <> [] -> 0 < total ts) /\ 0 <= total ts <= INR (length ts).
Proof.
unfold total, rowsum. induction ts as [|t ts IH]; intros H; [split; [congruence|cbn; lra]|]. destruct IH as [_ IH]; [intros; apply H; right; assumption|]. specialize (H t (or_introl eq_refl)).
cbn [map lsum length]. rewrite S_INR. change (lsum (map fst t)) with (lsum (@map row R fst t)) in H. set (a := lsum (map fst t)) in *. destruct H as [H1 H2], IH as [IH1 IH2]. split; [intros _|split]; lra.
Qed.

(** C195: the terms of a station are the masses of its normalised density, with the densities of the components' predictions of new observations there; they
    weigh one station at most one *)
Theorem density_terms : forall ys ts ll, prepare ys = Ok (ts, ll) ->
  length ts = length ys /\ weighted ts /\ (ys <> [] -> 0 < total ts) /\ total ts <= INR (length ys) /\
  (forall i d f t, nth_error ys i = Some (d, f) -> nth_error ts i = Some t ->
     exists p dx, normalize_pdf d f = Ok (d, p, dx) /\ length t = length d /\
       forall j x, nth_error d j = Some x -> exists a g, nth_error t j = Some (a, g) /\ a = nth j p 0 * nth j dx 0 /\
         forall k, (k < K)%nat -> exp (g k) = gaussian (mu i k) (station_variance i k) x) /\
  (forall k, ll k = rowsum (fun x => fst x * ln (exp (snd x k))) ts).
Proof.
intros ys ts ll E. destruct (prepare_terms _ _ _ E) as (T & LL & _). destruct (terms_spec _ _ _ T) as [L _].
assert (ROW : forall t, In t ts -> exists i d f, nth_error ys i = Some (d, f) /\ nth_error ts i = Some t).
{ intros t I. apply In_nth_error in I. destruct I as [i I]. destruct (nth_error ys i) as [[d f]|] eqn:Y; [eauto|]. apply nth_error_None in Y. assert (i < length ts)%nat by (apply nth_error_Some; congruence). lia. }
assert (B : forall t, In t ts -> 0 < lsum (map fst t) <= 1).
{ intros t I. destruct (ROW t I) as (i & d & f & Y & S). destruct (station_rows ys ts i d f t T Y S) as (p & dx & _ & _ & _ & H & _). exact H. }
destruct (total_bounds ts B) as [T1 T2]. split; [exact L|]. split; [|split; [|split; [|split]]].
- intros t x I J. destruct (ROW t I) as (i & d & f & Y & S). destruct (station_rows ys ts i d f t T Y S) as (p & dx & _ & _ & H & _). exact (H x J).
- intros N. apply T1. intros ->. destruct ys; [congruence|discriminate].
- rewrite <- L. lra.
- intros i d f t Y S. destruct (station_rows ys ts i d f t T Y S) as (p & dx & N & LT & _ & _ & _ & R). exists p, dx. split; [exact N|]. split; [exact LT|].
  intros j x D. destruct (R j x D) as (a & g & A1 & A2 & A3). exists a, g. auto.
- intros k. rewrite LL. apply rowsum_ext. intros. rewrite ln_exp. reflexivity.
Qed.

(** C195: densities on grids of two points at least are never refused when the noise fits the stations *)
Theorem density_terms_total : forall ys, ((forall k, (k < K)%nat -> length (lv k) = length ys \/ length (lv k) = 1%nat) /\ forall d f, In (d, f) ys -> length d = length f /\ (2 <= length d)%nat) <->
  exists ts ll, prepare ys = Ok (ts, ll).
Proof.
intros ys. split.
- intros [H D]. unfold GGMPTerms.prepare. assert (F : forallb (fun k => (length (lv k) =? length ys)%nat || (length (lv k) =? 1)%nat) (seq 0 K) = true).
  { apply forallb_forall. intros k I. apply in_seq in I. destruct (H k ltac:(lia)) as [E|E]; rewrite E, Nat.eqb_refl; [reflexivity|apply orb_true_r]. }
  rewrite F. clear F H. assert (X : exists ts, terms_from 0 ys = Ok ts); [|destruct X as [ts ->]; eauto]. generalize 0%nat. induction ys as [|[d f] ys IH]; intros n; [cbn; eauto|]. cbn [GGMPTerms.terms_from].
  destruct (D d f (or_introl eq_refl)) as [L L2]. assert (N : exists q, normalize_pdf d f = Ok q).
  { unfold normalize_pdf. rewrite L, Nat.eqb_refl. cbn [negb]. unfold gradient. replace (length d <? 2)%nat with false by (symmetry; apply Nat.ltb_ge; lia). destruct (all_some f); [destruct (Rle_dec _ 0)|]; eauto. }
  destruct N as [[[dom p] dx] ->]. destruct (IH ltac:(intros; apply D; right; assumption) (S n)) as [ts ->]. eauto.
- intros (ts & ll & E). destruct (prepare_terms _ _ _ E) as (T & _ & H). split; [exact H|]. intros d f I. apply In_nth_error in I. destruct I as [i I].
  destruct (terms_spec _ _ _ T) as [L TS]. destruct (nth_error ts i) as [t|] eqn:Q; [|apply nth_error_None in Q; assert (i < length ys)%nat by (apply nth_error_Some; congruence); lia].
  destruct (TS i d f t I Q) as (p & dx & N & _). destruct (normalize_cases _ _ _ _ _ N) as (_ & _ & _ & L2 & _). split; [|exact L2].
  unfold normalize_pdf in N. destruct (length d =? length f)%nat eqn:E2; [apply Nat.eqb_eq; exact E2|discriminate].
Qed.
(** C195: so for at least one station the fitted weights are positive and sum to one, and the fit never loses more than the floor explains *)
Theorem density_weights : forall ys tiny floor tol max_iter w0 w wh oh, (0 < K)%nat -> 0 < tiny -> 0 <= floor -> ys <> [] ->
  weights_density K mu v lv tiny floor tol max_iter w0 ys = Ok (w, wh, oh) ->
  simplex K w /\ Forall (simplex K) wh /\ length oh = length wh /\
  (exists ts ll, prepare ys = Ok (ts, ll) /\ forall i, (i < length oh)%nat -> let u := nth i (w0 :: wh) w0 in
     (forall k, (k < K)%nat -> tiny <= u k) -> (i = 0%nat -> simplex K w0 /\ forall k, (k < K)%nat -> / 1000000000000 <= w0 k) -> nth i oh 0 = loglik K ts u) /\
  forall i, (S i < length oh)%nat -> nth i oh 0 - INR (length ys) * (ln (1 + INR K * tiny) + ln (1 + INR K * floor)) <= nth (S i) oh 0.
Proof.
intros ys tiny floor tol n w0 w wh oh K1 Ti Fl NE E. unfold weights_density in E. destruct (prepare ys) as [[ts ll]|] eqn:P; [|discriminate].
destruct (density_terms ys ts ll P) as (L & W & T & TB & _). specialize (T NE). injection E as E.
destruct (em_on_simplex K tiny 0 floor tol ts K1 Ti (Rle_refl 0) W T n (Some w0) w wh oh E) as (S1 & S2 & S3 & S4 & S5).
split; [exact S1|]. split; [exact S2|]. split; [exact S3|]. split.
{ exists ts, ll. split; [reflexivity|]. intros i Hi u U Z. destruct (em_monotone K tiny 0 floor tol ts K1 Ti (Rle_refl 0) Fl W T n (Some w0) w wh oh E i) as [H _]; [lia|].
  assert (Q : forall k, (k < K)%nat -> nth i (em_start K (Some w0) :: wh) (em_start K (Some w0)) k = u k).
  { destruct i as [|i]; [|intros; cbn; unfold u; cbn; rewrite (nth_indep wh _ w0) by lia; reflexivity]. destruct (Z eq_refl) as [[_ Z1] Z2]. intros k Hk. unfold u. cbn.
    rewrite (rsum_ext _ w0) by (intros j Hj; apply Rmax_left, Z2, Hj). rewrite Z1, Rmax_left by (apply Z2, Hk). field. }
  rewrite (proj1 (H ltac:(intros k Hk; rewrite Q by exact Hk; apply U, Hk))). unfold loglik. apply rowsum_ext. intros t x _ _. do 2 f_equal. apply rsum_ext. intros k Hk. rewrite Q by exact Hk. reflexivity. }
intros i Hi.
destruct (em_monotone K tiny 0 floor tol ts K1 Ti (Rle_refl 0) Fl W T n (Some w0) w wh oh E i) as [_ H]; [lia|]. specialize (H Hi).
replace ((total ts + 0) / total ts) with 1 in H by (field; lra). rewrite Rmult_1_r in H.
assert (IK : 0 <= INR K) by apply pos_INR.
assert (G : forall u, 0 <= u -> 0 <= ln (1 + u)). { intros u [U| <-]; [left; rewrite <- ln_1; apply ln_increasing; lra|rewrite Rplus_0_r, ln_1; lra]. }
assert (G1 := G (INR K * tiny) ltac:(apply Rmult_le_pos; lra)). assert (G2 := G (INR K * floor) ltac:(apply Rmult_le_pos; lra)).
assert (total ts * (ln (1 + INR K * tiny) + ln (1 + INR K * floor)) <= INR (length ys) * (ln (1 + INR K * tiny) + ln (1 + INR K * floor))) by (apply Rmult_le_compat_r; lra). lra.
Qed.

Lemma sample_rows : forall used ts, sample_from K mu v lv used = Ok ts -> ts = map (fun e => sample_station mu v lv (fst e) (snd e)) used /\
  forall i y, In (i, y) used -> y <> [] /\ forall k, (k < K)%nat -> 0 < sample_var v lv i k.
Proof.
induction used as [|[i y] used IH]; intros ts E; cbn in E; [injection E as <-; split; [reflexivity|intros ? ? []]|].
destruct (length y =? 0)%nat eqn:L; [discriminate|]. destruct (positive_vars K v lv i) eqn:P; [|discriminate]. destruct (sample_from K mu v lv used) as [ts'|] eqn:Q; [|discriminate]. injection E as <-.
destruct (IH _ eq_refl) as [-> H]. split; [reflexivity|]. intros i' y' [[= <- <-]|I]; [|exact (H _ _ I)]. split; [intros ->; discriminate|].
intros k Hk. unfold positive_vars in P. rewrite forallb_forall in P. specialize (P k ltac:(apply in_seq; lia)). destruct (Rlt_dec 0 (sample_var v lv i k)); [assumption|discriminate].
Qed.
Lemma ones (i : nat) (y : list R) : lsum (map fst (sample_station mu v lv i y)) = INR (length y).
Proof. unfold sample_station. rewrite map_map. induction y as [|x y IH]; [reflexivity|]. cbn [map lsum length fst] in *. rewrite S_INR, IH. lra. Qed.
Lemma combine_nth_error {X Y} : forall (l : list X) (m : list Y) j, nth_error (combine l m) j = match nth_error l j, nth_error m j with Some x, Some y => Some (x, y) | _, _ => None end.
Proof. induction l as [|x l IH]; intros [|y m] [|j]; cbn; try reflexivity; [destruct (nth_error l j); reflexivity|apply IH]. Qed.

(** C195: fitted to samples, the weights maximise the sum over the samples of the stations that have any; samples beyond the stations count for nothing *)
Theorem sample_weights : forall n ys tiny extra floor tol max_iter w0 w wh oh, (0 < K)%nat -> 0 < tiny -> 0 <= extra -> (0 < n)%nat -> ys <> [] -> (0 < max_iter)%nat ->
  weights_samples K mu v lv n tiny extra floor tol max_iter w0 ys = Ok (w, wh, oh) ->
  exists ts, em K tiny extra floor tol ts max_iter (Some w0) = (w, wh, oh) /\ simplex K w /\ weighted ts /\ 0 < total ts /\
    length ts = Nat.min n (length ys) /\
    (forall u, loglik K ts u = rowsum (fun x => ln (rsum (fun k => u k * exp (snd x k)) K)) ts) /\
    (forall i y, (i < n)%nat -> nth_error ys i = Some y -> exists t, nth_error ts i = Some t /\ length t = length y /\
       forall j x, nth_error y j = Some x -> exists g, nth_error t j = Some (1, g) /\
         forall k, (k < K)%nat -> exp (g k) = gaussian (mu i k) (sample_var v lv i k) x).
Proof.
intros n ys tiny extra floor tol mi w0 w wh oh K1 Ti Ex Hn NE M E. unfold weights_samples in E. replace (mi =? 0)%nat with false in E by (symmetry; apply Nat.eqb_neq; lia).
destruct (sample_from K mu v lv (combine (seq 0 n) ys)) as [ts|] eqn:Q; [|discriminate]. injection E as E. destruct (sample_rows _ _ Q) as [T P]. exists ts. split; [exact E|].
assert (W : forall t x, In t ts -> In x t -> fst x = 1). { intros t x I J. rewrite T in I. apply in_map_iff in I. destruct I as (e & <- & _). unfold sample_station in J. apply in_map_iff in J. destruct J as (z & <- & _). reflexivity. }
assert (W0 : weighted ts) by (intros t x I J; rewrite (W t x I J); lra).
assert (TP : 0 < total ts).
{ unfold total, rowsum. rewrite T, map_map. destruct n as [|n]; [lia|]. destruct ys as [|y ys]; [congruence|]. cbn [seq combine] in P |- *. cbn [map lsum fst snd].
  change (lsum (map fst (sample_station mu v lv 0 y))) with (lsum (@map row R fst (sample_station mu v lv 0 y))). rewrite ones.
  assert (Y : y <> []) by (apply (P 0%nat y); left; reflexivity). assert (0 < INR (length y)) by (apply lt_0_INR; destruct y; [congruence|cbn; lia]).
  match goal with |- 0 < _ + ?s => assert (0 <= s) end; [|lra]. apply lsum_nonneg. intros x I. apply in_map_iff in I. destruct I as (e & <- & _). change (0 <= lsum (@map row R fst (sample_station mu v lv (fst e) (snd e)))). rewrite ones. apply pos_INR. }
split; [exact (proj1 (em_on_simplex K tiny extra floor tol ts K1 Ti Ex W0 TP mi (Some w0) w wh oh E))|]. split; [exact W0|]. split; [exact TP|].
split; [rewrite T, map_length, combine_length, seq_length; reflexivity|]. split.
- intros u. unfold loglik. apply rowsum_ext. intros t x I J. rewrite (W t x I J). apply Rmult_1_l.
- intros i y Hi Y. exists (sample_station mu v lv i y).
  assert (C : nth_error (combine (seq 0 n) ys) i = Some (i, y)). { rewrite combine_nth_error, Y. rewrite (nth_error_nth' (seq 0 n) 0%nat) by (rewrite seq_length; exact Hi). rewrite seq_nth by exact Hi. reflexivity. }
  split; [rewrite T; exact (map_nth_error _ _ _ C)|]. split; [unfold sample_station; apply map_length|]. intros j x X. eexists. split; [unfold sample_station; rewrite (map_nth_error _ _ _ X); reflexivity|].
  intros k Hk. apply mvn_gaussian. exact (proj2 (P i y (nth_error_In _ _ C)) k Hk).
Qed.

Lemma simplex_normalized w k : simplex K w -> normalized K w k = w k.
Proof. intros [_ S]. unfold normalized. rewrite S. field. Qed.
Lemma reported w i : simplex K w -> mix_mean K w (mu i) = mean_of_mixture K w (mu i) /\
  mix_var K w (mu i) (v i) lv = variance_of_mixture K w (mu i) (fun k => v i k + mean (lv k)).
Proof.
intros S. assert (M : mix_mean K w (mu i) = mean_of_mixture K w (mu i)) by (apply rsum_ext; intros k _; rewrite simplex_normalized by exact S; reflexivity). split; [exact M|].
unfold mix_var, variance_of_mixture. rewrite <- M, <- rsum_plus. apply rsum_ext. intros k _. rewrite simplex_normalized by exact S. ring.
Qed.
Lemma variance_diff w m s s' : variance_of_mixture K w m s - variance_of_mixture K w m s' = rsum (fun k => w k * (s k - s' k)) K.
Proof. unfold variance_of_mixture. set (f := fun k => w k * (s k + (m k - mean_of_mixture K w m) ^ 2)). set (g := fun k => w k * (s' k + (m k - mean_of_mixture K w m) ^ 2)).
replace (rsum f K) with (rsum (fun k => g k + w k * (s k - s' k)) K) by (apply rsum_ext; intros; unfold f, g; ring). rewrite rsum_plus. ring. Qed.

(** C194: the reported moments are those of the fitted mixture up to the noise of the station against the mean noise; they agree if a component has the
    same noise everywhere, and for weights fitted to samples up to the ridge *)
Theorem fitted_is_reported_partial : forall w i, simplex K w ->
  mix_mean K w (mu i) = mean_of_mixture K w (mu i) /\
  ((forall k, (k < K)%nat -> 0 <= v i k /\ / 10 ^ 9 <= noise_of (lv k) i) ->
     mix_var K w (mu i) (v i) lv - variance_of_mixture K w (mu i) (station_variance i) = rsum (fun k => w k * (mean (lv k) - noise_of (lv k) i)) K /\
     ((forall k, (k < K)%nat -> mean (lv k) = noise_of (lv k) i) -> mix_var K w (mu i) (v i) lv = variance_of_mixture K w (mu i) (station_variance i))) /\
  variance_of_mixture K w (mu i) (sample_var v lv i) = mix_var K w (mu i) (v i) lv + / 10 ^ 9.
Proof.
intros w i S. destruct (reported w i S) as [M V]. split; [exact M|]. split.
- intros H. assert (D : mix_var K w (mu i) (v i) lv - variance_of_mixture K w (mu i) (station_variance i) = rsum (fun k => w k * (mean (lv k) - noise_of (lv k) i)) K).
  { rewrite V, variance_diff. apply rsum_ext. intros k Hk. destruct (H k Hk) as [H1 H2]. unfold GGMPTermsSpec.station_variance. rewrite !Rmax_left by assumption. ring. }
  split; [exact D|]. intros Q. rewrite (rsum_ext _ (fun k => 0 * w k)) in D by (intros k Hk; rewrite (Q k Hk); ring). rewrite rsum_scal in D. lra.
- rewrite V. assert (D := variance_diff w (mu i) (sample_var v lv i) (fun k => v i k + mean (lv k))).
  rewrite (rsum_ext _ (fun k => / 10 ^ 9 * w k)) in D by (intros k Hk; unfold sample_var; ring). rewrite rsum_scal, (proj2 S) in D. lra.
Qed.
End Terms.

(** C194: with noise that differs between the stations, the variance reported at a station is not that of the mixture the weights were fitted for *)
Theorem fitted_is_reported_refuted : ~ (forall K mu v lv w i, (0 < K)%nat -> simplex K w -> (forall k, 0 <= v i k) -> (forall k x, In x (lv k) -> / 10 ^ 9 <= x) -> (forall k, (i < length (lv k))%nat) ->
  mix_var K w (mu i) (v i) lv = variance_of_mixture K w (mu i) (station_variance v lv i)).
Proof.
intros H. assert (T9 : / 10 ^ 9 <= 1) by (rewrite <- Rinv_1; apply Rinv_le_contravar; lra).
specialize (H 1%nat (fun _ _ => 0) (fun _ _ => 1) (fun _ => [1; 3]) (fun _ => 1) 0%nat ltac:(lia)).
assert (E := H ltac:(split; [intros; lra|cbn; lra]) ltac:(intros; lra) ltac:(intros k x [<-|[<-|[]]]; lra) ltac:(intros; cbn; lia)). clear H.
unfold mix_var, variance_of_mixture, mean_of_mixture, station_variance, noise_of in E. cbn [nth] in E. rewrite !Rmax_left in E by lra.
cbv [mix_mean normalized rsum mean lsum length INR] in E. lra.
Qed.

Print Assumptions sample_weights. Print Assumptions fitted_is_reported_partial. Print Assumptions fitted_is_reported_refuted.

(** two stations on the grids 0, 1, 2 and 0, 1, one component with noise 1 and 3 there and posterior variance 1: the masses of the first station are 1/4, 1/2, 1/4 *)
Example terms_ex : exists ts ll, prepare 1 (fun _ _ => 1) (fun _ _ => 1) (fun _ => [1; 3]) [([0; 1; 2], [Some 1; Some 2; Some 1]); ([0; 1], [Some 1; Some 1])] = Ok (ts, ll) /\
  map (map fst) ts = [[/ 4; / 2; / 4]; [/ 2; / 2]] /\
  map (map (fun x => exp (snd x 0%nat))) ts = [[gaussian 1 2 0; gaussian 1 2 1; gaussian 1 2 2]; [gaussian 1 4 0; gaussian 1 4 1]].
Proof.
assert (N1 : normalize_pdf [0; 1; 2] [Some 1; Some 2; Some 1] = Ok ([0; 1; 2], [/ 4; / 2; / 4], [1; 1; 1])).
{ assert (G : gradient [0; 1; 2] = Ok [1; 1; 1]) by (cbv [gradient length Nat.ltb Nat.leb map seq nth Nat.eqb Nat.sub Nat.add]; do 2 f_equal; [lra|f_equal; [lra|f_equal; lra]]).
  unfold normalize_pdf. rewrite G. cbn [length Nat.eqb negb all_some option_map map map2 lsum]. unfold pos. rewrite !Rmax_left, !Rabs_pos_eq by lra. destruct (Rle_dec _ 0); [exfalso; lra|]. repeat f_equal; field. }
assert (N2 : normalize_pdf [0; 1] [Some 1; Some 1] = Ok ([0; 1], [/ 2; / 2], [1; 1])).
{ assert (G : gradient [0; 1] = Ok [1; 1]) by (cbv [gradient length Nat.ltb Nat.leb map seq nth Nat.eqb Nat.sub Nat.add]; do 2 f_equal; [lra|f_equal; lra]).
  unfold normalize_pdf. rewrite G. cbn [length Nat.eqb negb all_some option_map map map2 lsum]. unfold pos. rewrite !Rmax_left, !Rabs_pos_eq by lra. destruct (Rle_dec _ 0); [exfalso; lra|]. repeat f_equal; field. }
unfold prepare. cbn [forallb seq length Nat.eqb orb andb terms_from]. rewrite N1, N2. eexists _, _. split; [reflexivity|]. cbn [map map2 fst snd]. split; [repeat f_equal; lra|].
assert (T9 : / 10 ^ 9 <= 1) by (rewrite <- Rinv_1; apply Rinv_le_contravar; lra).
unfold log_pdf. rewrite !floor_idle. unfold var_total, at_station. cbn [length Nat.eqb nth]. rewrite !(Rmax_left _ (/ 10 ^ 9)), !Rmax_left by lra. rewrite !norm_gaussian by lra.
replace (1 + 3) with 4 by lra. replace (1 + 1) with 2 by lra. reflexivity.
Qed.
Print Assumptions density_terms_total. Print Assumptions density_terms. Print Assumptions density_weights.
