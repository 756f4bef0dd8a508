(** The observed-versus-predicted plot and the 1-d Gaussian: C197, C198. *)
From Coq Require Import Reals Lra Lia List Arith.
From Coquelicot Require Import Coquelicot.
From Verif Require Import Model.Prelude Model.ObsPlot Spec.ObsPlotSpec Spec.MetricsSpec Proofs.NormalP Proofs.GaussP Model.GGMPTerms.
Import ListNotations.
Local Open Scope R_scope.

(** ** flat arrays *)
Lemma nth_concat (r : list (list R)) : forall T p t, (forall x, In x r -> length x = T) -> (p < length r)%nat -> (t < T)%nat ->
  nth (p * T + t) (concat r) 0 = nth t (nth p r []) 0.
Proof.
induction r as [|x r IH]; intros T p t L Hp Ht; [cbn in Hp; lia|]. cbn [concat].
assert (Lx : length x = T) by (apply L; left; reflexivity).
destruct p as [|p]; [cbn [Nat.mul Nat.add nth]; apply app_nth1; lia|].
rewrite app_nth2 by nia. replace (S p * T + t - length x)%nat with (p * T + t)%nat by nia. cbn [nth].
apply IH; [intros z Hz; apply L; right; exact Hz|cbn in Hp; lia|exact Ht].
Qed.
Lemma concat_len (r : list (list R)) : forall T, (forall x, In x r -> length x = T) -> length (concat r) = (length r * T)%nat.
Proof.
induction r as [|x r IH]; intros T L; [reflexivity|]. cbn [concat length]. rewrite app_length, (L x (or_introl eq_refl)), (IH T); [lia|].
intros z Hz; apply L; right; exact Hz.
Qed.
Lemma flat_len n T a : shape n T a -> length (flat a) = (n * T)%nat.
Proof. destruct a as [l|r]; cbn; intros [L K]; [subst; lia|]. rewrite (concat_len r T K). lia. Qed.
Lemma flat_nth n T a p t : shape n T a -> (p < n)%nat -> (t < T)%nat -> nth (p * T + t) (flat a) 0 = val_at a p t.
Proof.
destruct a as [l|r]; cbn; intros [L K] Hp Ht; [subst; replace (p * 1 + t)%nat with p by lia; reflexivity|].
apply nth_concat; [exact K|lia|exact Ht].
Qed.
Lemma std_sqrt v : std_of v (sqrt (Rmax v 0)).
Proof.
split; [apply sqrt_pos|]. split; intros H.
- rewrite Rmax_left by lra. apply sqrt_sqrt; lra.
- rewrite Rmax_right by lra. apply sqrt_0.
Qed.
Lemma std_unique v s s' : std_of v s -> std_of v s' -> s = s'.
Proof.
intros [P [A B]] [P' [A' B']]. destruct (Rle_dec v 0) as [H|H]; [rewrite B, B' by exact H; reflexivity|].
specialize (A ltac:(lra)); specialize (A' ltac:(lra)). nra.
Qed.
Lemma fold_min r : forall v, let m := fold_left Rmin r v in m <= v /\ (forall x, In x r -> m <= x) /\ (m = v \/ In m r).
Proof.
induction r as [|a r IH]; intros v; cbn; [split; [lra|]; split; [contradiction|left; reflexivity]|].
destruct (IH (Rmin v a)) as [A [B C]]. pose proof (Rmin_l v a); pose proof (Rmin_r v a).
split; [lra|]. split; [intros x [<-|Hx]; [lra|apply B, Hx]|].
destruct C as [C|C]; [|right; right; exact C]. rewrite C. unfold Rmin. destruct (Rle_dec v a); auto.
Qed.
Lemma fold_max r : forall v, let m := fold_left Rmax r v in v <= m /\ (forall x, In x r -> x <= m) /\ (m = v \/ In m r).
Proof.
induction r as [|a r IH]; intros v; cbn; [split; [lra|]; split; [contradiction|left; reflexivity]|].
destruct (IH (Rmax v a)) as [A [B C]]. pose proof (Rmax_l v a); pose proof (Rmax_r v a).
split; [lra|]. split; [intros x [<-|Hx]; [lra|apply B, Hx]|].
destruct C as [C|C]; [|right; right; exact C]. rewrite C. unfold Rmax. destruct (Rle_dec v a); auto.
Qed.
Lemma amin_ok l : l <> [] -> exists m, amin l = Some m /\ In m l /\ forall x, In x l -> m <= x.
Proof.
destruct l as [|v r]; [contradiction|]; intros _. exists (fold_left Rmin r v). destruct (fold_min r v) as [A [B C]].
split; [reflexivity|]. split; [destruct C as [->|C]; [left; reflexivity|right; exact C]|]. intros x [<-|Hx]; auto.
Qed.
Lemma amax_ok l : l <> [] -> exists m, amax l = Some m /\ In m l /\ forall x, In x l -> x <= m.
Proof.
destruct l as [|v r]; [contradiction|]; intros _. exists (fold_left Rmax r v). destruct (fold_max r v) as [A [B C]].
split; [reflexivity|]. split; [destruct C as [->|C]; [left; reflexivity|right; exact C]|]. intros x [<-|Hx]; auto.
Qed.
Lemma nonempty {A} (l : list A) : (0 < length l)%nat -> l <> [].
Proof. destruct l; cbn; [lia|discriminate]. Qed.

Lemma shows_ext n T r y m m' v v' : shows n T r y m v -> (forall p t, (p < n)%nat -> (t < T)%nat -> m p t = m' p t) ->
  (forall p t, (p < n)%nat -> (t < T)%nat -> v p t = v' p t) -> shows n T r y m' v'.
Proof.
intros [pic [E [L [D [S1 [S2 S3]]]]]] Em Ev. exists pic. split; [exact E|]. split; [exact L|]. split.
{ intros p t Hp Ht. rewrite <- Em, <- Ev by assumption. apply D; assumption. }
assert (X : forall z, (exists p t s, (p < n)%nat /\ (t < T)%nat /\ std_of (v p t) s /\ (z = y p t \/ z = m p t - s \/ z = m p t + s)) <->
  (exists p t s, (p < n)%nat /\ (t < T)%nat /\ std_of (v' p t) s /\ (z = y p t \/ z = m' p t - s \/ z = m' p t + s))).
{ intros z. split; intros [p [t [s [Hp [Ht H]]]]]; exists p, t, s; (split; [exact Hp|]); (split; [exact Ht|]); [rewrite <- Em, <- Ev|rewrite Em, Ev]; assumption. }
split; [intros z Hz; apply S1, X, Hz|]. split; apply X; assumption.
Qed.
Lemma plot_pairs : forall n T y m v, shape n T y -> shape n T m -> shape n T v -> (0 < n * T)%nat ->
  shows n T (obs_plot y m v) (val_at y) (val_at m) (val_at v).
Proof.
intros n T y m v Sy Sm Sv Pos. unfold obs_plot.
pose proof (flat_len n T y Sy) as Ly; pose proof (flat_len n T m Sm) as Lm; pose proof (flat_len n T v Sv) as Lv.
set (e := map (fun v => sqrt (Rmax v 0)) (flat v)). assert (Le : length e = (n * T)%nat) by (unfold e; rewrite map_length; exact Lv).
rewrite Ly, Lm, Nat.eqb_refl. cbn [negb]. unfold broadcast. rewrite Le, Nat.eqb_refl.
set (below := map _ (combine _ e)). set (above := map (fun p => fst p + snd p) _).
assert (Lb : length below = (n * T)%nat) by (unfold below; rewrite map_length, combine_length; lia).
assert (La : length above = (n * T)%nat) by (unfold above; rewrite map_length, combine_length; lia).
destruct (amin_ok (flat y)) as [a [Ea [Ia Ma]]]; [apply nonempty; lia|]. destruct (amin_ok below) as [b [Eb [Ib Mb]]]; [apply nonempty; lia|].
destruct (amax_ok (flat y)) as [c [Ec [Ic Mc]]]; [apply nonempty; lia|]. destruct (amax_ok above) as [d [Ed [Id Md]]]; [apply nonempty; lia|].
rewrite Ea, Eb, Ec, Ed. eexists. split; [reflexivity|]. cbn [drawn line_lo line_hi].
assert (Ne : forall i, (i < n * T)%nat -> nth i e 0 = sqrt (Rmax (nth i (flat v) 0) 0)).
{ intros i Hi. unfold e. rewrite (nth_indep _ 0 (sqrt (Rmax 0 0))) by (rewrite map_length; lia). apply map_nth with (f := fun v => sqrt (Rmax v 0)). }
assert (IX : forall p t, (p < n)%nat -> (t < T)%nat -> (p * T + t < n * T)%nat) by (intros p t Hp Ht; nia).
assert (XI : forall i, (i < n * T)%nat -> exists p t, (p < n)%nat /\ (t < T)%nat /\ i = (p * T + t)%nat).
{ intros i Hi. assert (T0 : T <> 0%nat) by nia. exists (i / T)%nat, (i mod T)%nat. pose proof (Nat.div_mod i T T0). pose proof (Nat.mod_upper_bound i T T0).
  split; [apply Nat.div_lt_upper_bound; [exact T0|nia]|]. split; [assumption|lia]. }
assert (En : forall p t, (p < n)%nat -> (t < T)%nat -> std_of (val_at v p t) (nth (p * T + t) e 0)).
{ intros p t Hp Ht. rewrite Ne by (apply IX; assumption). rewrite (flat_nth n T v p t Sv Hp Ht). apply std_sqrt. }
assert (Nb : forall i, (i < n * T)%nat -> nth i below 0 = nth i (flat m) 0 - nth i e 0 /\ nth i above 0 = nth i (flat m) 0 + nth i e 0).
{ intros i Hi. unfold below, above. split.
  - rewrite (nth_indep _ 0 ((fun p => fst p - snd p) (0, 0))) by (fold below; lia). rewrite (map_nth (fun p => fst p - snd p)), combine_nth by lia. reflexivity.
  - rewrite (nth_indep _ 0 ((fun p => fst p + snd p) (0, 0))) by (fold above; lia). rewrite (map_nth (fun p => fst p + snd p)), combine_nth by lia. reflexivity. }
split; [rewrite !combine_length; lia|]. split.
{ intros p t Hp Ht. exists (nth (p * T + t) e 0). split; [apply En; assumption|].
  rewrite (nth_error_nth' _ ((0, 0), 0)) by (rewrite !combine_length; pose proof (IX p t Hp Ht); lia).
  rewrite !combine_nth by (rewrite ?combine_length; lia). rewrite (flat_nth n T y p t Sy Hp Ht), (flat_nth n T m p t Sm Hp Ht). reflexivity. }
assert (In_y : forall x, In x (flat y) -> exists p t, (p < n)%nat /\ (t < T)%nat /\ x = val_at y p t).
{ intros x Hx. apply (In_nth _ _ 0) in Hx as [i [Hi <-]]. destruct (XI i) as [p [t [Hp [Ht ->]]]]; [lia|]. exists p, t. rewrite (flat_nth n T y p t Sy Hp Ht). auto. }
assert (In_b : forall x, In x below -> exists p t, (p < n)%nat /\ (t < T)%nat /\ x = val_at m p t - nth (p * T + t) e 0).
{ intros x Hx. apply (In_nth _ _ 0) in Hx as [i [Hi <-]]. destruct (XI i) as [p [t [Hp [Ht ->]]]]; [lia|]. exists p, t.
  rewrite (proj1 (Nb _ (IX p t Hp Ht))), (flat_nth n T m p t Sm Hp Ht). auto. }
assert (In_a : forall x, In x above -> exists p t, (p < n)%nat /\ (t < T)%nat /\ x = val_at m p t + nth (p * T + t) e 0).
{ intros x Hx. apply (In_nth _ _ 0) in Hx as [i [Hi <-]]. destruct (XI i) as [p [t [Hp [Ht ->]]]]; [lia|]. exists p, t.
  rewrite (proj2 (Nb _ (IX p t Hp Ht))), (flat_nth n T m p t Sm Hp Ht). auto. }
split; [|split].
- intros z [p [t [s [Hp [Ht [Ss Hz]]]]]]. pose proof (std_unique _ _ _ Ss (En p t Hp Ht)) as Es. pose proof (proj1 Ss) as S0. pose proof (IX p t Hp Ht) as Hi.
  assert (Y : In (val_at y p t) (flat y)) by (rewrite <- (flat_nth n T y p t Sy Hp Ht); apply nth_In; lia).
  assert (B : In (val_at m p t - s) below) by (rewrite Es, <- (flat_nth n T m p t Sm Hp Ht), <- (proj1 (Nb _ Hi)); apply nth_In; lia).
  assert (A : In (val_at m p t + s) above) by (rewrite Es, <- (flat_nth n T m p t Sm Hp Ht), <- (proj2 (Nb _ Hi)); apply nth_In; lia).
  pose proof (Ma _ Y); pose proof (Mc _ Y); pose proof (Mb _ B); pose proof (Md _ A).
  pose proof (Rmin_l a b); pose proof (Rmin_r a b); pose proof (Rmax_l c d); pose proof (Rmax_r c d).
  destruct Hz as [-> | [-> | ->]]; lra.
- unfold Rmin. destruct (Rle_dec a b).
  + destruct (In_y a Ia) as [p [t [Hp [Ht E]]]]. exists p, t, (nth (p * T + t) e 0). split; [exact Hp|]. split; [exact Ht|]. split; [apply En; assumption|left; exact E].
  + destruct (In_b b Ib) as [p [t [Hp [Ht E]]]]. exists p, t, (nth (p * T + t) e 0). split; [exact Hp|]. split; [exact Ht|]. split; [apply En; assumption|right; left; exact E].
- unfold Rmax. destruct (Rle_dec c d).
  + destruct (In_a d Id) as [p [t [Hp [Ht E]]]]. exists p, t, (nth (p * T + t) e 0). split; [exact Hp|]. split; [exact Ht|]. split; [apply En; assumption|right; right; exact E].
  + destruct (In_y c Ic) as [p [t [Hp [Ht E]]]]. exists p, t, (nth (p * T + t) e 0). split; [exact Hp|]. split; [exact Ht|]. split; [apply En; assumption|left; exact E].
Qed.

(** * C197 *)
(** for n points and c columns of values (or c tasks): every observation is drawn once, against the prediction of the same point and
    column, with the standard deviation of that prediction, and the line spans exactly what is drawn; test values of another size
    are refused *)
Theorem observed_vs_predicted : forall n c y (m : list (list R)), (0 < n * c)%nat -> length m = n -> (forall r, In r m -> length r = c) ->
  (forall v, length v = n ->
    (shape n c y -> shows n c (gp_plot c y m v) (val_at y) (fun p t => nth t (nth p m []) 0) (fun p t => nth p v 0)) /\
    (length (flat y) <> (n * c)%nat -> gp_plot c y m v = Err PSizes)) /\
  (forall v, length v = n -> (forall r, In r v -> length r = c) ->
    (shape n c y -> shows n c (task_plot y m v) (val_at y) (fun p t => nth t (nth p m []) 0) (fun p t => nth t (nth p v []) 0)) /\
    (length (flat y) <> (n * c)%nat -> task_plot y m v = Err PSizes)).
Proof.
intros n c y m Pos Lm Cm. split.
- intros v Lv. assert (Sm : shape n c (m_x c m)).
  { unfold m_x. destruct (Nat.eqb_spec c 1) as [E|E]; cbn; [|auto]. rewrite (concat_len m c Cm). split; [lia|exact E]. }
  assert (Sv : shape n c (v_x c v)).
  { unfold v_x. destruct (Nat.ltb_spec 1 c) as [E|E]; cbn.
    - rewrite map_length. split; [exact Lv|]. intros x Hx. apply in_map_iff in Hx as [z [<- _]]. apply repeat_length.
    - split; [exact Lv|]. nia. }
  split; intros Hy.
  + apply (shows_ext n c _ (val_at y) (val_at (m_x c m)) _ (val_at (v_x c v)) _); [apply plot_pairs; assumption| |].
    * intros p t Hp Ht. rewrite <- (flat_nth n c (m_x c m) p t Sm Hp Ht).
      replace (flat (m_x c m)) with (concat m) by (unfold m_x; destruct (c =? 1)%nat; reflexivity). apply nth_concat; [exact Cm|lia|exact Ht].
    * intros p t Hp Ht. unfold v_x. destruct (Nat.ltb_spec 1 c) as [E|E]; cbn [val_at]; [|reflexivity].
      rewrite (nth_indep _ [] (repeat 0 c)) by (rewrite map_length; lia). rewrite (map_nth (fun x => repeat x c)).
      rewrite (nth_indep _ 0 (nth p v 0)) by (rewrite repeat_length; exact Ht). apply nth_repeat.
  + unfold gp_plot, obs_plot. rewrite (flat_len n c _ Sm). destruct (Nat.eqb_spec (length (flat y)) (n * c)); [contradiction|reflexivity].
- intros v Lv Cv. assert (Sm : shape n c (A2 m)) by (split; assumption). assert (Sv : shape n c (A2 v)) by (split; assumption). split; intros Hy.
  + apply (plot_pairs n c y (A2 m) (A2 v)); assumption.
  + unfold task_plot, obs_plot. rewrite (flat_len n c _ Sm). destruct (Nat.eqb_spec (length (flat y)) (n * c)); [contradiction|reflexivity].
Qed.
Print Assumptions observed_vs_predicted.
Example plot_ex : exists pic, obs_plot (A1 [1; 5]) (A2 [[2]; [4]]) (A1 [4; -1]) = Ok pic /\ line_lo pic = 0 /\ line_hi pic = 5 /\ drawn pic = [(1, 2, 2); (5, 4, 0)].
Proof.
assert (S2 : sqrt (Rmax 4 0) = 2) by (rewrite Rmax_left by lra; replace 4 with (2 * 2) by ring; apply sqrt_square; lra).
assert (S0 : sqrt (Rmax (-1) 0) = 0) by (rewrite Rmax_right by lra; apply sqrt_0).
eexists. unfold obs_plot. cbn. rewrite S2, S0. split; [reflexivity|]. cbn. split; [|split; [|reflexivity]].
- unfold Rmin. repeat destruct (Rle_dec _ _); lra.
- unfold Rmax. repeat destruct (Rle_dec _ _); lra.
Qed.

(** two points with two columns: each column is drawn with the variance of its point *)
Example columns_ex : exists pic, gp_plot 2 (A2 [[1; 2]; [3; 4]]) [[0; 0]; [1; 1]] [1; 4] = Ok pic /\ drawn pic = [(1, 0, 1); (2, 0, 1); (3, 1, 2); (4, 1, 2)] /\
  line_lo pic = -1 /\ line_hi pic = 4.
Proof.
assert (S2 : sqrt (Rmax 4 0) = 2) by (rewrite Rmax_left by lra; replace 4 with (2 * 2) by ring; apply sqrt_square; lra).
assert (S1 : sqrt (Rmax 1 0) = 1) by (rewrite Rmax_left by lra; apply sqrt_1).
eexists. unfold gp_plot, obs_plot. cbn. rewrite S1, S2. split; [reflexivity|]. cbn. split; [reflexivity|]. split.
- unfold Rmin. repeat destruct (Rle_dec _ _); lra.
- unfold Rmax. repeat destruct (Rle_dec _ _); lra.
Qed.

(** * C198 *)
(** for sigma > 0 the integral of gaussian_1d over any interval is the probability of that interval under the normal distribution with
    that mean and standard deviation, and its logarithm is the log density that the mixture model uses *)
Lemma gaussian_pdf x mu sigma : 0 < sigma -> gaussian_1d x mu sigma = normal_pdf ((x - mu) / sigma) / sigma.
Proof.
intros P. unfold gaussian_1d, normal_pdf. pose proof s2pi. replace (- ((x - mu) / sigma) ^ 2 / 2) with (- (x - mu) ^ 2 / (2 * sigma ^ 2)) by (field; lra).
field. split; lra.
Qed.
Theorem gaussian_density : forall Phi mu sigma, normal_cdf Phi -> 0 < sigma ->
  (forall a b, is_RInt (fun x => gaussian_1d x mu sigma) a b (Phi ((b - mu) / sigma) - Phi ((a - mu) / sigma))) /\
  (forall x, 0 < gaussian_1d x mu sigma <= gaussian_1d mu mu sigma) /\
  (forall x, ln (gaussian_1d x mu sigma) = norm_logpdf x mu sigma).
Proof.
intros Phi mu sigma [D _] P. pose proof s2pi as S0. split; [|split].
- intros a b. apply (is_RInt_ext (fun x => normal_pdf ((x - mu) / sigma) / sigma)).
  { intros x _. symmetry. apply gaussian_pdf, P. }
  apply (is_RInt_derive (fun x => Phi ((x - mu) / sigma)) (fun x => normal_pdf ((x - mu) / sigma) / sigma)).
  + intros x _. assert (Dx : is_derive Phi ((x - mu) / sigma) (normal_pdf ((x - mu) / sigma))) by (apply is_derive_Reals, D).
    evar_last; [apply (is_derive_comp Phi (fun x => (x - mu) / sigma)); [exact Dx|auto_derive; [exact I|reflexivity]]|].
    change (1 * / sigma * normal_pdf ((x - mu) / sigma) = normal_pdf ((x - mu) / sigma) / sigma). field. lra.
  + intros x _. apply (continuous_ext (fun x => gaussian_1d x mu sigma)); [intros z; apply gaussian_pdf, P|].
    apply (@ex_derive_continuous R_AbsRing R_NormedModule). unfold gaussian_1d. auto_derive. exact I.
- intros x. assert (C : 0 < 1 / (sqrt (2 * PI) * sigma)) by (apply Rdiv_lt_0_compat; [lra|apply Rmult_lt_0_compat; assumption]).
  unfold gaussian_1d. split; [apply Rmult_lt_0_compat; [exact C|apply exp_pos]|].
  apply Rmult_le_compat_l; [lra|]. replace (- (mu - mu) ^ 2 / (2 * sigma ^ 2)) with 0 by (field; lra). rewrite exp_0.
  assert (Q : 0 < / (2 * sigma ^ 2)) by (apply Rinv_0_lt_compat; nra).
  assert (E : - (x - mu) ^ 2 / (2 * sigma ^ 2) <= 0) by (unfold Rdiv; pose proof (pow2_ge_0 (x - mu)); nra).
  destruct E as [E|E]; [left; rewrite <- exp_0; apply exp_increasing, E|rewrite E, exp_0; lra].
- intros x. unfold gaussian_1d, norm_logpdf. rewrite ln_mult; [|apply Rdiv_lt_0_compat; [lra|apply Rmult_lt_0_compat; assumption]|apply exp_pos].
  rewrite ln_exp. unfold Rdiv at 1. rewrite Rmult_1_l, ln_Rinv by (apply Rmult_lt_0_compat; assumption). rewrite ln_mult by assumption.
  replace (- (x - mu) ^ 2 / (2 * sigma ^ 2)) with (- (((x - mu) / sigma) ^ 2 / 2)) by (field; lra). lra.
Qed.
Print Assumptions gaussian_density.
(** the normal distribution function exists, and the density at the mean of the standard one is 1 / sqrt (2 pi) *)
Example gaussian_ex : normal_cdf std_cdf /\ gaussian_1d 3 3 1 = 1 / sqrt (2 * PI).
Proof.
split; [apply std_normal|]. unfold gaussian_1d. replace (- (3 - 3) ^ 2 / (2 * 1 ^ 2)) with 0 by field. rewrite exp_0, Rmult_1_r, Rmult_1_r. reflexivity.
Qed.
