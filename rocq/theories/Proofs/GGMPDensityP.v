(** Lemmas about the EM iteration, mixtures, densities on grids. *)
From Coq Require Import Reals Lra.
From Verif Require Import Model.Prelude Spec.Sums Model.GGMPDensity Spec.GGMPDensitySpec.
Local Open Scope R_scope.

(** ** sums *)
Lemma ln_le_sub y : 0 < y -> ln y <= y - 1.
Proof. intros H. pose proof (exp_ineq1_le (ln y)) as E. rewrite exp_ln in E by exact H. lra. Qed.
Lemma rsum_pos f n : (0 < n)%nat -> (forall i, (i < n)%nat -> 0 < f i) -> 0 < rsum f n.
Proof.
intros N H. destruct n as [|n]; [lia|]. cbn. assert (0 <= rsum f n) by (apply rsum_nonneg; intros; left; apply H; lia). assert (0 < f n) by (apply H; lia). lra.
Qed.
Lemma rsum_elem f n k : (k < n)%nat -> (forall i, (i < n)%nat -> 0 <= f i) -> f k <= rsum f n.
Proof.
intros L H. induction n as [|n IH]; [lia|]. cbn. assert (0 <= f n) by (apply H; lia). assert (0 <= rsum f n) by (apply rsum_nonneg; intros; apply H; lia).
destruct (Nat.eq_dec k n) as [->|NE]; [lra|]. assert (f k <= rsum f n) by (apply IH; [lia|intros; apply H; lia]). lra.
Qed.
Lemma rsum_div f c n : rsum (fun i => f i / c) n = rsum f n / c.
Proof. unfold Rdiv. rewrite <- (Rmult_comm (/ c)), <- rsum_scal. apply rsum_ext. intros; lra. Qed.
Lemma jensen_ln n p x : (forall i, (i < n)%nat -> 0 <= p i) -> rsum p n = 1 -> (forall i, (i < n)%nat -> 0 < x i) ->
  rsum (fun i => p i * ln (x i)) n <= ln (rsum (fun i => p i * x i) n).
Proof.
intros P S X. set (s := rsum (fun i => p i * x i) n).
assert (Sp : 0 < s).
{ destruct (Rle_lt_dec s 0) as [L|L]; [exfalso|exact L]. assert (Z : forall i, (i < n)%nat -> p i <= 0).
  { intros i Hi. destruct (Rle_lt_dec (p i) 0) as [|G]; [assumption|exfalso]. assert (p i * x i <= s) by (apply (rsum_elem (fun i => p i * x i)); [exact Hi|intros j Hj; apply Rmult_le_pos; [auto|left; auto]]).
    assert (0 < p i * x i) by (apply Rmult_lt_0_compat; auto). lra. }
  assert (rsum p n <= rsum (fun _ => 0) n) by (apply rsum_le; exact Z). rewrite rsum_const in H. lra. }
apply Rle_trans with (rsum (fun i => ln s * p i + (/ s * (p i * x i) + -1 * p i)) n).
- apply rsum_le. intros i Hi. assert (Xi := X i Hi). assert (Pi := P i Hi). assert (E : ln (x i) = ln s + ln (x i / s)). { rewrite <- ln_mult; [f_equal; field; lra|exact Sp|apply Rdiv_lt_0_compat; assumption]. }
  assert (Q : ln (x i / s) <= x i / s - 1) by (apply ln_le_sub; apply Rdiv_lt_0_compat; assumption).
  replace (ln s * p i + (/ s * (p i * x i) + -1 * p i)) with (p i * (ln s + (x i / s - 1))) by (field; lra). apply Rmult_le_compat_l; [exact Pi|lra].
- rewrite rsum_plus, rsum_plus, !rsum_scal, S. fold s. right. field. lra.
Qed.

Lemma lsum_app a b : lsum (a ++ b) = lsum a + lsum b.
Proof. induction a; cbn; [lra|]. rewrite IHa. lra. Qed.
Lemma lsum_le {X} (f g : X -> R) l : (forall x, In x l -> f x <= g x) -> lsum (map f l) <= lsum (map g l).
Proof. induction l as [|x l IH]; intros H; cbn; [lra|]. assert (f x <= g x) by (apply H; left; reflexivity). assert (lsum (map f l) <= lsum (map g l)) by (apply IH; intros; apply H; right; assumption). lra. Qed.
Lemma lsum_ext {X} (f g : X -> R) l : (forall x, In x l -> f x = g x) -> lsum (map f l) = lsum (map g l).
Proof. intros H. f_equal. apply map_ext_in. exact H. Qed.
Lemma lsum_plus {X} (f g : X -> R) l : lsum (map (fun x => f x + g x) l) = lsum (map f l) + lsum (map g l).
Proof. induction l; cbn; [lra|]. rewrite IHl. lra. Qed.
Lemma lsum_scal {X} c (f : X -> R) l : lsum (map (fun x => c * f x) l) = c * lsum (map f l).
Proof. induction l; cbn; [lra|]. rewrite IHl. lra. Qed.
Lemma lsum_nonneg l : (forall x, In x l -> 0 <= x) -> 0 <= lsum l.
Proof. induction l as [|x l IH]; intros H; cbn; [lra|]. assert (0 <= x) by (apply H; left; reflexivity). assert (0 <= lsum l) by (apply IH; intros; apply H; right; assumption). lra. Qed.
Lemma lsum_elem l x : (forall y, In y l -> 0 <= y) -> In x l -> x <= lsum l.
Proof.
induction l as [|y l IH]; intros H I; [destruct I|]. cbn. assert (0 <= y) by (apply H; left; reflexivity). assert (0 <= lsum l) by (apply lsum_nonneg; intros; apply H; right; assumption).
destruct I as [->|I]; [lra|]. assert (x <= lsum l) by (apply IH; [intros; apply H; right; assumption|exact I]). lra.
Qed.
Lemma lsum_pos_ex l : 0 < lsum l -> exists x, In x l /\ 0 < x.
Proof.
induction l as [|x l IH]; cbn; [lra|]. intros H. destruct (Rlt_dec 0 x) as [P|N]; [exists x; auto|]. destruct IH as [y [I P]]; [lra|]. exists y. auto.
Qed.

Section Rows.
Implicit Types ts : list station.
Lemma rowsum_le f g ts : (forall t x, In t ts -> In x t -> f x <= g x) -> rowsum f ts <= rowsum g ts.
Proof. intros H. apply lsum_le. intros t I. apply lsum_le. intros x J. exact (H t x I J). Qed.
Lemma rowsum_ext f g ts : (forall t x, In t ts -> In x t -> f x = g x) -> rowsum f ts = rowsum g ts.
Proof. intros H. apply lsum_ext. intros t I. apply lsum_ext. intros x J. exact (H t x I J). Qed.
Lemma rowsum_plus f g ts : rowsum (fun x => f x + g x) ts = rowsum f ts + rowsum g ts.
Proof. unfold rowsum. rewrite <- lsum_plus. apply lsum_ext. intros t _. apply lsum_plus. Qed.
Lemma rowsum_scal c f ts : rowsum (fun x => c * f x) ts = c * rowsum f ts.
Proof. unfold rowsum. rewrite <- lsum_scal. apply lsum_ext. intros t _. apply lsum_scal. Qed.
Lemma rowsum_rsum K f ts : rsum (fun k => rowsum (fun x => f x k) ts) K = rowsum (fun x => rsum (f x) K) ts.
Proof.
induction K as [|K IH]; cbn.
- unfold rowsum. induction ts as [|t ts IHt]; cbn; [reflexivity|]. rewrite <- IHt. induction t as [|x t IH2]; cbn; lra.
- rewrite IH, <- rowsum_plus. reflexivity.
Qed.
Lemma rowsum_pos f ts : weighted ts -> 0 < total ts -> (forall t x, In t ts -> In x t -> 0 < f x) -> 0 < rowsum (fun x => fst x * f x) ts.
Proof.
intros W T F. unfold total, rowsum in T. apply lsum_pos_ex in T as [y [I P]]. apply in_map_iff in I as [t [<- It]]. apply lsum_pos_ex in P as [a [I P]]. apply in_map_iff in I as [x [<- Ix]].
assert (N : forall t x, In t ts -> In x t -> 0 <= fst x * f x) by (intros t' x' I J; apply Rmult_le_pos; [eapply W; eassumption|left; eapply F; eassumption]).
apply Rlt_le_trans with (fst x * f x); [apply Rmult_lt_0_compat; [exact P|eapply F; eassumption]|].
apply Rle_trans with (lsum (map (fun x => fst x * f x) t)).
- apply lsum_elem; [intros y Iy; apply in_map_iff in Iy as [x' [<- J]]; eapply N; eassumption|apply in_map_iff; eauto].
- apply lsum_elem; [intros y Iy; apply in_map_iff in Iy as [t' [<- J]]; apply lsum_nonneg; intros z Iz; apply in_map_iff in Iz as [x' [<- J']]; eapply N; eassumption|].
  apply in_map_iff. eauto.
Qed.
End Rows.

Lemma last_default {X} (l : list X) : forall a d d', last (a :: l) d = last (a :: l) d'.
Proof. induction l as [|b l IH]; intros a d d'; [reflexivity|]. exact (IH b d d'). Qed.

(** ** EM *)
Section EM.
Context (K : nat) (tiny : R) (K1 : (0 < K)%nat) (Ti : 0 < tiny).
Implicit Types (ts : list station) (w : nat -> R).
Notation clamp w := (fun k => Rmax (w k) tiny).
Notation mix w x := (rsum (fun k => w k * exp (snd x k)) K).

Lemma clamp_pos w k : 0 < Rmax (w k) tiny.
Proof. eapply Rlt_le_trans; [exact Ti|apply Rmax_r]. Qed.
Lemma mix_pos w (x : row) : (forall k, (k < K)%nat -> 0 < w k) -> 0 < mix w x.
Proof. intros P. apply rsum_pos; [exact K1|]. intros k H. apply Rmult_lt_0_compat; [auto|apply exp_pos]. Qed.
Lemma den_mix w (x : row) : log_den K tiny w x = ln (mix (clamp w) x).
Proof. unfold log_den. f_equal. apply rsum_ext. intros k _. unfold log_w. rewrite exp_plus, exp_ln by apply clamp_pos. lra. Qed.
Lemma resp_mix w (x : row) k : resp K tiny w x k = Rmax (w k) tiny * exp (snd x k) / mix (clamp w) x.
Proof.
assert (M : 0 < mix (clamp w) x) by (apply mix_pos; intros; apply clamp_pos). unfold resp, Rminus. rewrite exp_plus, exp_Ropp, den_mix, exp_ln by exact M. unfold log_w. rewrite exp_plus, exp_ln by apply clamp_pos.
unfold Rdiv. lra.
Qed.
Lemma resp_sum w (x : row) : rsum (resp K tiny w x) K = 1.
Proof.
assert (M : 0 < mix (clamp w) x) by (apply mix_pos; intros; apply clamp_pos). erewrite rsum_ext; [|intros k _; apply resp_mix]. rewrite rsum_div. field. lra.
Qed.
Lemma resp_pos w (x : row) k : 0 < resp K tiny w x k.
Proof. apply exp_pos. Qed.
Lemma obj_loglik w ts : obj K tiny w ts = loglik K ts (clamp w).
Proof. apply rowsum_ext. intros t x _ _. rewrite den_mix. reflexivity. Qed.
Lemma counts_sum w ts : rsum (counts K tiny w ts) K = total ts.
Proof.
unfold counts. rewrite (rowsum_rsum K (fun x k => fst x * resp K tiny w x k)). apply rowsum_ext. intros t x _ _. rewrite rsum_scal, resp_sum. lra.
Qed.
Lemma counts_nonneg w ts k : weighted ts -> 0 <= counts K tiny w ts k.
Proof.
intros W. unfold counts. replace 0 with (rowsum (fun x => 0 * fst x) ts) by (rewrite rowsum_scal; lra). apply rowsum_le. intros t x I J. rewrite Rmult_0_l. apply Rmult_le_pos; [eapply W; eassumption|left; apply resp_pos].
Qed.
Lemma counts_pos w ts k : weighted ts -> 0 < total ts -> 0 < counts K tiny w ts k.
Proof. intros W T. apply (rowsum_pos (fun x => resp K tiny w x k)); auto. intros; apply resp_pos. Qed.

Definition upd w ts k := counts K tiny w ts k / total ts.
(** the EM inequality *)
Lemma em_ineq w ts : weighted ts -> 0 < total ts -> loglik K ts (clamp w) - total ts * ln (rsum (clamp w) K) <= loglik K ts (upd w ts).
Proof.
intros W T. set (u := upd w ts). assert (U : forall k, 0 < u k) by (intros k; apply Rdiv_lt_0_compat; [apply counts_pos; assumption|exact T]).
assert (Us : rsum u K = 1). { unfold u, upd. rewrite rsum_div, counts_sum. field. lra. }
set (q := fun k => ln (u k / Rmax (w k) tiny)).
assert (S1 : rowsum (fun x => fst x * (ln (mix (clamp w) x) + rsum (fun k => resp K tiny w x k * q k) K)) ts <= loglik K ts u).
{ apply rowsum_le. intros t x I J. apply Rmult_le_compat_l; [eapply W; eassumption|].
  assert (M : 0 < mix (clamp w) x) by (apply mix_pos; intros; apply clamp_pos).
  apply Rle_trans with (ln (mix (clamp w) x) + ln (rsum (fun k => resp K tiny w x k * (u k / Rmax (w k) tiny)) K)).
  - apply Rplus_le_compat_l. apply (jensen_ln K (resp K tiny w x) (fun k => u k / Rmax (w k) tiny)); [intros; left; apply resp_pos|apply resp_sum|].
    intros k _. apply Rdiv_lt_0_compat; [apply U|apply clamp_pos].
  - right. rewrite <- ln_mult; [|exact M|apply rsum_pos; [exact K1|]; intros k _; apply Rmult_lt_0_compat; [apply resp_pos|apply Rdiv_lt_0_compat; [apply U|apply clamp_pos]]].
    f_equal. rewrite <- rsum_scal. apply rsum_ext. intros k _. rewrite resp_mix. field. split; [assert (C := clamp_pos w k); lra|lra]. }
assert (S2 : rowsum (fun x => fst x * (ln (mix (clamp w) x) + rsum (fun k => resp K tiny w x k * q k) K)) ts = loglik K ts (clamp w) + total ts * rsum (fun k => u k * q k) K).
{ transitivity (loglik K ts (clamp w) + rowsum (fun x => rsum (fun k => fst x * resp K tiny w x k * q k) K) ts).
  - unfold loglik. rewrite <- rowsum_plus. apply rowsum_ext. intros t x _ _. rewrite Rmult_plus_distr_l. f_equal. rewrite <- rsum_scal. apply rsum_ext. intros; lra.
  - f_equal. rewrite <- (rowsum_rsum K (fun x k => fst x * resp K tiny w x k * q k)). rewrite <- rsum_scal. apply rsum_ext. intros k _. unfold u, upd.
    replace (total ts * (counts K tiny w ts k / total ts * q k)) with (q k * counts K tiny w ts k) by (field; lra). unfold counts. rewrite <- rowsum_scal. apply rowsum_ext. intros; lra. }
assert (S3 : - ln (rsum (clamp w) K) <= rsum (fun k => u k * q k) K).
{ assert (Jn := jensen_ln K u (fun k => Rmax (w k) tiny / u k) (fun k _ => Rlt_le _ _ (U k)) Us (fun k _ => Rdiv_lt_0_compat _ _ (clamp_pos w k) (U k))). cbv beta in Jn.
  replace (rsum (fun k => u k * (Rmax (w k) tiny / u k)) K) with (rsum (clamp w) K) in Jn by (apply rsum_ext; intros k _; field; assert (H := U k); lra).
  assert (E : rsum (fun k => u k * q k) K = - rsum (fun k => u k * ln (Rmax (w k) tiny / u k)) K).
  { replace (- rsum (fun k => u k * ln (Rmax (w k) tiny / u k)) K) with (-1 * rsum (fun k => u k * ln (Rmax (w k) tiny / u k)) K) by lra. rewrite <- rsum_scal. apply rsum_ext. intros k _. unfold q.
    assert (H1 := U k). assert (H2 := clamp_pos w k). unfold Rdiv. rewrite !ln_mult by (try assumption; apply Rinv_0_lt_compat; assumption). rewrite !ln_Rinv by assumption. ring. }
  rewrite E. lra. }
assert (S4 : total ts * - ln (rsum (clamp w) K) <= total ts * rsum (fun k => u k * q k) K) by (apply Rmult_le_compat_l; lra). lra.
Qed.
Lemma loglik_scale c ts w : 0 < c -> (forall k, (k < K)%nat -> 0 < w k) -> loglik K ts (fun k => c * w k) = total ts * ln c + loglik K ts w.
Proof.
intros C P. unfold loglik, total. rewrite <- (Rmult_comm (ln c)), <- rowsum_scal, <- rowsum_plus. apply rowsum_ext. intros t x _ _.
rewrite (rsum_ext (fun k => c * w k * exp (snd x k)) (fun k => c * (w k * exp (snd x k)))) by (intros; lra). rewrite rsum_scal, ln_mult by (try assumption; apply mix_pos; assumption). lra.
Qed.
Lemma loglik_mono ts w w' : weighted ts -> (forall k, (k < K)%nat -> 0 < w k) -> (forall k, (k < K)%nat -> w k <= w' k) -> loglik K ts w <= loglik K ts w'.
Proof.
intros W P L. apply rowsum_le. intros t x I J. apply Rmult_le_compat_l; [eapply W; eassumption|]. assert (H : mix w x <= mix w' x) by (apply rsum_le; intros k Hk; apply Rmult_le_compat_r; [left; apply exp_pos|auto]).
assert (M := mix_pos w x P). destruct H as [H|H]; [left; apply ln_increasing; lra|rewrite H; lra].
Qed.

Section Step.
Context (extra floor : R) (Ex : 0 <= extra) (Fl : 0 <= floor) (ts : list station) (W : weighted ts) (T : 0 < total ts).
Notation new := (em_new K tiny extra floor ts).
Lemma new_simplex w : simplex K (new w).
Proof.
unfold em_new. cbv beta zeta. rewrite counts_sum. set (v := fun k => Rmax (counts K tiny w ts k / (total ts + extra)) floor). assert (V : forall k, 0 < v k).
{ intros k. eapply Rlt_le_trans; [|apply Rmax_l]. apply Rdiv_lt_0_compat; [apply counts_pos; assumption|lra]. }
assert (S : 0 < rsum v K) by (apply rsum_pos; auto). split; [intros k _; apply Rdiv_lt_0_compat; [apply V|exact S]|]. change (rsum (fun k => v k / rsum v K) K = 1). rewrite rsum_div. field. lra.
Qed.
(** the weights before the floor *)
Definition before_floor w k := counts K tiny w ts k / (total ts + extra).
Lemma new_exact w : (forall k, (k < K)%nat -> floor <= before_floor w k) -> forall k, (k < K)%nat -> new w k = upd w ts k.
Proof.
intros H k Hk. unfold em_new. cbv beta zeta. rewrite counts_sum. assert (E : forall j, (j < K)%nat -> Rmax (counts K tiny w ts j / (total ts + extra)) floor = before_floor w j) by (intros; apply Rmax_left; apply H; assumption).
rewrite (rsum_ext _ (before_floor w) K E), (E k Hk). unfold before_floor. rewrite rsum_div, counts_sum. unfold upd. field. lra.
Qed.
Lemma new_ge w : loglik K ts (upd w ts) - total ts * ln (1 + INR K * floor * ((total ts + extra) / total ts)) <= loglik K ts (new w).
Proof.
unfold em_new. cbv beta zeta. rewrite counts_sum. set (v := fun k => Rmax (counts K tiny w ts k / (total ts + extra)) floor). set (c := total ts / (total ts + extra)).
assert (C : 0 < c) by (apply Rdiv_lt_0_compat; lra).
assert (Up : forall k, 0 < upd w ts k) by (intros k; apply Rdiv_lt_0_compat; [apply counts_pos; assumption|exact T]).
assert (E : forall k, c * upd w ts k = counts K tiny w ts k / (total ts + extra)) by (intros; unfold c, upd; field; lra).
assert (V1 : forall k, c * upd w ts k <= v k) by (intros k; rewrite E; apply Rmax_l).
assert (V0 : forall k, 0 < v k) by (intros k; eapply Rlt_le_trans; [|apply V1]; apply Rmult_lt_0_compat; auto).
assert (Sv : 0 < rsum v K) by (apply rsum_pos; auto).
assert (L1 : loglik K ts (fun k => c * upd w ts k) <= loglik K ts v) by (apply loglik_mono; auto; intros; apply Rmult_lt_0_compat; auto).
rewrite loglik_scale in L1 by auto.
assert (L2 : loglik K ts (fun k => v k / rsum v K) = total ts * ln (/ rsum v K) + loglik K ts v).
{ rewrite <- loglik_scale by (auto; apply Rinv_0_lt_compat; exact Sv). apply rowsum_ext. intros t x _ _. do 2 f_equal. apply rsum_ext. intros; unfold Rdiv; lra. }
match goal with |- _ <= loglik K ts ?f => change f with (fun k => v k / rsum v K) end.
rewrite L2, ln_Rinv by exact Sv.
assert (Sle : rsum v K <= c * (1 + INR K * floor * ((total ts + extra) / total ts))).
{ replace (c * (1 + INR K * floor * ((total ts + extra) / total ts))) with (c + INR K * floor) by (unfold c; field; lra).
  replace (c + INR K * floor) with (rsum (fun k => c * upd w ts k + floor) K).
  - apply rsum_le. intros k _. unfold v. rewrite <- E. apply Rmax_lub; [lra|]. assert (0 < c * upd w ts k) by (apply Rmult_lt_0_compat; auto). lra.
  - rewrite rsum_plus, rsum_scal, rsum_const. unfold upd. rewrite rsum_div, counts_sum. field. lra. }
assert (P1 : 0 < 1 + INR K * floor * ((total ts + extra) / total ts)).
{ assert (0 <= INR K * floor * ((total ts + extra) / total ts)) by (apply Rmult_le_pos; [apply Rmult_le_pos; [apply pos_INR|exact Fl]|left; apply Rdiv_lt_0_compat; lra]). lra. }
assert (Ln : ln (rsum v K) <= ln c + ln (1 + INR K * floor * ((total ts + extra) / total ts))).
{ rewrite <- ln_mult by assumption. destruct Sle as [H|H]; [left; apply ln_increasing; assumption|rewrite H; lra]. }
assert (Ln' : total ts * ln (rsum v K) <= total ts * (ln c + ln (1 + INR K * floor * ((total ts + extra) / total ts)))) by (apply Rmult_le_compat_l; lra). lra.
Qed.
Lemma clamp_sum w : simplex K w -> 1 <= rsum (clamp w) K <= 1 + INR K * tiny.
Proof.
intros [P S]. split.
- rewrite <- S. apply rsum_le. intros; apply Rmax_l.
- replace (1 + INR K * tiny) with (rsum (fun k => w k + tiny) K) by (rewrite rsum_plus, S, rsum_const; reflexivity). apply rsum_le. intros k Hk. assert (H := P k Hk). apply Rmax_lub; lra.
Qed.
Lemma obj_new_ge w : simplex K w -> obj K tiny w ts - total ts * (ln (1 + INR K * tiny) + ln (1 + INR K * floor * ((total ts + extra) / total ts))) <= obj K tiny (new w) ts.
Proof.
intros Sx. rewrite !obj_loglik. assert (E := em_ineq w ts W T). assert (G := new_ge w). destruct (clamp_sum w Sx) as [C1 C2].
assert (L : ln (rsum (clamp w) K) <= ln (1 + INR K * tiny)) by (destruct C2 as [H|H]; [left; apply ln_increasing; lra|rewrite H; lra]).
assert (L' : total ts * ln (rsum (clamp w) K) <= total ts * ln (1 + INR K * tiny)) by (apply Rmult_le_compat_l; lra).
assert (M : loglik K ts (new w) <= loglik K ts (clamp (new w))) by (apply loglik_mono; [exact W|apply new_simplex|intros; apply Rmax_l]). lra.
Qed.
Lemma obj_new_mono w : simplex K w -> (forall k, (k < K)%nat -> tiny <= w k) -> (forall k, (k < K)%nat -> floor <= before_floor w k) -> obj K tiny w ts <= obj K tiny (new w) ts.
Proof.
intros [P S] H1 H2. rewrite !obj_loglik. assert (E := em_ineq w ts W T).
assert (C : rsum (clamp w) K = 1) by (rewrite <- S; apply rsum_ext; intros; apply Rmax_left; auto). rewrite C, ln_1 in E.
assert (N : loglik K ts (upd w ts) = loglik K ts (new w)). { apply rowsum_ext. intros t x _ _. do 2 f_equal. apply rsum_ext. intros k Hk. rewrite (new_exact w H2 k Hk). reflexivity. }
assert (M : loglik K ts (new w) <= loglik K ts (clamp (new w))) by (apply loglik_mono; [exact W|apply new_simplex|intros; apply Rmax_l]). lra.
Qed.
Lemma upd_textbook w : (forall k, (k < K)%nat -> tiny <= w k) -> forall k, (k < K)%nat -> upd w ts k = em_update K ts w k.
Proof.
intros H k Hk. unfold upd, em_update, counts. f_equal. apply rowsum_ext. intros t x _ _. f_equal. rewrite resp_mix, Rmax_left by auto. f_equal. apply rsum_ext. intros j Hj. rewrite Rmax_left by auto. reflexivity.
Qed.

(** ** the loop *)
Context (tol : R).
Notation loop := (em_loop K tiny extra floor tol ts).
Lemma loop_simplex n : forall w wf wh oh, loop n w = (wf, wh, oh) -> Forall (simplex K) wh /\ (wf = w /\ n = 0%nat \/ simplex K wf).
Proof.
induction n as [|n IH]; intros w wf wh oh E; cbn in E; [injection E as <- <- <-; auto|].
destruct (Rlt_dec _ tol); [injection E as <- <- <-; split; [constructor; [apply new_simplex|constructor]|right; apply new_simplex]|].
destruct (loop n (new w)) as [[wf' wh'] oh'] eqn:L. injection E as <- <- <-. destruct (IH _ _ _ _ L) as [F [[-> _]|S]]; (split; [constructor; [apply new_simplex|exact F]|right; auto using new_simplex]).
Qed.
(** the histories: each weight vector is the update of the one before, each objective belongs to the one before *)
Lemma loop_hist n : forall w wf wh oh, loop n w = (wf, wh, oh) -> length wh = length oh /\
  (forall i, (i < length wh)%nat -> nth i wh w = new (nth i (w :: wh) w) /\ nth i oh 0 = obj K tiny (nth i (w :: wh) w) ts) /\ wf = last wh w.
Proof.
induction n as [|n IH]; intros w wf wh oh E; cbn in E; [injection E as <- <- <-; cbn; repeat split; intros; lia|].
destruct (Rlt_dec _ tol).
- injection E as <- <- <-. cbn. split; [reflexivity|]. split; [intros [|i] H; [auto|lia]|reflexivity].
- destruct (loop n (new w)) as [[wf' wh'] oh'] eqn:L. injection E as <- <- <-. destruct (IH _ _ _ _ L) as [H1 [H2 H3]]. split; [cbn; congruence|]. split.
  + intros [|i] H; [cbn; auto|]. cbn in H. destruct (H2 i) as [A B]; [lia|]. change (nth i wh' w = new (nth i (new w :: wh') w) /\ nth i oh' 0 = obj K tiny (nth i (new w :: wh') w) ts).
    assert (D : forall d, nth i (new w :: wh') d = nth i (new w :: wh') (new w)) by (intros; apply nth_indep; cbn; lia).
    split; [rewrite (nth_indep wh' w (new w)) by lia; rewrite A, (D w); reflexivity|rewrite B, (D w); reflexivity].
  + rewrite H3. destruct wh' as [|a wh']; [reflexivity|]. change (last (new w :: a :: wh') w) with (last (a :: wh') w). apply last_default.
Qed.
End Step.
Lemma start_simplex (w0 : option (nat -> R)) : simplex K (em_start K w0).
Proof.
assert (Q : 0 < INR K) by (apply lt_0_INR; exact K1). destruct w0 as [w|]; cbn.
- set (v := fun k => Rmax (w k) (/ 1000000000000)). assert (V : forall k, 0 < v k) by (intros k; eapply Rlt_le_trans; [|apply Rmax_r]; lra).
  assert (S : 0 < rsum v K) by (apply rsum_pos; auto). split; [intros; apply Rdiv_lt_0_compat; [apply V|exact S]|]. change (rsum (fun k => v k / rsum v K) K = 1). rewrite rsum_div. field. lra.
- split; [intros; apply Rdiv_lt_0_compat; lra|]. rewrite rsum_const. field. lra.
Qed.
End EM.

(** ** mixtures *)
Section Mix.
Context (K : nat) (w m v : nat -> R) (noise : nat -> list R).
Lemma normalized_sum : 0 < rsum w K -> rsum (normalized K w) K = 1.
Proof. intros S. unfold normalized. rewrite rsum_div. field. lra. Qed.
Lemma mix_var_moments : 0 < rsum w K ->
  mix_var K w m v noise = mixture_second K (normalized K w) m (fun k => v k + mean (noise k)) - mixture_mean K (normalized K w) m * mixture_mean K (normalized K w) m.
Proof.
intros S. unfold mix_var, mixture_second, mixture_mean, mix_mean. set (q := normalized K w). set (mt := rsum (fun k => q k * m k) K).
assert (Q : rsum q K = 1) by (apply normalized_sum; exact S).
transitivity (rsum (fun k => q k * (v k + mean (noise k))) K + (rsum (fun k => q k * (m k * m k)) K + ((- (2 * mt)) * rsum (fun k => q k * m k) K + mt * mt * rsum q K))).
- f_equal. rewrite <- !rsum_scal, <- !rsum_plus. apply rsum_ext. intros; lra.
- rewrite Q. fold mt. rewrite (rsum_ext (fun k => q k * (v k + mean (noise k) + m k * m k)) (fun k => q k * (v k + mean (noise k)) + q k * (m k * m k))) by (intros; lra). rewrite rsum_plus. lra.
Qed.
Lemma mix_var_ge : (forall k, (k < K)%nat -> 0 <= w k) -> 0 < rsum w K -> rsum (fun k => normalized K w k * (v k + mean (noise k))) K <= mix_var K w m v noise.
Proof.
intros P S. unfold mix_var. assert (0 <= rsum (fun k => normalized K w k * ((m k - mix_mean K w m) * (m k - mix_mean K w m))) K); [|lra].
apply rsum_nonneg. intros k Hk. apply Rmult_le_pos; [apply Rmult_le_pos; [auto|left; apply Rinv_0_lt_compat; exact S]|apply Rle_0_sqr].
Qed.
Lemma mix_mean_hull lo hi : (forall k, (k < K)%nat -> 0 <= w k) -> 0 < rsum w K -> (forall k, (k < K)%nat -> lo <= m k <= hi) -> lo <= mix_mean K w m <= hi.
Proof.
intros P S B. assert (Q := normalized_sum S). assert (N : forall k, (k < K)%nat -> 0 <= normalized K w k) by (intros k Hk; apply Rmult_le_pos; [auto|left; apply Rinv_0_lt_compat; exact S]).
unfold mix_mean. split.
- replace lo with (rsum (fun k => lo * normalized K w k) K) by (rewrite rsum_scal, Q; lra). apply rsum_le. intros k Hk. rewrite Rmult_comm. apply Rmult_le_compat_l; [auto|apply B; exact Hk].
- replace hi with (rsum (fun k => hi * normalized K w k) K) by (rewrite rsum_scal, Q; lra). apply rsum_le. intros k Hk. rewrite (Rmult_comm hi). apply Rmult_le_compat_l; [auto|apply B; exact Hk].
Qed.
End Mix.

(** ** densities on grids *)
Lemma map2_length {X Y Z} (f : X -> Y -> Z) l : forall m, length l = length m -> length (map2 f l m) = length l.
Proof. induction l as [|x l IH]; intros [|y m] H; cbn in *; try congruence. rewrite IH; congruence. Qed.
Lemma gradient_length l g : gradient l = Ok g -> length g = length l /\ (2 <= length l)%nat.
Proof. unfold gradient. destruct (Nat.ltb_spec (length l) 2); [discriminate|]. intros [= <-]. rewrite map_length, seq_length. auto. Qed.
Lemma all_some_length {X} (l : list (option X)) : forall d, all_some l = Some d -> length d = length l /\ l = map Some d.
Proof.
induction l as [|[x|] l IH]; intros d E; cbn in E; [injection E as <-; auto| |discriminate]. destruct (all_some l) as [d'|]; [|discriminate]. injection E as <-. destruct (IH d' eq_refl) as [H1 H2]. cbn. split; congruence.
Qed.
Lemma lsum_map2_scal c f (l m : list R) : lsum (map2 Rmult (map (fun x => f x / c) l) m) = lsum (map2 Rmult (map f l) m) / c.
Proof. revert m. induction l as [|x l IH]; intros [|y m]; cbn; try (unfold Rdiv; lra). rewrite IH. unfold Rdiv. lra. Qed.
Lemma lsum_repeat a b n : lsum (map2 Rmult (repeat a n) (repeat b n)) = INR n * (a * b).
Proof. induction n as [|n IH]; [cbn; lra|]. cbn [repeat map2 lsum]. rewrite IH, S_INR. lra. Qed.
Lemma normalize_cases domain density d p dx : normalize_pdf domain density = Ok (d, p, dx) ->
  d = domain /\ length p = length domain /\ length dx = length domain /\ (2 <= length domain)%nat /\ (forall x, In x p -> 0 <= x) /\ (forall x, In x dx -> 0 <= x) /\
  ((exists f g, density = map Some f /\ gradient domain = Ok g /\ dx = map Rabs g /\ 0 < lsum (map2 Rmult (map pos f) dx) /\ p = map (fun x => pos x / lsum (map2 Rmult (map pos f) dx)) f /\ lsum (map2 Rmult p dx) = 1)
   \/ ((forall f g, density = map Some f -> gradient domain = Ok g -> lsum (map2 Rmult (map pos f) (map Rabs g)) <= 0) /\ lsum (map2 Rmult p dx) = 1 / INR (length domain))).
Proof.
unfold normalize_pdf. destruct (length domain =? length density)%nat eqn:EL; cbn [negb]; [|discriminate]. apply Nat.eqb_eq in EL.
destruct (gradient domain) as [g|] eqn:G; [|discriminate]. destruct (gradient_length _ _ G) as [LG L2].
assert (N : 0 < INR (length domain)) by (apply lt_0_INR; lia).
assert (FB : forall n, n = length domain -> lsum (map2 Rmult (repeat (1 / INR n) n) (repeat (1 * (1 / INR n)) n)) = 1 / INR (length domain)) by (intros n ->; rewrite lsum_repeat; field; lra).
assert (FP : forall x, In x (repeat (1 / INR (length domain)) (length domain)) -> 0 <= x) by (intros x I; apply repeat_spec in I as ->; left; apply Rdiv_lt_0_compat; lra).
assert (FD : forall x, In x (repeat (1 * (1 / INR (length domain))) (length domain)) -> 0 <= x) by (intros x I; apply repeat_spec in I as ->; rewrite Rmult_1_l; left; apply Rdiv_lt_0_compat; lra).
destruct (all_some density) as [f|] eqn:A.
- destruct (all_some_length _ _ A) as [LF ->]. set (z := lsum _). destruct (Rle_dec z 0) as [Z|Z].
  + intros [= <- <- <-]. rewrite !repeat_length. repeat (split; [auto|]). right. split; [|auto]. intros f' g' E [= <-].
    assert (f = f') by (revert E; clear; revert f'; induction f as [|x f IH]; intros [|y f'] E; cbn in E; try congruence; injection E as -> E; f_equal; auto). subst f'. exact Z.
  + intros [= <- <- <-]. assert (Zp : 0 < z) by lra. rewrite !map_length. rewrite map_length in EL. split; [reflexivity|]. split; [congruence|]. split; [congruence|]. split; [exact L2|]. split.
    { intros x I. apply in_map_iff in I as [y [<- _]]. apply Rmult_le_pos; [apply Rmax_r|left; apply Rinv_0_lt_compat; exact Zp]. }
    split; [intros x I; apply in_map_iff in I as [y [<- _]]; apply Rabs_pos|]. left. exists f, g. repeat (split; [auto|]). rewrite (lsum_map2_scal z pos). fold z. field. lra.
- intros [= <- <- <-]. rewrite !repeat_length. repeat (split; [auto|]). right. split; [|auto]. intros f' g' E. exfalso. rewrite E in A. clear -A. revert A. induction f' as [|x f IH]; cbn; [discriminate|]. destruct (all_some (map Some f)); [discriminate|auto].
Qed.

(** ** weights on a list *)
Definition dot (p x : list R) : R := lsum (map2 Rmult p x).
Lemma dot_const p c : forall x, length p = length x -> (forall y, In y x -> y = c) -> dot p x = c * lsum p.
Proof. unfold dot. induction p as [|a p IH]; intros [|y x] L H; cbn in L |- *; try discriminate; [lra|]. rewrite IH; [rewrite (H y) by (left; reflexivity); lra|congruence|intros; apply H; right; assumption]. Qed.
Lemma dot_bounds lo hi p : forall x, length p = length x -> (forall a, In a p -> 0 <= a) -> (forall y, In y x -> lo <= y <= hi) -> lo * lsum p <= dot p x <= hi * lsum p.
Proof.
unfold dot. induction p as [|a p IH]; intros [|y x] L P B; cbn in L |- *; try discriminate; [lra|].
destruct (IH x) as [I1 I2]; [congruence|intros; apply P; right; assumption|intros; apply B; right; assumption|].
assert (Pa : 0 <= a) by (apply P; left; reflexivity). destruct (B y (or_introl eq_refl)) as [B1 B2].
assert (lo * a <= a * y) by (rewrite Rmult_comm; apply Rmult_le_compat_l; assumption). assert (a * y <= hi * a) by (rewrite (Rmult_comm hi); apply Rmult_le_compat_l; assumption). lra.
Qed.
Lemma dot_map_scal c p x : dot (map (fun a => a / c) p) x = dot p x / c.
Proof. unfold dot. revert x. induction p as [|a p IH]; intros [|y x]; cbn; try (unfold Rdiv; lra). rewrite IH. unfold Rdiv. lra. Qed.
Lemma lsum_map_scal c p : lsum (map (fun a => a / c) p) = lsum p / c.
Proof. induction p as [|a p IH]; cbn; [unfold Rdiv; lra|]. rewrite IH. unfold Rdiv. lra. Qed.
Lemma dot_sq_dev c p : forall x, length p = length x -> dot p (map (fun y => (y - c) * (y - c)) x) = dot p (map (fun y => y * y) x) - 2 * c * dot p x + c * c * lsum p.
Proof. unfold dot. induction p as [|a p IH]; intros [|y x] L; cbn in L |- *; try discriminate; [lra|]. rewrite IH by congruence. lra. Qed.
Lemma dot_assoc (f dx x : list R) : dot (map2 Rmult f dx) x = dot f (map2 Rmult dx x).
Proof. unfold dot. revert dx x. induction f as [|a f IH]; intros [|d dx] [|y x]; cbn; try lra. rewrite IH. lra. Qed.
Lemma map2_nonneg l : forall m, (forall x, In x l -> 0 <= x) -> (forall x, In x m -> 0 <= x) -> forall x, In x (map2 Rmult l m) -> 0 <= x.
Proof.
induction l as [|a l IH]; intros [|b m] L M x I; cbn in I; try contradiction. destruct I as [<-|I]; [apply Rmult_le_pos; [apply L|apply M]; left; reflexivity|].
apply (IH m); [intros; apply L; right; assumption|intros; apply M; right; assumption|exact I].
Qed.
Lemma pos_nonneg l x : In x (map pos l) -> 0 <= x.
Proof. intros I. apply in_map_iff in I as [y [<- _]]. apply Rmax_r. Qed.
Lemma abs_nonneg l x : In x (map Rabs l) -> 0 <= x.
Proof. intros I. apply in_map_iff in I as [y [<- _]]. apply Rabs_pos. Qed.
Lemma lsum_repeat1 a n : lsum (repeat a n) = INR n * a.
Proof. induction n as [|n IH]; [cbn; lra|]. cbn [repeat lsum]. rewrite IH, S_INR. lra. Qed.
Lemma dot_repeat c l : dot (repeat c (length l)) l = c * lsum l.
Proof. unfold dot. induction l as [|x l IH]; cbn; [lra|]. rewrite IH. lra. Qed.
Lemma mean_dot l : mean l = dot (repeat (1 / INR (length l)) (length l)) l.
Proof. rewrite dot_repeat. unfold mean, Rdiv. lra. Qed.
Lemma station_weights domain density mu var : length density = length domain -> station_moments domain density = Ok (mu, var) ->
  exists p, length p = length domain /\ (forall a, In a p -> 0 <= a) /\ lsum p = 1 /\ mu = dot p domain /\ var = Rmax (dot p (map (fun x => x * x) domain) - mu * mu) (/ 1000000) /\
  (forall g, gradient domain = Ok g -> let dx := map Rabs g in let z := dot (map pos density) dx in
     (0 < z -> p = map (fun m => m / z) (map2 Rmult (map pos density) dx)) /\ (z <= 0 -> p = repeat (1 / INR (length domain)) (length domain))).
Proof.
intros L. unfold station_moments. destruct (gradient domain) as [g|] eqn:G; [|discriminate]. destruct (gradient_length _ _ G) as [LG L2].
assert (N : 0 < INR (length domain)) by (apply lt_0_INR; lia). fold (dot (map pos density) (map Rabs g)). set (z := dot _ _). destruct (Rle_dec z 0) as [Z|Z].
- intros E. set (p := repeat (1 / INR (length domain)) (length domain)). exists p. assert (LP : length p = length domain) by apply repeat_length.
  assert (S1 : lsum p = 1) by (unfold p; rewrite lsum_repeat1; field; lra). split; [exact LP|]. split; [intros a I; apply repeat_spec in I as ->; left; apply Rdiv_lt_0_compat; lra|]. split; [exact S1|].
  assert (E1 : mu = mean domain) by congruence. assert (E2 : var = Rmax (mean (map (fun x => (x - mean domain) * (x - mean domain)) domain)) (/ 1000000)) by congruence.
  assert (M : mu = dot p domain) by (rewrite E1; apply mean_dot). split; [exact M|]. split.
  + rewrite E2. f_equal. rewrite mean_dot, map_length, <- E1. fold p. rewrite dot_sq_dev by exact LP. rewrite <- M, S1. lra.
  + intros g' E'. assert (g' = g) as -> by congruence. cbn zeta. fold z. split; [lra|reflexivity].
- intros E. assert (Zp : 0 < z) by lra. set (p := map (fun m => m / z) (map2 Rmult (map pos density) (map Rabs g))) in *. exists p.
  assert (LP : length p = length domain) by (unfold p; rewrite map_length, map2_length; rewrite !map_length; congruence).
  assert (S1 : lsum p = 1) by (unfold p; rewrite lsum_map_scal; change (lsum (map2 Rmult (map pos density) (map Rabs g))) with z; field; lra).
  split; [exact LP|]. split. { intros a I. apply in_map_iff in I as [b [<- I]]. apply Rmult_le_pos; [|left; apply Rinv_0_lt_compat; exact Zp]. eapply map2_nonneg; [| |exact I]; [apply pos_nonneg|apply abs_nonneg]. }
  split; [exact S1|]. assert (M : mu = dot p domain) by (unfold dot; congruence). assert (E2 : var = Rmax (dot p (map (fun x => (x - dot p domain) * (x - dot p domain)) domain)) (/ 1000000)) by (unfold dot; congruence).
  split; [exact M|]. split.
  + rewrite E2, <- M. f_equal. rewrite dot_sq_dev by exact LP. rewrite <- M, S1. lra.
  + intros g' E'. assert (g' = g) as -> by congruence. cbn zeta. fold z. split; [reflexivity|lra].
Qed.

(** ** distances *)
Section Dist.
Context (tiny : R) (Ti : 0 < tiny).
Lemma unit_nonneg dx p : (forall x, In x dx -> 0 <= x) -> forall x, In x (unit_mass tiny dx p) -> 0 <= x.
Proof.
intros D x I. unfold unit_mass in I. apply in_map_iff in I as [y [<- I]]. apply Rmult_le_pos; [eapply pos_nonneg; exact I|]. left. apply Rinv_0_lt_compat.
assert (0 <= lsum (map2 Rmult (map pos p) dx)) by (apply lsum_nonneg; intros z H; eapply map2_nonneg; [| |exact H]; [apply pos_nonneg|exact D]). lra.
Qed.
Lemma unit_sum dx p : (forall x, In x dx -> 0 <= x) -> dot (unit_mass tiny dx p) dx = dot (map pos p) dx / (dot (map pos p) dx + tiny) /\ 0 <= dot (map pos p) dx.
Proof.
intros D. split; [unfold unit_mass; fold (dot (map pos p) dx); rewrite dot_map_scal; reflexivity|].
apply lsum_nonneg. intros z H. eapply map2_nonneg; [| |exact H]; [apply pos_nonneg|exact D].
Qed.
Lemma unit_le1 dx p : (forall x, In x dx -> 0 <= x) -> dot (unit_mass tiny dx p) dx <= 1.
Proof. intros D. destruct (unit_sum dx p D) as [-> H]. apply (Rmult_le_reg_r (dot (map pos p) dx + tiny)); [lra|]. unfold Rdiv. rewrite Rmult_assoc, Rinv_l by lra. lra. Qed.
Lemma unit_length dx p : length (unit_mass tiny dx p) = length p.
Proof. unfold unit_mass. rewrite !map_length. reflexivity. Qed.
Lemma amgm a b : 0 <= a -> 0 <= b -> sqrt (pos (a * b)) <= (a + b) / 2.
Proof.
intros A B. unfold pos. rewrite Rmax_left by (apply Rmult_le_pos; assumption). rewrite <- (sqrt_Rsqr ((a + b) / 2)) by lra. apply sqrt_le_1_alt. unfold Rsqr.
assert (0 <= (a - b) * (a - b)) by apply Rle_0_sqr. lra.
Qed.
Lemma bc_le a : forall b dx, (forall x, In x a -> 0 <= x) -> (forall x, In x b -> 0 <= x) -> (forall x, In x dx -> 0 <= x) -> length a = length b ->
  dot (map2 (fun a b => sqrt (pos (a * b))) a b) dx <= (dot a dx + dot b dx) / 2.
Proof.
unfold dot. induction a as [|x a IH]; intros [|y b] [|d dx] A B D L; cbn in L |- *; try discriminate; try lra.
assert (0 <= d) by (apply D; left; reflexivity). assert (I := IH b dx (fun z H => A z (or_intror H)) (fun z H => B z (or_intror H)) (fun z H => D z (or_intror H)) ltac:(congruence)).
assert (sqrt (pos (x * y)) <= (x + y) / 2) by (apply amgm; [apply A|apply B]; left; reflexivity).
assert (sqrt (pos (x * y)) * d <= (x + y) / 2 * d) by (apply Rmult_le_compat_r; assumption). lra.
Qed.
Lemma map2_comm {X Y} (f : X -> X -> Y) : (forall a b, f a b = f b a) -> forall l m, map2 f l m = map2 f m l.
Proof. intros C. induction l as [|x l IH]; intros [|y m]; cbn; try reflexivity. rewrite C, IH. reflexivity. Qed.
Lemma kl_term a b : 0 <= a -> 0 <= b -> a - b - tiny <= a * (ln (a + tiny) - ln (b + tiny)).
Proof.
intros A B. assert (H : ln ((b + tiny) / (a + tiny)) <= (b + tiny) / (a + tiny) - 1) by (apply ln_le_sub; apply Rdiv_lt_0_compat; lra).
unfold Rdiv in H. rewrite ln_mult, ln_Rinv in H by first [lra|apply Rinv_0_lt_compat; lra]. fold (Rdiv (b + tiny) (a + tiny)) in H. assert (E : (b + tiny) / (a + tiny) - 1 = (b - a) / (a + tiny)) by (field; lra). rewrite E in H.
assert (H2 : a * ((a - b) / (a + tiny)) <= a * (ln (a + tiny) - ln (b + tiny))). { apply Rmult_le_compat_l; [exact A|]. assert ((a - b) / (a + tiny) = - ((b - a) / (a + tiny))) by (field; lra). lra. }
eapply Rle_trans; [|exact H2]. assert (E2 : a * ((a - b) / (a + tiny)) = (a - b) - tiny * (a / (a + tiny)) + tiny * (b / (a + tiny))) by (field; lra). rewrite E2.
assert (0 <= tiny * (b / (a + tiny))) by (apply Rmult_le_pos; [lra|]; apply Rmult_le_pos; [exact B|left; apply Rinv_0_lt_compat; lra]).
assert (a / (a + tiny) <= 1) by (apply (Rmult_le_reg_r (a + tiny)); [lra|]; unfold Rdiv; rewrite Rmult_assoc, Rinv_l by lra; lra).
assert (tiny * (a / (a + tiny)) <= tiny * 1) by (apply Rmult_le_compat_l; lra). lra.
Qed.
Lemma kl_sum a : forall b dx, (forall x, In x a -> 0 <= x) -> (forall x, In x b -> 0 <= x) -> (forall x, In x dx -> 0 <= x) -> length a = length b -> length a = length dx ->
  dot a dx - dot b dx - tiny * lsum dx <= dot (map2 (fun a b => a * (ln (a + tiny) - ln (b + tiny))) a b) dx.
Proof.
unfold dot. induction a as [|x a IH]; intros [|y b] [|d dx] A B D L L'; cbn in L, L' |- *; try discriminate; try lra.
assert (0 <= d) by (apply D; left; reflexivity). assert (I := IH b dx (fun z H => A z (or_intror H)) (fun z H => B z (or_intror H)) (fun z H => D z (or_intror H)) ltac:(congruence) ltac:(congruence)).
assert (K : x - y - tiny <= x * (ln (x + tiny) - ln (y + tiny))) by (apply kl_term; [apply A|apply B]; left; reflexivity).
apply (Rmult_le_compat_r d) in K; [|assumption]. lra.
Qed.
Lemma cumsum_length l : forall a, length (cumsum a l) = length l.
Proof. induction l as [|x l IH]; intros a; cbn; [reflexivity|]. rewrite IH. reflexivity. Qed.
Definition l1 (F G dx : list R) : R := dot (map2 (fun a b => Rabs (a - b)) F G) dx.
Lemma l1_nonneg F : forall G dx, (forall x, In x dx -> 0 <= x) -> 0 <= l1 F G dx.
Proof.
unfold l1, dot. induction F as [|a F IH]; intros [|b G] [|d dx] D; cbn; try lra. assert (0 <= Rabs (a - b) * d) by (apply Rmult_le_pos; [apply Rabs_pos|apply D; left; reflexivity]).
assert (I := IH G dx (fun z H => D z (or_intror H))). lra.
Qed.
Lemma l1_refl F dx : l1 F F dx = 0.
Proof. unfold l1, dot. revert dx. induction F as [|a F IH]; intros [|d dx]; cbn; try lra. rewrite IH. replace (a - a) with 0 by lra. rewrite Rabs_R0. lra. Qed.
Lemma l1_triangle F : forall G H dx, (forall x, In x dx -> 0 <= x) -> length F = length G -> length G = length H -> l1 F H dx <= l1 F G dx + l1 G H dx.
Proof.
unfold l1, dot. induction F as [|a F IH]; intros [|b G] [|c H] dx D L L'; cbn in L, L'; try discriminate; [cbn; lra|]. destruct dx as [|d dx]; cbn; [lra|].
assert (I := IH G H dx (fun z I => D z (or_intror I)) ltac:(congruence) ltac:(congruence)). assert (T : Rabs (a - c) <= Rabs (a - b) + Rabs (b - c)). { replace (a - c) with ((a - b) + (b - c)) by lra. apply Rabs_triang. }
apply (Rmult_le_compat_r d) in T; [lra|apply D; left; reflexivity].
Qed.
Lemma l1_comm F G dx : l1 F G dx = l1 G F dx.
Proof. unfold l1. f_equal. apply map2_comm. intros. apply Rabs_minus_sym. Qed.
End Dist.
