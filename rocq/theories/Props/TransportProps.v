(** Property C205: wasserstein_1d of densities on a grid measures how far mass moves. *)
From Coq Require Import Reals Lra Lia.
From Verif Require Import Model.Prelude Spec.Sums Model.GGMPDensity Spec.TransportSpec.
Local Open Scope R_scope.

Lemma lsumE l : lsum l = sum l. Proof. induction l; cbn; congruence. Qed.
Lemma even_length n : forall a h, length (even_grid a h n) = n. Proof. induction n; intros; cbn; auto. Qed.
Lemma even_nth n : forall a h i, (i < n)%nat -> nth i (even_grid a h n) 0 = a + INR i * h.
Proof.
  induction n as [|n IH]; intros a h i Hi; [lia|]. destruct i as [|i]; cbn [even_grid nth]; [simpl; ring|]. rewrite IH by lia. rewrite S_INR. ring.
Qed.
Lemma map_const_seq (f : nat -> R) h n : forall s, (forall i, (s <= i < s + n)%nat -> f i = h) -> map f (seq s n) = repeat h n.
Proof. induction n as [|n IH]; intros s H; cbn; [reflexivity|]. rewrite H by lia. f_equal. apply IH. intros i Hi. apply H. lia. Qed.
Lemma even_gradient a h n : (2 <= n)%nat -> gradient (even_grid a h n) = Ok (repeat h n).
Proof.
  intros N. unfold gradient. rewrite even_length. destruct (Nat.ltb_spec n 2); [lia|]. f_equal. apply map_const_seq. intros i Hi.
  destruct (Nat.eqb_spec i 0) as [->|N0]; [rewrite !even_nth by lia; simpl; ring|].
  destruct (Nat.eqb_spec i (n - 1)) as [->|N1].
  - rewrite !even_nth by lia. replace (n - 1)%nat with (S (n - 2)) at 1 by lia. rewrite S_INR. ring.
  - rewrite !even_nth by lia. replace (i + 1)%nat with (S (S (i - 1))) by lia. rewrite !S_INR. field.
Qed.
Lemma map2_repeat h : forall l, map2 Rmult l (repeat h (length l)) = map (fun x => x * h) l.
Proof. induction l; cbn; congruence. Qed.
Lemma sum_scale c l : sum (map (fun x => x * c) l) = sum l * c. Proof. induction l; cbn; [ring|rewrite IHl; ring]. Qed.
Lemma weigh_scale c : forall x l, weigh x (map (fun v => v * c) l) = weigh x l * c.
Proof. induction x as [|a x IH]; intros [|b l]; cbn; try ring. rewrite IH. ring. Qed.
Lemma cumsum_sum l : forall acc a h, h * sum (cumsum acc l) = h * INR (length l) * acc + (INR (length l) * h + a) * sum l - weigh (even_grid a h (length l)) l.
Proof.
  induction l as [|x l IH]; intros acc a h; [cbn; ring|]. cbn [cumsum sum length even_grid weigh]. rewrite Rmult_plus_distr_l, (IH _ (a + h)). rewrite S_INR. ring.
Qed.
Lemma cumsum_len l : forall acc, length (cumsum acc l) = length l. Proof. induction l; intros; cbn; auto. Qed.
Lemma diff_bound h : 0 <= h -> forall F G, length F = length G ->
  Rabs (h * sum F - h * sum G) <= lsum (map2 Rmult (map2 (fun a b => Rabs (a - b)) F G) (repeat h (length F))).
Proof.
  intros Hh. induction F as [|x F IH]; intros [|y G] L; try discriminate L; cbn.
  - rewrite Rmult_0_r, Rminus_diag_eq by reflexivity. rewrite Rabs_R0. lra.
  - assert (L' : length F = length G) by now injection L. specialize (IH G L').
    replace (h * (x + sum F) - h * (y + sum G)) with ((x - y) * h + (h * sum F - h * sum G)) by ring.
    eapply Rle_trans; [apply Rabs_triang|]. apply Rplus_le_compat; [|exact IH]. rewrite Rabs_mult, (Rabs_pos_eq h Hh). lra.
Qed.
Lemma diff_exact h : forall F G, Forall2 (fun a b => b <= a) F G ->
  lsum (map2 Rmult (map2 (fun a b => Rabs (a - b)) F G) (repeat h (length F))) = h * sum F - h * sum G.
Proof. induction 1 as [|x y F G Hxy _ IH]; cbn; [ring|]. rewrite IH, Rabs_pos_eq by lra. ring. Qed.
(** running sums in the order of the prefixes *)
Lemma cumsum_order : forall l m a b, length l = length m -> (forall k, (1 <= k <= length l)%nat -> b + sum (firstn k m) <= a + sum (firstn k l)) ->
  Forall2 (fun x y => y <= x) (cumsum a l) (cumsum b m).
Proof.
  induction l as [|x l IH]; intros [|y m] a b L H; try discriminate L; cbn; constructor.
  - specialize (H 1%nat). cbn in H. assert (1 <= 1 <= S (length l))%nat by lia. specialize (H H0). lra.
  - apply IH; [now injection L|]. intros k Hk. specialize (H (S k)). cbn in H. assert (1 <= S k <= S (length l))%nat by lia. specialize (H H0). lra.
Qed.
Lemma firstn_scale c k l : sum (firstn k (map (fun x => x * c) l)) = sum (firstn k l) * c.
Proof. rewrite firstn_map. apply sum_scale. Qed.

Section T.
Variables (tiny : R) (Ht : 0 < tiny).
Variables (a h : R) (n : nat) (Hh : 0 < h) (Hn : (2 <= n)%nat).
Let x := even_grid a h n.
Let g (S : R) := S * h / (S * h + tiny).                 (* the part of the mass the guard leaves *)

Lemma shares p : length p = n -> map2 Rmult (unit_mass tiny (repeat h n) p) (repeat h n) = map (fun v => v * (h / (sum (map pos p) * h + tiny))) (map pos p).
Proof.
  intros L. unfold unit_mass. rewrite lsumE. set (q := map pos p). assert (L' : length q = n) by (unfold q; now rewrite map_length).
  assert (E : map2 Rmult q (repeat h n) = map (fun v => v * h) q) by (rewrite <- L'; apply map2_repeat). rewrite E, sum_scale. set (z := sum q * h + tiny).
  assert (L2 : length (map (fun v => v / z) q) = n) by now rewrite map_length. rewrite <- L2 at 1. rewrite map2_repeat, map_map. apply map_ext. intros v. unfold Rdiv. ring.
Qed.
Lemma transport p q S : length p = n -> length q = n -> sum (map pos p) = S -> sum (map pos q) = S -> 0 < S ->
  exists w, wasserstein_1d tiny x p q = Ok w /\
    Rabs (centre x (map pos q) - centre x (map pos p)) * g S <= w /\
    (to_the_right (map pos p) (map pos q) -> w = (centre x (map pos q) - centre x (map pos p)) * g S).
Proof.
  intros Lp Lq Sp Sq PS. unfold wasserstein_1d, with_grid, x. rewrite even_gradient by exact Hn.
  assert (Hr : map Rabs (repeat h n) = repeat h n).
  { assert (Q : forall k, map Rabs (repeat h k) = repeat h k) by (induction k; cbn; [reflexivity|rewrite IHk, Rabs_pos_eq by lra; reflexivity]). apply Q. }
  rewrite Hr, !shares by assumption. rewrite Sp, Sq. set (c := h / (S * h + tiny)). set (P := map (fun v => v * c) (map pos p)). set (Q := map (fun v => v * c) (map pos q)).
  assert (LP : length P = n) by (unfold P; now rewrite !map_length). assert (LQ : length Q = n) by (unfold Q; now rewrite !map_length).
  assert (C0 : 0 < c). { unfold c. apply Rdiv_lt_0_compat; [exact Hh|]. assert (0 < S * h) by now apply Rmult_lt_0_compat. lra. }
  assert (D : h * sum (cumsum 0 P) - h * sum (cumsum 0 Q) = (centre (even_grid a h n) (map pos q) - centre (even_grid a h n) (map pos p)) * g S).
  { rewrite (cumsum_sum P 0 a h), (cumsum_sum Q 0 a h), LP, LQ. unfold P, Q. rewrite !sum_scale, !weigh_scale, Sp, Sq. unfold centre. rewrite Sp, Sq. unfold g, c.
    assert (S * h + tiny <> 0) by (assert (0 < S * h) by (now apply Rmult_lt_0_compat); lra). field. split; lra. }
  eexists. split; [reflexivity|]. set (F := cumsum 0 P) in *. set (G := cumsum 0 Q) in *.
  assert (LF : length F = n) by (unfold F; now rewrite cumsum_len). assert (LG : length G = n) by (unfold G; now rewrite cumsum_len).
  replace (repeat h n) with (repeat h (length F)) by now rewrite LF. split.
  - assert (G0 : 0 < g S). { unfold g. assert (0 < S * h) by now apply Rmult_lt_0_compat. apply Rdiv_lt_0_compat; lra. }
    rewrite <- (Rabs_pos_eq (g S)) by lra. rewrite <- Rabs_mult, <- D. apply diff_bound; [lra|congruence].
  - intros O. rewrite <- D. apply diff_exact. unfold F, G. apply cumsum_order; [congruence|]. intros k _. unfold P, Q. rewrite !firstn_scale.
    specialize (O k). assert (sum (firstn k (map pos q)) * c <= sum (firstn k (map pos p)) * c) by (apply Rmult_le_compat_r; lra). lra.
Qed.
End T.

(** ** a density moved by m cells *)
Lemma sum_app u v : sum (u ++ v) = sum u + sum v. Proof. induction u; cbn; [ring|rewrite IHu; ring]. Qed.
Lemma sum_zeros m : sum (repeat 0 m) = 0. Proof. induction m; cbn; lra. Qed.
Lemma weigh_grid_app h : forall u v a, weigh (even_grid a h (length (u ++ v))) (u ++ v) = weigh (even_grid a h (length u)) u + weigh (even_grid (a + INR (length u) * h) h (length v)) v.
Proof.
  induction u as [|b u IH]; intros v a; [cbn [app length even_grid weigh]; simpl INR; rewrite Rmult_0_l, !Rplus_0_r; ring|].
  cbn [app length even_grid weigh]. rewrite IH, S_INR. replace (a + h + INR (length u) * h) with (a + (INR (length u) + 1) * h) by ring. ring.
Qed.
Lemma weigh_zeros h m : forall a, weigh (even_grid a h m) (repeat 0 m) = 0. Proof. induction m; intros; cbn; [reflexivity|rewrite IHm; ring]. Qed.
Lemma weigh_shift h d : forall l a, weigh (even_grid (a + d) h (length l)) l = weigh (even_grid a h (length l)) l + d * sum l.
Proof. induction l as [|b l IH]; intros a; cbn; [ring|]. replace (a + d + h) with (a + h + d) by ring. rewrite IH. ring. Qed.
Lemma pos_placed l m k : map pos (placed l m k) = placed (map pos l) m k.
Proof. unfold placed. rewrite !map_app. assert (Z : forall j, map pos (repeat 0 j) = repeat 0 j) by (induction j; cbn; [reflexivity|rewrite IHj; unfold pos; rewrite Rmax_left by lra; reflexivity]). now rewrite !Z. Qed.
Lemma placed_sum l m k : sum (placed l m k) = sum l. Proof. unfold placed. rewrite !sum_app, !sum_zeros. ring. Qed.
Lemma placed_len l m k : length (placed l m k) = (m + length l + k)%nat. Proof. unfold placed. rewrite !app_length, !repeat_length. lia. Qed.
Lemma placed_weigh l m k a h : weigh (even_grid a h (m + length l + k)) (placed l m k) = weigh (even_grid a h (length l)) l + INR m * h * sum l.
Proof.
  rewrite <- placed_len. unfold placed. rewrite weigh_grid_app, weigh_grid_app, !repeat_length, !weigh_zeros, weigh_shift. ring.
Qed.
Lemma nonneg_prefix l : (forall v, In v l -> 0 <= v) -> forall k j, sum (firstn k l) <= sum (firstn (k + j) l).
Proof.
  induction l as [|v l IH]; intros H k j; [rewrite !firstn_nil; cbn; lra|].
  assert (N : forall k', 0 <= sum (firstn k' l)).
  { intros k'. specialize (IH (fun w Hw => H w (or_intror Hw)) 0%nat k'). cbn in IH. exact IH. }
  destruct k as [|k]; cbn [Nat.add firstn sum].
  - destruct j; cbn [firstn sum]; [lra|]. specialize (H v (or_introl eq_refl)). specialize (N j). lra.
  - specialize (IH (fun w Hw => H w (or_intror Hw)) k j). lra.
Qed.
Lemma firstn_placed l k' m k : sum (firstn k' (placed l m k)) = sum (firstn (k' - m) l).
Proof.
  unfold placed. rewrite firstn_app, sum_app, repeat_length. rewrite firstn_app, sum_app.
  assert (Z : forall i j, sum (firstn i (repeat 0 j)) = 0) by (induction i; intros [|j]; cbn; try reflexivity; rewrite IHi; ring). rewrite !Z. ring.
Qed.
Lemma placed_right l m k : (forall v, In v l -> 0 <= v) -> to_the_right (placed l 0 (m + k)) (placed l m k).
Proof.
  intros H k'. rewrite !firstn_placed, Nat.sub_0_r. destruct (Nat.le_gt_cases m k') as [L|L].
  - replace k' with ((k' - m) + m)%nat at 2 by lia. apply nonneg_prefix, H.
  - replace (k' - m)%nat with 0%nat by lia. exact (nonneg_prefix l H 0%nat k').
Qed.

(** C205 on evenly spaced points: between densities of the same mass the distance is at least the distance between their centres, and
    it is exactly that if all mass moves one way.  In particular a density moved by m cells is m cells away.  The factor is the
    part of the mass that the guard 1e-300 leaves. *)
Theorem transport_partial : forall tiny a h, 0 < tiny -> 0 < h ->
  (forall n p q S, (2 <= n)%nat -> length p = n -> length q = n -> sum (map pos p) = S -> sum (map pos q) = S -> 0 < S ->
     let x := even_grid a h n in
     exists w, wasserstein_1d tiny x p q = Ok w /\
       Rabs (centre x (map pos q) - centre x (map pos p)) * (S * h / (S * h + tiny)) <= w /\
       (to_the_right (map pos p) (map pos q) -> w = (centre x (map pos q) - centre x (map pos p)) * (S * h / (S * h + tiny)))) /\
  (forall l m k, let n := (m + length l + k)%nat in (2 <= n)%nat -> 0 < sum (map pos l) -> let M := sum (map pos l) * h in
     wasserstein_1d tiny (even_grid a h n) (placed l 0 (m + k)) (placed l m k) = Ok (INR m * h * (M / (M + tiny)))).
Proof.
  intros tiny a h T H. split; [intros n p q S N; intros; now apply transport|]. intros l m k n N P M.
  destruct (transport tiny T a h n H N (placed l 0 (m + k)) (placed l m k) (sum (map pos l))) as (w & -> & _ & E); try assumption.
  { rewrite placed_len. unfold n. lia. } { rewrite placed_len. reflexivity. } { now rewrite pos_placed, placed_sum. } { now rewrite pos_placed, placed_sum. }
  f_equal. rewrite E.
  - unfold centre. rewrite !pos_placed, !placed_sum. assert (E1 : n = (m + length (map pos l) + k)%nat) by (rewrite map_length; reflexivity).
    assert (E2 : n = (0 + length (map pos l) + (m + k))%nat) by (rewrite map_length; unfold n; lia).
    rewrite E1 at 1. rewrite placed_weigh. rewrite E2. rewrite placed_weigh. unfold M. simpl INR. field. split; [|lra].
    assert (0 < sum (map pos l) * h) by now apply Rmult_lt_0_compat. lra.
  - rewrite !pos_placed. apply placed_right. intros v Hv. apply in_map_iff in Hv. destruct Hv as (u & <- & _). apply Rmax_r.
Qed.
Print Assumptions transport_partial.

(** On points that are not evenly spaced it is not: all mass moves from 1 to 3, the distance reported is 3/2. *)
Theorem transport_refuted : forall tiny, 0 < tiny -> let x := [0; 1; 3] in let p := [0; 1; 0] in let q := [0; 0; 1] in
  to_the_right p q /\ centre x q - centre x p = 2 /\
  exists r, wasserstein_1d tiny x p q = Ok r /\ r < 3 / 2.
Proof.
  intros t T x p q. split.
  { intros k. unfold p, q. destruct k as [|[|[|[|k]]]]; cbn; try rewrite ?firstn_nil; cbn; lra. }
  split; [unfold centre, x, p, q; cbn; field|].
  assert (G : gradient x = Ok [1; 3 / 2; 2]) by (unfold x, gradient; cbn; repeat f_equal; lra).
  assert (A : map Rabs [1; 3 / 2; 2] = [1; 3 / 2; 2]) by (cbn; rewrite !Rabs_pos_eq by lra; reflexivity).
  unfold wasserstein_1d, with_grid. rewrite G, A. eexists. split; [reflexivity|]. unfold unit_mass, p, q. cbn [map map2 lsum cumsum].
  assert (P1 : pos 1 = 1) by (apply Rmax_left; lra). assert (P0 : pos 0 = 0) by (apply Rmax_left; lra). rewrite P1, P0.
  set (u := 3 / 2 / (3 / 2 + t)). set (v := 2 / (2 + t)).
  match goal with |- context [Rabs ?x1 * 1 + (Rabs ?x2 * (3 / 2) + (Rabs ?x3 * 2 + 0))] =>
    replace x1 with 0 by (field; lra); replace x2 with u by (unfold u; field; lra); replace x3 with (- (v - u)) by (unfold u, v; field; lra) end.
  assert (U : 0 < u) by (unfold u; apply Rdiv_lt_0_compat; lra).
  assert (Vu : v - u = t / 2 / ((2 + t) * (3 / 2 + t))) by (unfold u, v; field; lra).
  assert (K : 0 < (2 + t) * (3 / 2 + t)) by (apply Rmult_lt_0_compat; lra).
  assert (V : 0 < v - u) by (rewrite Vu; apply Rdiv_lt_0_compat; lra).
  rewrite Rabs_R0, Rabs_Ropp, !Rabs_pos_eq by lra.
  assert (U1 : 3 / 2 - 3 / 2 * u = 3 / 2 * t * (2 + t) / ((2 + t) * (3 / 2 + t))) by (unfold u; field; lra).
  assert (D : 2 * (v - u) < 3 / 2 - 3 / 2 * u).
  { rewrite Vu, U1. apply Rmult_lt_reg_r with ((2 + t) * (3 / 2 + t)); [exact K|]. unfold Rdiv. rewrite <- !Rmult_assoc.
    replace (2 * t * / 2 * / ((2 + t) * (3 * / 2 + t)) * (2 + t) * (3 * / 2 + t)) with t by (field; lra).
    replace (3 * / 2 * t * (2 + t) * / ((2 + t) * (3 * / 2 + t)) * (2 + t) * (3 * / 2 + t)) with (3 / 2 * t * (2 + t)) by (field; lra).
    assert (0 < t * t) by (apply Rmult_lt_0_compat; lra). lra. }
  lra.
Qed.
Print Assumptions transport_refuted.
(** 0.25 cells: the density 1, 3 on four points moved by two cells is half a unit away, up to the guard *)
Example transport_ex : wasserstein_1d (/ 10 ^ 300) (even_grid 0 (/ 4) 4) [1; 3; 0; 0] [0; 0; 1; 3] = Ok (/ 2 * (1 / (1 + / 10 ^ 300))).
Proof.
  destruct (transport_partial (/ 10 ^ 300) 0 (/ 4)) as (_ & H); [apply Rinv_0_lt_compat, pow_lt; lra|lra|].
  assert (P : map pos [1; 3] = [1; 3]) by (cbn; unfold pos; rewrite !Rmax_left by lra; reflexivity).
  specialize (H [1; 3] 2%nat 0%nat). rewrite P in H. cbn [Nat.add length placed repeat app sum INR] in H.
  replace ((1 + (3 + 0)) * / 4) with 1 in H by lra. replace ((1 + 1) * / 4) with (/ 2) in H by lra. apply H; [lia|lra].
Qed.
