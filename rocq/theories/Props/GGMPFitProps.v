(** C105-C110: the mixture fits of the stations. *)
From Coq Require Import Reals Lra Lia List Permutation Sorted Arith ZArith Psatz.
From Verif Require Import Model.Prelude Model.GGMPFit Spec.Sums Spec.GGMPFitSpec Proofs.GGMPFitP.
Import ListNotations.
Local Open Scope R_scope.

(** entry k of a list of means, and means and variances of a list of components *)
Notation "l '.[' k ]" := (nth k l 0) (at level 2, format "l .[ k ]").
Definition mean_of (cs : list (R * R)) (k : nat) : R := fst (nth k cs (0, 0)).
Definition var_of (cs : list (R * R)) (k : nat) : R := snd (nth k cs (0, 0)).
Definition spread (ys : list R) : R :=
  let n := length ys in let m := rsum (fun i => ys.[i]) n / INR n in rsum (fun i => (ys.[i] - m) ^ 2) n / INR n.

(** ** C105: the fit with given weights *)
Lemma em_image_ext K n w w' y m v m' v' : (forall k, (k < K)%nat -> w k = w' k) -> em_image K n w y m v m' v' -> em_image K n w' y m v m' v'.
Proof.
  intros W I k Hk. destruct (I k Hk) as [M V].
  assert (S : forall i, share K w' y m v i k = share K w y m v i k).
  { intros i. unfold share. rewrite (W k Hk). do 2 f_equal. apply rsum_ext. intros j Hj. now rewrite (W j Hj). }
  assert (N : mass K n w' y m v k = mass K n w y m v k) by (unfold mass; f_equal; apply rsum_ext; intros; apply S).
  rewrite N. split.
  - rewrite M. f_equal. apply rsum_ext. intros. now rewrite S.
  - rewrite V. do 2 f_equal. apply rsum_ext. intros. now rewrite S.
Qed.
Lemma em_image_ext_m K n w y m v m1 v1 m' v' : (forall k, (k < K)%nat -> m k = m1 k /\ v k = v1 k) -> em_image K n w y m v m' v' -> em_image K n w y m1 v1 m' v'.
Proof.
  intros W I k Hk. destruct (I k Hk) as [M V].
  assert (S : forall i, share K w y m1 v1 i k = share K w y m v i k).
  { intros i. unfold share. destruct (W k Hk) as [-> ->]. do 2 f_equal. apply rsum_ext. intros j Hj. destruct (W j Hj) as [-> ->]. reflexivity. }
  assert (N : mass K n w y m1 v1 k = mass K n w y m v k) by (unfold mass; f_equal; apply rsum_ext; intros; apply S).
  rewrite N. split.
  - rewrite M. f_equal. apply rsum_ext. intros. now rewrite S.
  - rewrite V. do 2 f_equal. apply rsum_ext. intros. now rewrite S.
Qed.
Lemma em_run_ext K n w w' y tol t m v m' v' : (forall k, (k < K)%nat -> w k = w' k) -> em_run K n w y tol t m v m' v' -> em_run K n w' y tol t m v m' v'.
Proof.
  intros W R. induction R; [apply run_last; eauto using em_image_ext|]. eapply run_more; eauto using em_image_ext.
Qed.
Lemma em_run_ext_m K n w y tol t m v m1 v1 m' v' : (forall k, (k < K)%nat -> m k = m1 k /\ v k = v1 k) -> em_run K n w y tol t m v m' v' -> em_run K n w y tol t m1 v1 m' v'.
Proof.
  intros W R. destruct R as [t m v m' v' I E L|t m v m2 v2 m' v' I (k & Hk & E) R].
  - apply run_last; [eapply em_image_ext_m; eauto| |exact L]. destruct E as [E|E]; [now left|right]. intros k Hk. destruct (W k Hk) as [<- _]. auto.
  - apply run_more with m2 v2; [eapply em_image_ext_m; eauto| |exact R]. exists k. split; [exact Hk|]. destruct (W k Hk) as [<- _]. exact E.
Qed.
(** the initial means of a call *)
Definition initial_means (start : list R -> nat -> list R) (ys : list R) (K : nat) (init : initial) : list R :=
  match init with Default => start ys K | Shared m | Copied m => m end.
Lemma fit_fixed_value argsort start ys K w init max_iter tol :
  ys <> [] -> length w = K -> (0 < K)%nat -> length (initial_means start ys K init) = K ->
  exists cs, fit_fixed argsort start ys (Z.of_nat K) w init max_iter tol =
      (Ok (take cs (argsort (map fst cs))), match init with Shared _ => Shared (map fst cs) | _ => init end) /\
    length cs = K /\
    cs = em_loop (Z.to_nat max_iter) tol (floored tiny w) ys (map (fun m => (m, variance_of ys / IZR (Z.max (Z.of_nat K) 1))) (initial_means start ys K init)).
Proof.
  intros Y L HK Lm. unfold fit_fixed. destruct (Nat.eqb_spec (length ys) 0) as [E|_]; [destruct ys; [congruence|discriminate]|].
  rewrite L, Z.eqb_refl. cbn [negb]. rewrite floored_length, L. fold (initial_means start ys K init). rewrite Lm, Nat.eqb_refl. cbn [negb].
  destruct (Nat.eqb_spec K 0); [lia|]. cbn [andb]. eexists. split; [reflexivity|]. split; [|reflexivity]. rewrite em_loop_length, map_length. exact Lm.
Qed.
Lemma variance_spread ys : variance_of ys = spread ys.
Proof.
  unfold variance_of, average_of, spread. rewrite map_length. f_equal. rewrite (lsum_map _ _ 0). apply rsum_ext. intros i _. rewrite (lsum_rsum ys 0). reflexivity.
Qed.
(** Sorted by mean, each mean with its own variance; the components are the outcome of the iteration from the initial means with common variance. *)
Theorem fixed_fit : forall argsort, argsort_contract argsort -> forall start ys w init max_iter tol, let K := length w in
  ys <> [] -> (0 < K)%nat -> (0 < max_iter)%Z -> length (initial_means start ys K init) = K ->
  exists out cs, fst (fit_fixed argsort start ys (Z.of_nat K) w init max_iter tol) = Ok out /\
    Permutation out cs /\ length out = K /\ StronglySorted Rle (map fst out) /\
    em_run K (length ys) (normalised K (fun k => w.[k])) (fun i => ys.[i]) tol (Z.to_nat max_iter)
      (fun k => (initial_means start ys K init).[k]) (fun _ => spread ys / INR K) (mean_of cs) (var_of cs).
Proof.
  intros argsort C start ys w init max_iter tol K Y HK Hm Lm.
  destruct (fit_fixed_value argsort start ys K w init max_iter tol Y eq_refl HK Lm) as (cs & F & L & E).
  exists (take cs (argsort (map fst cs))), cs. rewrite F. split; [reflexivity|].
  destruct (C (map fst cs)) as [P S]. rewrite map_length in P. split; [apply take_perm, P|]. split; [rewrite take_length by exact P; exact L|]. split; [apply take_sorted, C|].
  set (m0 := initial_means start ys K init) in *. set (v0 := variance_of ys / IZR (Z.max (Z.of_nat K) 1)) in *.
  apply em_run_ext with (fun k => (floored tiny w).[k]); [intros k Hk; apply floored_nth, Hk|].
  apply em_run_ext_m with (mean_of (map (fun m => (m, v0)) m0)) (var_of (map (fun m => (m, v0)) m0)).
  - intros k Hk. unfold mean_of, var_of. rewrite (nth_map _ _ _ 0) by (rewrite Lm; exact Hk). cbn. split; [reflexivity|].
    unfold v0. rewrite variance_spread. f_equal. rewrite INR_IZR_INZ. f_equal. lia.
  - pose proof (em_loop_run (floored tiny w) ys (Z.to_nat max_iter) tol (map (fun m => (m, v0)) m0)) as R.
    rewrite floored_length, map_length in R. rewrite <- E in R. apply R; [exact Lm|exact HK|lia].
Qed.
(** calls that are rejected *)
Theorem fixed_fit_rejects : forall argsort start ys K w init max_iter tol,
  (ys = [] -> fst (fit_fixed argsort start ys K w init max_iter tol) = Err FEmpty) /\
  (ys <> [] -> Z.of_nat (length w) <> K -> fst (fit_fixed argsort start ys K w init max_iter tol) = Err FWeights) /\
  (ys <> [] -> Z.of_nat (length w) = K -> length (initial_means start ys (length w) init) <> length w -> fst (fit_fixed argsort start ys K w init max_iter tol) = Err FMeans).
Proof.
  intros. unfold fit_fixed. split; [intros ->; reflexivity|]. split.
  - intros Y H. destruct (Nat.eqb_spec (length ys) 0) as [E|_]; [destruct ys; [congruence|discriminate]|]. apply Z.eqb_neq in H. rewrite H. reflexivity.
  - intros Y H N. destruct (Nat.eqb_spec (length ys) 0) as [E|_]; [destruct ys; [congruence|discriminate]|]. rewrite (proj2 (Z.eqb_eq _ _) H). cbn [negb]. rewrite floored_length.
    fold (initial_means start ys (length w) init). apply Nat.eqb_neq in N. rewrite N. reflexivity.
Qed.
Print Assumptions fixed_fit. Print Assumptions fixed_fit_rejects.
(** an argsort that meets the contract: insertion of positions *)
Fixpoint put_pos (l : list R) (i : nat) (o : list nat) : list nat :=
  match o with [] => [i] | j :: r => if Rle_dec l.[i] l.[j] then i :: o else j :: put_pos l i r end.
Definition argsort_ins (l : list R) : list nat := fold_right (put_pos l) [] (seq 0 (length l)).
Lemma put_pos_perm l i o : Permutation (put_pos l i o) (i :: o).
Proof. induction o as [|j o IH]; cbn; [reflexivity|]. destruct (Rle_dec _ _); [reflexivity|]. rewrite IH. apply perm_swap. Qed.
Lemma put_pos_sorted l i o : StronglySorted Rle (map (fun i => l.[i]) o) -> StronglySorted Rle (map (fun i => l.[i]) (put_pos l i o)).
Proof.
  induction o as [|j o IH]; cbn; intros S; [repeat constructor|]. destruct (Rle_dec l.[i] l.[j]) as [H|H].
  - cbn. constructor; [exact S|]. inversion_clear S. constructor; [exact H|]. eapply Forall_impl; [|exact H1]. cbn. intros. lra.
  - cbn. inversion_clear S. constructor; [auto|]. apply Forall_forall. intros x Hx. apply in_map_iff in Hx. destruct Hx as (k & <- & Hk).
    apply (Permutation_in _ (put_pos_perm l i o)) in Hk. destruct Hk as [<-|Hk]; [lra|]. rewrite Forall_forall in H1. apply H1, in_map_iff. eauto.
Qed.
Lemma argsort_ins_ok : argsort_contract argsort_ins.
Proof.
  intros l. unfold argsort_ins. generalize (seq 0 (length l)) as o. induction o as [|i o [P S]]; cbn; [split; constructor|]. split.
  - rewrite put_pos_perm. now constructor.
  - apply put_pos_sorted, S.
Qed.
Example fixed_fit_ex : exists out, fst (fit_fixed argsort_ins (fun _ _ => [5; 2]) [1; 2; 6] 2 [1; 1] Default 0 1) = Ok out /\ map fst out = [2; 5].
Proof.
  eexists. split; [reflexivity|]. unfold argsort_ins. cbn [em_loop Z.to_nat map fst length seq fold_right put_pos nth].
  cbn [put_pos nth]. destruct (Rle_dec 5 2); [lra|]. reflexivity.
Qed.

(** ** C106: fitted values and the range of the data *)
(** the part that holds: means stay between the extremes of the data and zero, variances between 1e-6 and the square of that range plus 1e-6 *)
Theorem fit_range_partial : forall argsort, argsort_contract argsort -> forall start ys w init max_iter tol out lo hi,
  (0 < max_iter)%Z -> w <> [] ->
  fst (fit_fixed argsort start ys (Z.of_nat (length w)) w init max_iter tol) = Ok out ->
  lo <= 0 <= hi -> (forall y, In y ys -> lo <= y <= hi) ->
  forall c, In c out -> lo <= fst c <= hi /\ / 10 ^ 6 <= snd c <= / 10 ^ 6 + (hi - lo) ^ 2.
Proof.
  intros argsort C start ys w init max_iter tol out lo hi Hm Hw F Z0 Y c Hc.
  assert (HK : (0 < length w)%nat) by (destruct w; [congruence|cbn; lia]).
  destruct (fixed_fit_rejects argsort start ys (Z.of_nat (length w)) w init max_iter tol) as (R1 & _ & R3).
  assert (Ny : ys <> []) by (intros E; rewrite (R1 E) in F; discriminate).
  assert (Lm : length (initial_means start ys (length w) init) = length w).
  { destruct (Nat.eq_dec (length (initial_means start ys (length w) init)) (length w)) as [|N]; auto. rewrite (R3 Ny eq_refl N) in F. discriminate. }
  destruct (fixed_fit argsort C start ys w init max_iter tol Ny HK Hm Lm) as (out' & cs & F' & P & L & _ & R).
  rewrite F' in F. injection F as <-. apply (Permutation_in _ P) in Hc. destruct (In_nth cs c (0, 0) Hc) as (k & Hk & <-). rewrite <- (Permutation_length P), L in Hk.
  refine (run_range _ _ _ _ _ _ _ _ _ _ lo hi _ R Z0 _ k Hk).
  - intros j Hj. unfold normalised. pose proof tiny_pos as T. unfold tiny in T.
    assert (N : forall i, 0 < Rmax w.[i] (/ 10 ^ 12)) by (intros i; pose proof (Rmax_r w.[i] (/ 10 ^ 12)); lra).
    apply Rmult_le_pos; [left; apply N|]. left. apply Rinv_0_lt_compat. destruct (length w) as [|p]; [lia|]. cbn.
    assert (0 <= rsum (fun j => Rmax w.[j] (/ 10 ^ 12)) p) by (apply rsum_nonneg; intros; left; apply N). pose proof (N p). cbn in *. lra.
  - intros i Hi. apply Y, nth_In, Hi.
Qed.
(** A component far from all data is pulled to zero, not into the range of the data: here all data are 300 and a fitted mean is below 1. *)
Lemma exp_tiny x : 0 < x -> exp (- x) < / x.
Proof. intros H. rewrite exp_Ropp. apply Rinv_lt_contravar; [apply Rmult_lt_0_compat; [exact H|apply exp_pos]|]. pose proof (exp_ineq1 x ltac:(lra)). lra. Qed.
Lemma run_one K n w y tol m v m' v' : em_run K n w y tol 1 m v m' v' -> em_image K n w y m v m' v'.
Proof. intros R. inversion R as [|t ? ? m1 v1 ? ? I E R']; subst; auto. inversion R'; lia. Qed.
Lemma far_share h d u : 0 < h -> 0 <= d -> 0 < u -> let a := u * exp (- (d / h)) in let b := u * exp 0 in
  0 < a / (a + b + / 10 ^ 12) <= exp (- (d / h)).
Proof.
  intros H D U a b. assert (T : 0 < / 10 ^ 12) by (apply Rinv_0_lt_compat, pow_lt; lra). assert (A : 0 < a) by (apply Rmult_lt_0_compat; [exact U|apply exp_pos]).
  assert (B : b = u) by (unfold b; rewrite exp_0; ring). rewrite B. split; [apply Rmult_lt_0_compat; [exact A|apply Rinv_0_lt_compat; lra]|].
  apply (Rmult_le_reg_r (a + u + / 10 ^ 12)); [lra|]. unfold Rdiv at 1. rewrite Rmult_assoc, Rinv_l, Rmult_1_r by lra. unfold a at 1. pose proof (exp_pos (- (d / h))). nra.
Qed.
Theorem fit_range_refuted : ~ (forall argsort start ys w init max_iter tol out lo hi, argsort_contract argsort ->
  (0 < max_iter)%Z -> w <> [] -> fst (fit_fixed argsort start ys (Z.of_nat (length w)) w init max_iter tol) = Ok out ->
  (forall y, In y ys -> lo <= y <= hi) -> forall c, In c out -> lo / 300 <= fst c).
Proof.
  intros H. set (F := fixed_fit argsort_ins argsort_ins_ok (fun _ _ => []) [300] [1; 1] (Copied [300; 10000]) 1 1 ltac:(discriminate) ltac:(cbn; lia) ltac:(lia) eq_refl).
  destruct F as (out & cs & E & P & L & _ & R).
  assert (Lc : length cs = 2%nat) by (rewrite <- (Permutation_length P); exact L).
  assert (Hc : In (nth 1 cs (0, 0)) out) by (apply (Permutation_in _ (Permutation_sym P)), nth_In; lia).
  specialize (H argsort_ins (fun _ _ => []) [300] [1; 1] (Copied [300; 10000]) 1%Z 1 out 300 300 argsort_ins_ok ltac:(lia) ltac:(discriminate) E
    ltac:(intros y [<-|[]]; lra) _ Hc).
  change (Z.to_nat 1) with 1%nat in R. apply run_one in R. destruct (R 1%nat ltac:(cbn; lia)) as [M _].
  change (fst (nth 1 cs (0, 0))) with (mean_of cs 1) in H. rewrite M in H. clear M R.
  unfold mass in H. cbn [length rsum nth] in H.
  assert (S0 : spread [300] / INR 2 = 0). { unfold spread. cbn. field. }
  cbn [length] in H. rewrite S0 in H. unfold share, normalised, normal in H. cbn [length rsum nth initial_means] in H.
  rewrite !(Rmax_left 1) in H by (rewrite <- Rinv_1; apply Rinv_le_contravar; [lra|apply pow_R1_Rle; lra]).
  rewrite (Rmax_right 0) in H by (left; apply Rinv_0_lt_compat, pow_lt; lra).
  set (h := 2 * / 10 ^ 12) in *. set (u := / sqrt (2 * PI * / 10 ^ 12)) in *.
  assert (T : 0 < / 10 ^ 12) by (apply Rinv_0_lt_compat, pow_lt; lra).
  assert (U : 0 < u). { unfold u. apply Rinv_0_lt_compat, sqrt_lt_R0. pose proof PI_RGT_0. apply Rmult_lt_0_compat; lra. }
  assert (Hh : 0 < h) by (unfold h; lra).
  replace (- ((300 - 300) ^ 2 / h)) with 0 in H by (field; lra). replace ((300 - 10000) ^ 2) with 94090000 in H by ring.
  pose proof (far_share h 94090000 (/ 2 * u) Hh ltac:(lra) ltac:(lra)) as B. cbv zeta in B.
  match type of H with _ <= (0 + ?s * 300) / _ => set (sh := s) in * end.
  match type of B with 0 < ?s <= _ => replace s with sh in B end.
  2: { unfold sh. f_equal; [field|]. field. }
  assert (Q : exp (- (94090000 / h)) < / (94090000 / h)). { apply exp_tiny. apply Rmult_lt_0_compat; [lra|apply Rinv_0_lt_compat, Hh]. }
  assert (G : / (94090000 / h) = h / 94090000) by (field; lra). rewrite G in Q. assert (Hq : h = 2 * / 10 ^ 12) by reflexivity.
  destruct B as [B1 B2].
  assert (K1 : (0 + sh * 300) / (0 + sh + / 10 ^ 12) < 300 / 300).
  { apply (Rmult_lt_reg_r (0 + sh + / 10 ^ 12)); [lra|]. unfold Rdiv at 1. rewrite Rmult_assoc, Rinv_l, Rmult_1_r by lra. lra. }
  lra.
Qed.
Print Assumptions fit_range_partial. Print Assumptions fit_range_refuted.

(** ** C107: the weights belong to the components that are returned *)
(** the part that holds: with equal weights the mixture of the returned components is the fitted mixture *)
Lemma mixture_lsum K c cs y : length cs = K -> mixture_density K (fun _ => c) (mean_of cs) (var_of cs) y = c * lsum (map (fun p => normal (fst p) (snd p) y) cs).
Proof. intros L. unfold mixture_density. rewrite rsum_scal. f_equal. rewrite (lsum_map _ _ (0, 0)), L. reflexivity. Qed.
Lemma lsum_perm a b : Permutation a b -> lsum a = lsum b.
Proof. induction 1; cbn in *; unfold lsum in *; lra. Qed.
Theorem weights_match_partial : forall argsort, argsort_contract argsort -> forall start ys w init max_iter tol out, let K := length w in
  (0 < max_iter)%Z -> w <> [] -> (forall k, (k < K)%nat -> w.[k] = w.[0]) ->
  fst (fit_fixed argsort start ys (Z.of_nat K) w init max_iter tol) = Ok out ->
  exists m v, em_run K (length ys) (normalised K (fun k => w.[k])) (fun i => ys.[i]) tol (Z.to_nat max_iter)
      (fun k => (initial_means start ys K init).[k]) (fun _ => spread ys / INR K) m v /\
    forall y, mixture_density K (normalised K (fun k => w.[k])) (mean_of out) (var_of out) y = mixture_density K (normalised K (fun k => w.[k])) m v y.
Proof.
  intros argsort C start ys w init max_iter tol out K Hm Hw U F. assert (HK : (0 < K)%nat) by (unfold K; destruct w; [congruence|cbn; lia]).
  destruct (fixed_fit_rejects argsort start ys (Z.of_nat K) w init max_iter tol) as (R1 & _ & R3).
  assert (Ny : ys <> []) by (intros E; rewrite (R1 E) in F; discriminate).
  assert (Lm : length (initial_means start ys K init) = K).
  { destruct (Nat.eq_dec (length (initial_means start ys K init)) K) as [|N]; auto. rewrite (R3 Ny eq_refl N) in F. discriminate. }
  destruct (fixed_fit argsort C start ys w init max_iter tol Ny HK Hm Lm) as (out' & cs & F' & P & L & _ & R). fold K in F', L, R. rewrite F' in F. injection F as <-.
  exists (mean_of cs), (var_of cs). split; [exact R|]. intros y.
  assert (E : forall l, mixture_density K (normalised K (fun k => w.[k])) (mean_of l) (var_of l) y = mixture_density K (fun _ => normalised K (fun k => w.[k]) 0%nat) (mean_of l) (var_of l) y).
  { intros l. unfold mixture_density. apply rsum_ext. intros k Hk. f_equal. unfold normalised. cbv beta. rewrite (U k Hk). reflexivity. }
  rewrite !E, !mixture_lsum by (auto; rewrite <- (Permutation_length P); auto). f_equal. apply lsum_perm, Permutation_map, P.
Qed.
(** With different weights the weights go with the wrong components whenever sorting changes the order. *)
Lemma normal_same m v m' v' : (forall y, normal m v y = normal m' v' y) -> m = m'.
Proof.
  intros E. pose proof tiny_pos as T. unfold tiny in T. pose proof PI_RGT_0 as PI0.
  assert (G : forall a b c d, normal a b a = normal c d a -> / sqrt (2 * PI * Rmax b (/ 10 ^ 12)) <= / sqrt (2 * PI * Rmax d (/ 10 ^ 12)) /\ (/ sqrt (2 * PI * Rmax b (/ 10 ^ 12)) = / sqrt (2 * PI * Rmax d (/ 10 ^ 12)) -> a = c)).
  { intros a b c d H. unfold normal in H. set (hb := Rmax b (/ 10 ^ 12)) in *. set (hd := Rmax d (/ 10 ^ 12)) in *.
    assert (0 < hb) by (unfold hb; pose proof (Rmax_r b (/ 10 ^ 12)); lra). assert (Hd : 0 < hd) by (unfold hd; pose proof (Rmax_r d (/ 10 ^ 12)); lra).
    replace (- ((a - a) ^ 2 / (2 * hb))) with 0 in H by (field; lra). rewrite exp_0, Rmult_1_r in H.
    assert (Sd : 0 < / sqrt (2 * PI * hd)) by (apply Rinv_0_lt_compat, sqrt_lt_R0; nra).
    assert (X : 0 <= (a - c) ^ 2 / (2 * hd)) by (apply Rmult_le_pos; [apply pow2_ge_0|left; apply Rinv_0_lt_compat; lra]).
    assert (Le : exp (- ((a - c) ^ 2 / (2 * hd))) <= 1). { rewrite <- exp_0. destruct (Req_dec ((a - c) ^ 2 / (2 * hd)) 0) as [->|]; [rewrite Ropp_0; lra|]. left. apply exp_increasing. lra. }
    split; [rewrite H; nra|]. intros Q. rewrite Q in H. assert (E1 : exp (- ((a - c) ^ 2 / (2 * hd))) = exp 0) by (rewrite exp_0; nra). apply exp_inv in E1.
    assert (Z : (a - c) ^ 2 = 0). { replace ((a - c) ^ 2) with ((a - c) ^ 2 / (2 * hd) * (2 * hd)) by (field; lra). replace ((a - c) ^ 2 / (2 * hd)) with 0 by lra. ring. }
    nra. }
  destruct (G m v m' v' (E m)) as [L1 Q1]. destruct (G m' v' m v (eq_sym (E m'))) as [L2 _]. apply Q1. lra.
Qed.
Theorem weights_match_refuted : ~ (forall argsort start ys w init max_iter tol out, let K := length w in argsort_contract argsort ->
  (0 < max_iter)%Z -> w <> [] -> fst (fit_fixed argsort start ys (Z.of_nat K) w init max_iter tol) = Ok out ->
  exists m v, em_run K (length ys) (normalised K (fun k => w.[k])) (fun i => ys.[i]) tol (Z.to_nat max_iter)
      (fun k => (initial_means start ys K init).[k]) (fun _ => spread ys / INR K) m v /\
    forall y, mixture_density K (normalised K (fun k => w.[k])) (mean_of out) (var_of out) y = mixture_density K (normalised K (fun k => w.[k])) m v y).
Proof.
  intros H. set (w := [3; 1]). set (ys := [10; 0]).
  destruct (fixed_fit argsort_ins argsort_ins_ok (fun _ _ => []) ys w (Copied [10; 0]) 1 1 ltac:(discriminate) ltac:(cbn; lia) ltac:(lia) eq_refl) as (out & cs & E & P & L & St & R).
  specialize (H argsort_ins (fun _ _ => []) ys w (Copied [10; 0]) 1%Z 1 out argsort_ins_ok ltac:(lia) ltac:(discriminate) E). destruct H as (m & v & R' & D).
  change (Z.to_nat 1) with 1%nat in *. apply run_one in R. apply run_one in R'. change (length w) with 2%nat in *. change (length ys) with 2%nat in *. change (length cs) with (length cs) in *.
  cbn [initial_means] in R, R'.
  assert (W : forall k, (k < 2)%nat -> normalised 2 (fun k => w.[k]) k = w.[k] / 4).
  { intros k Hk. unfold normalised, w. cbn [rsum nth]. assert (O : / 10 ^ 12 <= 1) by (rewrite <- Rinv_1; apply Rinv_le_contravar; [lra|apply pow_R1_Rle; lra]).
    rewrite (Rmax_left 3), (Rmax_left 1) by lra. assert (k = 0 \/ k = 1)%nat as [->| ->] by lia; cbn [nth]; rewrite Rmax_left by lra; field. }
  (* the images agree *)
  assert (Em : forall k, (k < 2)%nat -> m k = mean_of cs k /\ v k = var_of cs k).
  { intros k Hk. destruct (R k Hk) as [M V]. destruct (R' k Hk) as [M' V']. assert (m k = mean_of cs k) by congruence. split; [assumption|]. rewrite V, V', H. reflexivity. }
  assert (Gt : mean_of cs 1 < mean_of cs 0).
  { destruct (R 0%nat ltac:(lia)) as [M0 _]. destruct (R 1%nat ltac:(lia)) as [M1 _]. rewrite M0, M1. clear - W.
    unfold mass. cbn [rsum]. unfold share. cbn [rsum]. rewrite !W by lia. unfold ys, w. cbn [nth].
    set (V := spread [10; 0] / INR 2). assert (EV : V = 25 / 2). { unfold V, spread. cbn. field. }
    set (c := / sqrt (2 * PI * Rmax V (/ 10 ^ 12))).
    assert (T : 0 < / 10 ^ 12) by (apply Rinv_0_lt_compat, pow_lt; lra). assert (O : / 10 ^ 12 <= 1) by (rewrite <- Rinv_1; apply Rinv_le_contravar; [lra|apply pow_R1_Rle; lra]).
    assert (RV : Rmax V (/ 10 ^ 12) = 25 / 2) by (rewrite EV; apply Rmax_left; lra).
    assert (Cp : 0 < c). { unfold c. rewrite RV. apply Rinv_0_lt_compat, sqrt_lt_R0. pose proof PI_RGT_0. lra. }
    set (q := exp (-4)). assert (Q0 : 0 < q) by apply exp_pos. assert (Q1 : q < 1) by (unfold q; rewrite <- exp_0; apply exp_increasing; lra).
    assert (N1 : normal 10 V 10 = c). { unfold normal. fold c. rewrite RV. replace (- ((10 - 10) ^ 2 / (2 * (25 / 2)))) with 0 by field. rewrite exp_0. ring. }
    assert (N2 : normal 0 V 0 = c). { unfold normal. fold c. rewrite RV. replace (- ((0 - 0) ^ 2 / (2 * (25 / 2)))) with 0 by field. rewrite exp_0. ring. }
    assert (N3 : normal 0 V 10 = c * q). { unfold normal. fold c. rewrite RV. replace (- ((10 - 0) ^ 2 / (2 * (25 / 2)))) with (-4) by field. reflexivity. }
    assert (N4 : normal 10 V 0 = c * q). { unfold normal. fold c. rewrite RV. replace (- ((0 - 10) ^ 2 / (2 * (25 / 2)))) with (-4) by field. reflexivity. }
    rewrite N1, N2, N3, N4. clearbody c q. clear N1 N2 N3 N4 RV EV V W O.
    set (e := / 10 ^ 12) in *. clearbody e. set (D0 := 0 + 3 / 4 * c + 1 / 4 * (c * q) + e). set (D1 := 0 + 3 / 4 * (c * q) + 1 / 4 * c + e).
    assert (P0 : 0 < D0) by (unfold D0; nra). assert (P1 : 0 < D1) by (unfold D1; nra). clearbody D0 D1.
    set (i0 := / D0). set (i1 := / D1). assert (I0 : 0 < i0) by (apply Rinv_0_lt_compat, P0). assert (I1 : 0 < i1) by (apply Rinv_0_lt_compat, P1). unfold Rdiv. fold i0 i1. clearbody i0 i1.
    assert (CQ : 0 < c * q) by nra. assert (CQ1 : c * q < c) by nra.
    set (s00 := 3 * / 4 * c * i0). set (s10 := 3 * / 4 * (c * q) * i1). set (s01 := 1 * / 4 * (c * q) * i0). set (s11 := 1 * / 4 * c * i1).
    assert (S00 : 0 < s00) by (unfold s00; apply Rmult_lt_0_compat; lra). assert (S10 : 0 < s10) by (unfold s10; apply Rmult_lt_0_compat; lra).
    assert (S01 : 0 < s01) by (unfold s01; apply Rmult_lt_0_compat; lra). assert (S11 : 0 < s11) by (unfold s11; apply Rmult_lt_0_compat; lra).
    assert (A : s01 < s00) by (unfold s00, s01; apply Rmult_lt_compat_r; lra).
    assert (B : s01 * s10 < s00 * s11).
    { unfold s00, s01, s10, s11. assert (0 < i0 * i1) by (apply Rmult_lt_0_compat; lra). assert (c * q * (c * q) < c * c) by nra. nra. }
    clearbody s00 s01 s10 s11.
    assert (X : forall p r, 0 < p -> 0 < r -> (0 + p * 10 + r * 0) * / (0 + p + r + e) = 10 * p / (p + r + e)) by (intros; field; lra).
    rewrite !X by lra.
    apply (Rmult_lt_reg_r ((s01 + s11 + e) * (s00 + s10 + e))); [apply Rmult_lt_0_compat; lra|].
    replace (10 * s01 / (s01 + s11 + e) * ((s01 + s11 + e) * (s00 + s10 + e))) with (10 * s01 * (s00 + s10 + e)) by (field; lra).
    replace (10 * s00 / (s00 + s10 + e) * ((s01 + s11 + e) * (s00 + s10 + e))) with (10 * s00 * (s01 + s11 + e)) by (field; lra).
    nra. }
  (* the sorted list is the reversed one *)
  assert (Lc : length cs = 2%nat) by (rewrite <- (Permutation_length P); exact L).
  destruct cs as [|c0 [|c1 [|]]]; try discriminate. unfold mean_of in Gt. cbn in Gt.
  assert (O : out = [c1; c0]).
  { apply Permutation_sym, Permutation_length_2_inv in P. destruct P as [-> | ->]; auto. exfalso. cbn in St. inversion_clear St. inversion_clear H0. lra. }
  subst out. assert (N : c0 = c1 \/ fst c0 = fst c1); [right|destruct N as [->|N]; lra].
  apply (normal_same _ (snd c0) _ (snd c1)). intros y. specialize (D y). unfold mixture_density in D. cbn [rsum] in D. rewrite !W in D by lia.
  destruct (Em 0%nat ltac:(lia)) as [Em0 Ev0]. destruct (Em 1%nat ltac:(lia)) as [Em1 Ev1]. rewrite Em0, Ev0, Em1, Ev1 in D. unfold mean_of, var_of, w in D. cbn [nth] in D. lra.
Qed.
Print Assumptions weights_match_partial. Print Assumptions weights_match_refuted.
Example weights_match_ex : forall y, mixture_density 2 (fun k => [1; 3].[k]) (mean_of [(0, 1); (5, 1)]) (var_of [(0, 1); (5, 1)]) y = normal 0 1 y + 3 * normal 5 1 y.
Proof. intros y. unfold mixture_density. cbn. ring. Qed.

(** ** C108: arguments are left alone *)
(** the part that holds: initial means that are copied by numpy, calls without iterations and calls that raise *)
Theorem init_kept_partial : forall argsort start ys K w init max_iter tol,
  (match init with Shared _ => (max_iter <= 0)%Z \/ exists e, fst (fit_fixed argsort start ys K w init max_iter tol) = Err e | _ => True end) ->
  snd (fit_fixed argsort start ys K w init max_iter tol) = init.
Proof.
  intros argsort start ys K w init max_iter tol. unfold fit_fixed.
  destruct (_ =? 0)%nat; [reflexivity|]. destruct (negb _); [reflexivity|]. destruct (negb _); [reflexivity|]. destruct (_ && _)%bool; [reflexivity|]. cbn [fst snd].
  destruct init as [|m|m]; try reflexivity. intros [H|[e H]]; [|discriminate]. replace (Z.to_nat max_iter) with 0%nat by lia. cbn [em_loop]. rewrite map_map. cbn. now rewrite map_id.
Qed.
(** an array of floats is overwritten *)
Theorem init_kept_refuted : ~ (forall argsort start ys K w init max_iter tol, argsort_contract argsort -> snd (fit_fixed argsort start ys K w init max_iter tol) = init).
Proof.
  intros H. specialize (H argsort_ins (fun _ _ => []) [0] 1%Z [1] (Shared [1]) 1%Z 1 argsort_ins_ok).
  destruct (fit_fixed_value argsort_ins (fun _ _ => []) [0] 1 [1] (Shared [1]) 1 1 ltac:(discriminate) eq_refl ltac:(lia) eq_refl) as (cs & F & L & E).
  change (Z.of_nat 1) with 1%Z in F. rewrite F in H. cbn [snd] in H. injection H as H. clear F.
  destruct (fixed_fit argsort_ins argsort_ins_ok (fun _ _ => []) [0] [1] (Shared [1]) 1 1 ltac:(discriminate) ltac:(cbn; lia) ltac:(lia) eq_refl) as (out & cs' & F & P & _ & _ & R).
  change (Z.to_nat 1) with 1%nat in *. cbn [em_loop] in E.
  assert (M : fst (nth 0 cs (0, 0)) = 0).
  { assert (E' : cs = em_step (floored tiny [1]) [0] (map (fun m => (m, variance_of [0] / IZR (Z.max (Z.of_nat 1) 1))) (initial_means (fun _ _ => []) [0] 1 (Shared [1])))) by (rewrite E; destruct (Rlt_dec _ _); reflexivity).
    pose proof (em_step_image (floored tiny [1]) [0] (map (fun m => (m, variance_of [0] / IZR (Z.max (Z.of_nat 1) 1))) (initial_means (fun _ _ => []) [0] 1 (Shared [1]))) eq_refl 0%nat ltac:(cbn; lia)) as [I _].
    rewrite <- E' in I. cbn beta in I. rewrite I. cbn [length rsum nth]. unfold Rdiv. rewrite Rmult_0_r, Rplus_0_l. ring. }
  destruct cs as [|c [|]]; try discriminate. cbn in M. cbn in H. injection H as H. lra.
Qed.
Print Assumptions init_kept_partial. Print Assumptions init_kept_refuted.

(** ** C109: fits with free weights *)
(** what scikit-learn returns: K components, weights non-negative with sum one *)
Definition mixture_contract (mixture : station -> nat -> Z -> option Z -> option raw) : Prop := forall y K n seed r, mixture y K n seed = Some r ->
  length (r_weights r) = K /\ length (r_means r) = K /\ length (to_full K (r_covs r)) = K /\ (forall x, In x (r_weights r) -> 0 <= x) /\ lsum (r_weights r) = 1.
Theorem free_fit : forall argsort mixture, argsort_contract argsort -> mixture_contract mixture -> forall y K n_init seed floor sort g k,
  0 <= floor -> fit_free argsort mixture y K n_init seed floor sort = Ok (g, k) ->
  (1 <= K <= length (y_rows y))%nat /\ length (g_weights g) = K /\ length (g_means g) = K /\ length (g_covs g) = K /\
  lsum (g_weights g) = 1 /\ (forall x, In x (g_weights g) -> floor / (1 + INR K * floor) <= x /\ (0 < floor -> 0 < x)) /\
  (sort = true -> y_dim y = 1%nat -> StronglySorted Rle (map (fun m => m 0%nat) (g_means g))) /\
  exists r, mixture y K (Z.max 1 n_init) seed = Some r /\
    (* weights, means and covariances stay together; only their order may change, and only for one-dimensional data *)
    Permutation (combine (g_weights g) (combine (g_means g) (g_covs g))) (combine (floored floor (r_weights r)) (combine (r_means r) (to_full K (r_covs r)))) /\
    (sort = false \/ y_dim y <> 1%nat -> g_means g = r_means r) /\
    ((forall x, In x (r_weights r) -> floor <= x) -> Permutation (g_weights g) (r_weights r)).
Proof.
  intros argsort mixture C M y K n_init seed floor sort g k Hf F. unfold fit_free in F.
  destruct (Nat.eqb_spec (length (y_rows y)) 0); [discriminate|]. destruct (Nat.ltb_spec (length (y_rows y)) K); [discriminate|].
  destruct (mixture y K (Z.max 1 n_init) seed) as [r|] eqn:Er; [|discriminate]. destruct (M _ _ _ _ _ Er) as (Lw & Lm & Lc & Nn & Sum).
  assert (Hw : r_weights r <> []) by (intros E; rewrite E in Sum; cbn in Sum; lra).
  assert (HK : (1 <= K)%nat) by (rewrite <- Lw; destruct (r_weights r); [congruence|cbn; lia]).
  set (order := if (sort && (y_dim y =? 1)%nat)%bool then argsort (map (fun m => m 0%nat) (r_means r)) else seq 0 (length (floored floor (r_weights r)))) in *.
  injection F as <- _. cbn [g_weights g_means g_covs].
  assert (P : Permutation order (seq 0 K)).
  { unfold order. rewrite floored_length, Lw. destruct (sort && _)%bool; [|reflexivity]. destruct (C (map (fun m => m 0%nat) (r_means r))) as [P _]. rewrite map_length, Lm in P. exact P. }
  assert (Pos : 0 < floor \/ 0 <= floor /\ 0 < lsum (r_weights r)) by (right; split; [exact Hf|lra]).
  assert (PW : Permutation (take (floored floor (r_weights r)) order) (floored floor (r_weights r))) by (apply take_perm; rewrite floored_length, Lw; exact P).
  split; [lia|]. split; [rewrite take_length; rewrite floored_length, Lw; auto|]. split; [rewrite take_length; rewrite Lm; auto|]. split; [rewrite take_length; rewrite Lc; auto|].
  split; [rewrite (lsum_perm _ _ PW); apply floored_sum; auto|]. split; [|split].
  - intros x Hx. apply (Permutation_in _ PW) in Hx. destruct (floored_lower floor (r_weights r) Hw Pos Nn x Hx) as (A & B & _). split; [|exact B].
    apply Rle_trans with (2 := A). unfold Rdiv. apply Rmult_le_compat_l; [exact Hf|]. apply Rinv_le_contravar; [apply floored_sum_pos; auto|].
    pose proof (floored_scale floor (r_weights r) Nn) as S. rewrite Lw, Sum, (Rmax_left floor 0) in S by lra. exact S.
  - intros -> Hd. unfold order. rewrite Hd. cbn [andb Nat.eqb]. destruct (C (map (fun m => m 0%nat) (r_means r))) as [Pa S]. rewrite map_length in Pa.
    rewrite (take_map (r_means r) _ (fun _ => 0)).
    + rewrite map_map. erewrite map_ext_in; [exact S|]. intros i Hi. cbv beta. rewrite (nth_map _ _ _ (fun _ : nat => 0)); [reflexivity|]. apply (Permutation_in _ Pa) in Hi. apply in_seq in Hi. lia.
    + intros i Hi. apply (Permutation_in _ Pa) in Hi. apply in_seq in Hi. lia.
  - exists r. split; [reflexivity|]. split; [|split].
    + rewrite (take_combine (r_means r)) by congruence. rewrite take_combine by (rewrite floored_length, combine_length; lia). apply take_perm.
      rewrite !combine_length, floored_length, Lw, Lm, Lc, !Nat.min_id. exact P.
    + intros H1. assert (E : order = seq 0 (length (r_means r))). { unfold order. rewrite floored_length, Lw, Lm. destruct H1 as [->|H1]; [reflexivity|]. apply Nat.eqb_neq in H1. rewrite H1. now destruct sort. }
      rewrite E. apply take_seq.
    + intros H1. rewrite PW. assert (E : floored floor (r_weights r) = r_weights r); [|rewrite E; reflexivity].
      unfold floored. rewrite (map_ext_in (fun x => Rmax x floor) (fun x => x)) by (intros x Hx; apply Rmax_left, H1, Hx). rewrite map_id, Sum.
      rewrite (map_ext _ (fun x => x)) by (intros; field). apply map_id.
Qed.
(** fewer samples than components, no samples, and failing fits are rejected *)
Theorem free_fit_rejects : forall argsort mixture y K n_init seed floor sort,
  (y_rows y = [] -> fit_free argsort mixture y K n_init seed floor sort = Err GEmpty) /\
  (y_rows y <> [] -> (length (y_rows y) < K)%nat -> fit_free argsort mixture y K n_init seed floor sort = Err GFew).
Proof.
  intros. unfold fit_free. split; [intros ->; reflexivity|]. intros N H. destruct (Nat.eqb_spec (length (y_rows y)) 0) as [E|_]; [destruct (y_rows y); [congruence|discriminate]|].
  apply Nat.ltb_lt in H. rewrite H. reflexivity.
Qed.
Print Assumptions free_fit. Print Assumptions free_fit_rejects.
Example free_fit_ex : let mix (_ : station) K (_ : Z) (_ : option Z) := if (K =? 2)%nat then Some {| r_weights := [1; 0]; r_means := [(fun _ => 4); (fun _ => 2)]; r_covs := Spherical [1; 9] |} else None in
  mixture_contract mix /\ exists g, fit_free argsort_ins mix {| y_rows := [(fun _ => 1); (fun _ => 2)]; y_dim := 1 |} 2 0 None (1 / 4) true = Ok (g, 1%Z) /\ g_weights g = [1 / 5; 4 / 5].
Proof.
  intros mix. split.
  - intros y K n seed r. unfold mix. destruct (Nat.eqb_spec K 2) as [->|]; [|discriminate]. intros [= <-]. cbn. repeat split; auto; [|lra]. intros x [<-|[<-|[]]]; lra.
  - eexists. split; [reflexivity|]. cbn [g_weights r_weights r_means map]. unfold argsort_ins. cbn [length seq fold_right put_pos nth map].
    destruct (Rle_dec 4 2); [lra|]. unfold floored. cbn [map lsum fold_right put_pos]. rewrite (Rmax_left 1), (Rmax_right 0) by lra. cbn. f_equal; [field|]. f_equal. field.
Qed.

(** ** C110: covariances in full form; stations are fitted one by one *)
Lemma rsum_pick f d i : (i < d)%nat -> (forall j, (j < d)%nat -> j <> i -> f j = 0) -> rsum f d = f i.
Proof.
  intros Hi H. induction d as [|d IH]; [lia|]. cbn. destruct (Nat.eq_dec i d) as [->|N].
  - rewrite (rsum_ext f (fun _ => 0)) by (intros j Hj; apply H; lia). rewrite rsum_const. lra.
  - rewrite IH, (H d) by (try lia; intros; apply H; lia). lra.
Qed.
Lemma quadratic_diag d (v x : nat -> R) c : (forall i j, (i < d)%nat -> (j < d)%nat -> c i j = if (i =? j)%nat then v i else 0) -> quadratic d c x = rsum (fun i => v i * x i ^ 2) d.
Proof.
  intros C. unfold quadratic. apply rsum_ext. intros i Hi. rewrite (rsum_pick _ d i Hi).
  - rewrite C, Nat.eqb_refl by auto. ring.
  - intros j Hj N. rewrite C by auto. destruct (Nat.eqb_spec i j); [congruence|]. ring.
Qed.
Theorem full_covariances : forall K d c k m, nth_error (to_full K c) k = Some m ->
  match c with
  | Full l => nth_error l k = Some m
  | Diag l => exists v, nth_error l k = Some v /\ forall x, quadratic d m x = rsum (fun i => v i * x i ^ 2) d
  | Spherical l => exists s, nth_error l k = Some s /\ forall x, quadratic d m x = s * rsum (fun i => x i ^ 2) d
  | Tied t => (k < K)%nat /\ m = t
  end.
Proof.
  intros K d c k m H. destruct c as [l|l|l|t]; cbn in H; auto.
  - rewrite nth_error_map in H. destruct (nth_error l k) as [v|]; [|discriminate]. cbn in H. injection H as <-. exists v. split; [reflexivity|]. intros x. apply quadratic_diag. auto.
  - rewrite nth_error_map in H. destruct (nth_error l k) as [s|]; [|discriminate]. cbn in H. injection H as <-. exists s. split; [reflexivity|]. intros x. rewrite <- rsum_scal.
    apply (quadratic_diag d (fun _ => s)). intros i j _ _. unfold eye. destruct (i =? j)%nat; ring.
  - assert (Hk : (k < K)%nat) by (rewrite <- (repeat_length t K); apply nth_error_Some; congruence). split; [exact Hk|].
    apply nth_error_In in H. now apply repeat_spec in H.
Qed.
(** one matrix for each component *)
Theorem full_covariances_count : forall K c, length (to_full K c) = match c with Full l => length l | Diag l => length l | Spherical l => length l | Tied _ => K end.
Proof. intros K [l|l|l|t]; cbn; auto using map_length, repeat_length. Qed.
Print Assumptions full_covariances_count.
Theorem local_fits : forall argsort mixture ys K n_init seed floor,
  match fit_local argsort mixture ys K n_init seed floor with
  | Ok (l, d) => length l = length ys /\ (exists y r, ys = y :: r /\ d = y_dim y) /\
      forall i y, nth_error ys i = Some y -> exists g n, nth_error l i = Some g /\
        fit_free argsort mixture y K n_init (match seed with Some s => Some (s + Z.of_nat i)%Z | None => None end) floor false = Ok (g, n)
  | Err e => ys = [] /\ e = GIndex \/
      exists i y, nth_error ys i = Some y /\ fit_free argsort mixture y K n_init (match seed with Some s => Some (s + Z.of_nat i)%Z | None => None end) floor false = Err e
  end.
Proof.
  intros argsort mixture ys K n_init seed floor. unfold fit_local.
  assert (G : forall ys i0, match fit_stations argsort mixture ys i0 K n_init seed floor with
    | Ok l => length l = length ys /\ forall i y, nth_error ys i = Some y -> exists g n, nth_error l i = Some g /\
        fit_free argsort mixture y K n_init (option_map (fun s => (s + Z.of_nat (i0 + i))%Z) seed) floor false = Ok (g, n)
    | Err e => exists i y, nth_error ys i = Some y /\ fit_free argsort mixture y K n_init (option_map (fun s => (s + Z.of_nat (i0 + i))%Z) seed) floor false = Err e end).
  { clear ys. induction ys as [|y ys IH]; intros i0; cbn; [split; [reflexivity|intros [|] ?; discriminate]|].
    destruct (fit_free argsort mixture y K n_init (option_map (fun s => (s + Z.of_nat i0)%Z) seed) floor false) as [[g n]|e] eqn:F.
    - specialize (IH (S i0)). destruct (fit_stations argsort mixture ys (S i0) K n_init seed floor) as [l|e].
      + destruct IH as [L H]. split; [cbn; now rewrite L|]. intros [|i] z Hz; cbn in Hz.
        * injection Hz as <-. exists g, n. rewrite Nat.add_0_r. auto.
        * destruct (H i z Hz) as (g' & n' & A & B). exists g', n'. split; [exact A|]. rewrite <- Nat.add_succ_comm. exact B.
      + destruct IH as (i & z & A & B). exists (S i), z. split; [exact A|]. rewrite <- Nat.add_succ_comm. exact B.
    - exists 0%nat, y. rewrite Nat.add_0_r. auto. }
  specialize (G ys 0%nat). destruct (fit_stations argsort mixture ys 0 K n_init seed floor) as [l|e].
  - destruct G as [L H]. destruct ys as [|y r]; [left; auto|]. split; [exact L|]. split; [eauto|]. exact H.
  - right. exact G.
Qed.
Print Assumptions full_covariances. Print Assumptions local_fits.
Example local_fits_ex : let mix (_ : station) (K : nat) (_ : Z) (s : option Z) := Some {| r_weights := [1]; r_means := [fun _ => match s with Some s => IZR s | None => 0 end]; r_covs := Diag [fun _ => 1] |} in
  exists l, fit_local argsort_ins mix [{| y_rows := [fun _ => 1]; y_dim := 3 |}; {| y_rows := [fun _ => 1]; y_dim := 3 |}] 1 5 (Some 42%Z) 0 = Ok (l, 3%nat) /\
  map (fun g => map (fun m : nat -> R => m 0%nat) (g_means g)) l = [[42]; [43]].
Proof. intros mix. eexists. split; [reflexivity|]. reflexivity. Qed.
