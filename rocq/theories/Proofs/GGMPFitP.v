(** Lemmas on the mixture fits. *)
From Coq Require Import Reals Lra Lia List Permutation Sorted Arith ZArith Psatz.
From Verif Require Import Model.Prelude Model.GGMPFit Spec.Sums Spec.GGMPFitSpec.
Import ListNotations.
Local Open Scope R_scope.

Lemma tiny_pos : 0 < tiny. Proof. apply Rinv_0_lt_compat, pow_lt. lra. Qed.
Lemma rsum_first f n : rsum f (S n) = f 0%nat + rsum (fun i => f (S i)) n.
Proof. induction n; cbn in *; lra. Qed.
Lemma lsum_rsum l d : lsum l = rsum (fun i => nth i l d) (length l).
Proof.
  induction l as [|x l IH]; [reflexivity|]. cbn [length lsum fold_right]. rewrite rsum_first. cbn [nth]. unfold lsum in IH. rewrite IH. reflexivity.
Qed.
Lemma lsum_map {A} (f : A -> R) l d : lsum (map f l) = rsum (fun i => f (nth i l d)) (length l).
Proof.
  rewrite (lsum_rsum _ (f d)), map_length. apply rsum_ext. intros i _. apply map_nth.
Qed.
Lemma lsum_seq (f : nat -> R) n : lsum (map f (seq 0 n)) = rsum f n.
Proof.
  rewrite (lsum_map f _ 0%nat), seq_length. apply rsum_ext. intros i Hi. rewrite seq_nth; auto.
Qed.
Lemma nth_map {A B} (f : A -> B) l i d d' : (i < length l)%nat -> nth i (map f l) d' = f (nth i l d).
Proof. intros H. rewrite (nth_indep _ d' (f d)) by now rewrite map_length. apply map_nth. Qed.

Section EM.
Context (w ys : list R).
Let K := length w.
Let n := length ys.
Let wf k := nth k w 0.
Let yf i := nth i ys 0.
Let mf (cs : list comp) k := fst (nth k cs (0, 0)).
Let vf (cs : list comp) k := snd (nth k cs (0, 0)).
Lemma pdf_normal y m v : gaussian_pdf y m v = normal m v y.
Proof.
  unfold gaussian_pdf, normal, tiny. unfold Rdiv at 1. rewrite Rmult_comm. f_equal. f_equal.
  assert (0 < Rmax v (/ 10 ^ 12)) by (pose proof (Rmax_r v (/ 10 ^ 12)); pose proof tiny_pos as T; unfold tiny in T; lra). set (h := Rmax v (/ 10 ^ 12)) in *. clearbody h. field. lra.
Qed.
Lemma e_row_length cs y : length cs = K -> length (e_row w cs y) = K.
Proof. intros L. unfold e_row. rewrite !map_length, combine_length, L. unfold K. lia. Qed.
Lemma e_row_nth cs i k : length cs = K -> (k < K)%nat -> nth k (e_row w cs (yf i)) 0 = share K wf yf (mf cs) (vf cs) i k.
Proof.
  intros L Hk. unfold e_row. match goal with |- context [map ?f (combine w cs)] => set (r := map f (combine w cs)) end.
  assert (C : length (combine w cs) = K) by (rewrite combine_length, L; unfold K; lia).
  assert (E : forall j, (j < K)%nat -> nth j r 0 = wf j * normal (mf cs j) (vf cs j) (yf i)).
  { intros j Hj. unfold r. rewrite (nth_map _ _ _ (0, (0, 0))) by (eapply Nat.lt_le_trans; [exact Hj|]; apply Nat.eq_le_incl; symmetry; exact C). rewrite (combine_nth w cs j 0 (0, 0)) by (symmetry; exact L). cbn [fst snd]. rewrite pdf_normal. reflexivity. }
  assert (Lr : length r = K) by (unfold r; now rewrite map_length).
  rewrite (nth_map _ _ _ 0) by (now rewrite Lr). rewrite E by auto. unfold share. f_equal. f_equal. rewrite (lsum_rsum r 0), Lr. apply rsum_ext. intros j Hj. apply E, Hj.
Qed.
Lemma em_step_length cs : length (em_step w ys cs) = length cs.
Proof. unfold em_step. now rewrite map_length, seq_length. Qed.
Lemma em_step_image cs : length cs = K -> em_image K n wf yf (mf cs) (vf cs) (mf (em_step w ys cs)) (vf (em_step w ys cs)).
Proof.
  intros L k Hk.
  assert (E : nth k (em_step w ys cs) (0, 0) = m_one ys (map (fun row => nth k row 0) (map (e_row w cs) ys))).
  { unfold em_step. rewrite (nth_map _ _ _ 0%nat) by (rewrite seq_length; lia). rewrite seq_nth by lia. reflexivity. }
  assert (M1 : mf (em_step w ys cs) k = fst (nth k (em_step w ys cs) (0, 0))) by reflexivity. assert (V1 : vf (em_step w ys cs) k = snd (nth k (em_step w ys cs) (0, 0))) by reflexivity.
  rewrite M1, V1, E. clear M1 V1 E. set (col := map (fun row => nth k row 0) (map (e_row w cs) ys)).
  assert (Lc : length col = n) by (unfold col; now rewrite !map_length).
  assert (C : forall i, (i < n)%nat -> nth i col 0 = share K wf yf (mf cs) (vf cs) i k).
  { intros i Hi. unfold col. rewrite map_map, (nth_map _ _ _ 0) by exact Hi. apply e_row_nth; auto. }
  assert (N : lsum col + tiny = mass K n wf yf (mf cs) (vf cs) k).
  { unfold mass. fold tiny. f_equal. rewrite (lsum_rsum col 0), Lc. apply rsum_ext. exact C. }
  assert (S : forall f : R * R -> R, lsum (map f (combine col ys)) = rsum (fun i => f (share K wf yf (mf cs) (vf cs) i k, yf i)) n).
  { intros f. rewrite (lsum_map f _ (0, 0)), combine_length, Lc. fold n. rewrite Nat.min_id. apply rsum_ext. intros i Hi.
    rewrite combine_nth by exact Lc. rewrite C by exact Hi. reflexivity. }
  unfold m_one. cbn [fst snd]. rewrite N, !S. cbn [fst snd]. split; reflexivity.
Qed.
Lemma max_change_lt cs cs' tol : length cs = K -> length cs' = K -> (0 < K)%nat ->
  (max_change cs cs' < tol <-> forall k, (k < K)%nat -> Rabs (mf cs' k - mf cs k) < tol).
Proof.
  intros L L' HK. unfold max_change. match goal with |- context [map ?f (combine cs cs')] => set (l := map f (combine cs cs')) end.
  assert (Ll : length l = K) by (unfold l; rewrite map_length, combine_length, L, L'; lia).
  assert (E : forall k, (k < K)%nat -> nth k l 0 = Rabs (mf cs' k - mf cs k)).
  { intros k Hk. unfold l. rewrite (nth_map _ _ _ ((0, 0), (0, 0))) by (rewrite combine_length, L, L'; lia). rewrite combine_nth by congruence. reflexivity. }
  assert (P : forall x, In x l -> 0 <= x).
  { intros x Hx. unfold l in Hx. apply in_map_iff in Hx. destruct Hx as (p & <- & _). apply Rabs_pos. }
  assert (M : forall l : list R, (fold_right Rmax 0 l < tol <-> 0 < tol /\ forall x, In x l -> x < tol)).
  { clear. induction l as [|x l IH]; cbn.
    - split; [intros H; split; [exact H|intros ? []]|tauto].
    - split.
      + intros H. pose proof (Rmax_l x (fold_right Rmax 0 l)). pose proof (Rmax_r x (fold_right Rmax 0 l)). assert (F : fold_right Rmax 0 l < tol) by lra. apply IH in F.
        destruct F as [F1 F2]. split; auto. intros z [<-|Hz]; [lra|auto].
      + intros [T H]. apply Rmax_lub_lt; [auto|]. apply IH. auto. }
  rewrite M. split.
  - intros [_ H] k Hk. rewrite <- E by exact Hk. apply H, nth_In. now rewrite Ll.
  - intros H. assert (A : forall x, In x l -> x < tol).
    { intros x Hx. destruct (In_nth l x 0 Hx) as (k & Hk & <-). rewrite Ll in Hk. rewrite E by exact Hk. auto. }
    split; [|exact A]. pose proof (H 0%nat HK) as H0. pose proof (Rabs_pos (mf cs' 0%nat - mf cs 0%nat)). lra.
Qed.
Lemma em_loop_length t tol cs : length (em_loop t tol w ys cs) = length cs.
Proof. revert cs. induction t as [|t IH]; intros cs; [reflexivity|]. cbn. destruct (Rlt_dec _ tol); [apply em_step_length|]. rewrite IH. apply em_step_length. Qed.
Lemma em_loop_run t tol cs : length cs = K -> (0 < K)%nat -> (1 <= t)%nat ->
  em_run K n wf yf tol t (mf cs) (vf cs) (mf (em_loop t tol w ys cs)) (vf (em_loop t tol w ys cs)).
Proof.
  revert cs. induction t as [|t IH]; intros cs L HK Ht; [lia|]. cbn [em_loop].
  pose proof (em_step_image cs L) as I. assert (L' : length (em_step w ys cs) = K) by (now rewrite em_step_length).
  destruct (Rlt_dec (max_change cs (em_step w ys cs)) tol) as [C|C].
  - apply run_last; [exact I| |lia]. right. apply max_change_lt; auto.
  - destruct t as [|t].
    + cbn [em_loop]. apply run_last; [exact I|left; reflexivity|lia].
    + apply run_more with (mf (em_step w ys cs)) (vf (em_step w ys cs)); [exact I| |apply IH; auto; lia].
      assert (D : forall p, (forall k, (k < p)%nat -> Rabs (mf (em_step w ys cs) k - mf cs k) < tol) \/ exists k, (k < p)%nat /\ tol <= Rabs (mf (em_step w ys cs) k - mf cs k)).
      { induction p as [|p IHp]; [left; lia|]. destruct IHp as [A|(k & Hk & A)]; [|right; exists k; split; [lia|exact A]].
        destruct (Rlt_dec (Rabs (mf (em_step w ys cs) p - mf cs p)) tol) as [B|B].
        - left. intros k Hk. destruct (Nat.eq_dec k p) as [->|]; [exact B|apply A; lia].
        - right. exists p. split; [lia|lra]. }
      destruct (D K) as [A|A]; [|exact A]. exfalso. apply C. apply max_change_lt; auto.
Qed.
End EM.

(** ** consequences of being an image *)
Lemma normal_pos m v y : 0 < normal m v y.
Proof.
  unfold normal. assert (0 < Rmax v (/ 10 ^ 12)) by (pose proof (Rmax_r v (/ 10 ^ 12)); pose proof tiny_pos as T; unfold tiny in T; lra).
  apply Rmult_lt_0_compat; [|apply exp_pos]. apply Rinv_0_lt_compat, sqrt_lt_R0. pose proof PI_RGT_0. nra.
Qed.
Section Image.
Context (K n : nat) (w y : nat -> R) (Hw : forall k, (k < K)%nat -> 0 <= w k).
Lemma denominator_pos m v i : 0 < rsum (fun j => w j * normal (m j) (v j) (y i)) K + / 10 ^ 12.
Proof.
  assert (0 <= rsum (fun j => w j * normal (m j) (v j) (y i)) K).
  { apply rsum_nonneg. intros j Hj. pose proof (Hw j Hj). pose proof (normal_pos (m j) (v j) (y i)). nra. }
  pose proof tiny_pos as T. unfold tiny in T. lra.
Qed.
Lemma share_nonneg m v i k : (k < K)%nat -> 0 <= share K w y m v i k.
Proof.
  intros Hk. unfold share. apply Rmult_le_pos; [|left; apply Rinv_0_lt_compat, denominator_pos].
  pose proof (Hw k Hk). pose proof (normal_pos (m k) (v k) (y i)). nra.
Qed.
Lemma shares_below_one m v i : rsum (share K w y m v i) K < 1.
Proof.
  pose proof (denominator_pos m v i) as D. unfold share. set (N := rsum (fun j => w j * normal (m j) (v j) (y i)) K) in *.
  rewrite (rsum_ext _ (fun k => / (N + / 10 ^ 12) * (w k * normal (m k) (v k) (y i)))) by (intros; unfold Rdiv; ring).
  rewrite rsum_scal. fold N. pose proof tiny_pos as T. unfold tiny in T. apply (Rmult_lt_reg_l (N + / 10 ^ 12)); [exact D|]. rewrite <- Rmult_assoc, Rinv_r, Rmult_1_l by lra. lra.
Qed.
Lemma mass_pos m v k : (k < K)%nat -> 0 < mass K n w y m v k.
Proof.
  intros Hk. unfold mass. assert (0 <= rsum (fun i => share K w y m v i k) n) by (apply rsum_nonneg; intros; apply share_nonneg, Hk).
  pose proof tiny_pos as T. unfold tiny in T. lra.
Qed.
(** weighted sums divided by a larger mass stay between the extremes and zero *)
Lemma weighted_range (r f : nat -> R) lo hi N : (forall i, (i < n)%nat -> 0 <= r i) -> (forall i, (i < n)%nat -> lo <= f i <= hi) -> lo <= 0 <= hi ->
  rsum r n <= N -> 0 < N -> lo <= rsum (fun i => r i * f i) n / N <= hi.
Proof.
  intros Hr Hf Z S P.
  assert (A : lo * rsum r n <= rsum (fun i => r i * f i) n <= hi * rsum r n).
  { rewrite <- !rsum_scal. split; apply rsum_le; intros i Hi; pose proof (Hr i Hi); pose proof (Hf i Hi); nra. }
  split; apply (Rmult_le_reg_r N); try exact P; unfold Rdiv; rewrite Rmult_assoc, Rinv_l, Rmult_1_r by lra; nra.
Qed.
Lemma image_range m v m' v' lo hi : em_image K n w y m v m' v' -> lo <= 0 <= hi -> (forall i, (i < n)%nat -> lo <= y i <= hi) ->
  forall k, (k < K)%nat -> lo <= m' k <= hi /\ / 10 ^ 6 <= v' k <= / 10 ^ 6 + (hi - lo) ^ 2.
Proof.
  intros I Z Y k Hk. destruct (I k Hk) as [M V]. pose proof (mass_pos m v k Hk) as P.
  assert (S : rsum (fun i => share K w y m v i k) n <= mass K n w y m v k) by (unfold mass; pose proof tiny_pos as T; unfold tiny in T; lra).
  assert (R : lo <= m' k <= hi) by (rewrite M; apply weighted_range; auto; intros; apply share_nonneg, Hk). split; [exact R|].
  assert (Q : 0 <= rsum (fun i => share K w y m v i k * (y i - m' k) ^ 2) n / mass K n w y m v k <= (hi - lo) ^ 2).
  { apply weighted_range; auto; [intros; apply share_nonneg, Hk| |split; [lra|apply pow2_ge_0]].
    intros i Hi. split; [apply pow2_ge_0|]. pose proof (Y i Hi). nra. }
  lra.
Qed.
End Image.
Lemma run_range K n w y tol t m v m' v' lo hi : (forall k, (k < K)%nat -> 0 <= w k) -> em_run K n w y tol t m v m' v' -> lo <= 0 <= hi -> (forall i, (i < n)%nat -> lo <= y i <= hi) ->
  forall k, (k < K)%nat -> lo <= m' k <= hi /\ / 10 ^ 6 <= v' k <= / 10 ^ 6 + (hi - lo) ^ 2.
Proof. intros Hw R Z Y. induction R; auto. eapply image_range; eauto. Qed.

(** ** selection in the order of argsort *)
Lemma take_map {A} (l : list A) order d : (forall i, In i order -> (i < length l)%nat) -> take l order = map (fun i => nth i l d) order.
Proof.
  unfold take. induction order as [|i order IH]; intros H; cbn; [reflexivity|]. rewrite (nth_error_nth' l d) by (apply H; now left). cbn. rewrite IH; auto. intros j Hj. apply H. now right.
Qed.
Lemma take_perm {A} (l : list A) order : Permutation order (seq 0 (length l)) -> Permutation (take l order) l.
Proof.
  intros P. destruct l as [|d l']; [cbn in P; apply Permutation_sym, Permutation_nil in P; subst; constructor|]. set (l := d :: l') in *.
  rewrite (take_map l order d).
  - apply (Permutation_map (fun i => nth i l d)) in P. rewrite P. replace (map (fun i => nth i l d) (seq 0 (length l))) with l; [reflexivity|].
    apply nth_ext with d d; [now rewrite map_length, seq_length|]. intros i Hi. rewrite (nth_map _ _ _ 0%nat) by (now rewrite seq_length). rewrite seq_nth; auto.
  - intros i Hi. apply (Permutation_in _ P) in Hi. apply in_seq in Hi. lia.
Qed.
Lemma take_seq {A} (l : list A) : take l (seq 0 (length l)) = l.
Proof.
  destruct l as [|d l']; [reflexivity|]. set (l := d :: l'). rewrite (take_map l _ d) by (intros i Hi; apply in_seq in Hi; lia).
  symmetry. apply nth_ext with d d; [now rewrite map_length, seq_length|]. intros i Hi. rewrite (nth_map _ _ _ 0%nat) by (now rewrite seq_length). rewrite seq_nth; auto.
Qed.
Lemma take_combine {A B} (a : list A) (b : list B) order : length a = length b -> combine (take a order) (take b order) = take (combine a b) order.
Proof.
  intros L. unfold take. induction order as [|i order IH]; [reflexivity|]. cbn.
  assert (E : nth_error (combine a b) i = match nth_error a i, nth_error b i with Some x, Some y => Some (x, y) | _, _ => None end).
  { clear IH. revert b i L. induction a as [|x a IH]; intros [|y b] i L; try discriminate; destruct i; cbn in *; try reflexivity. apply IH. lia. }
  rewrite E. destruct (nth_error a i) eqn:Ea, (nth_error b i) eqn:Eb; cbn; try (now rewrite IH); try exact IH.
  - apply nth_error_None in Eb. assert (nth_error a i <> None) by congruence. apply nth_error_Some in H. lia.
  - apply nth_error_None in Ea. assert (nth_error b i <> None) by congruence. apply nth_error_Some in H. lia.
Qed.
Lemma take_sorted argsort (f : list (R * R)) : argsort_contract argsort -> StronglySorted Rle (map fst (take f (argsort (map fst f)))).
Proof.
  intros C. destruct (C (map fst f)) as [P S]. rewrite map_length in P. rewrite (take_map f _ (0, 0)).
  - rewrite map_map. erewrite map_ext_in; [exact S|]. intros i Hi. cbv beta. rewrite (nth_map fst f i (0, 0)); [reflexivity|].
    apply (Permutation_in _ P) in Hi. apply in_seq in Hi. lia.
  - intros i Hi. apply (Permutation_in _ P) in Hi. apply in_seq in Hi. lia.
Qed.
Lemma take_length {A} (l : list A) order : Permutation order (seq 0 (length l)) -> length (take l order) = length l.
Proof. intros P. apply Permutation_length, take_perm, P. Qed.

(** ** weights *)
Section Weights.
Context (floor : R) (w : list R) (Hw : w <> []) (Pos : 0 < floor \/ (0 <= floor /\ 0 < lsum w)) (Nn : forall x, In x w -> 0 <= x).
Let s := lsum (map (fun x => Rmax x floor) w).
Lemma lsum_in x l : (forall z, In z l -> 0 <= z) -> In x l -> x <= lsum l.
Proof.
  intros N. assert (P : forall l, (forall z, In z l -> 0 <= z) -> 0 <= lsum l).
  { clear. induction l as [|a l IH]; cbn; intros N; [lra|]. pose proof (N a (or_introl eq_refl)). specialize (IH (fun z Hz => N z (or_intror Hz))). unfold lsum in IH. lra. }
  induction l as [|a l IH]; [intros []|]. intros [->|H]; cbn.
  - pose proof (P l (fun z Hz => N z (or_intror Hz))) as Q. unfold lsum in Q. lra.
  - specialize (IH (fun z Hz => N z (or_intror Hz)) H). unfold lsum in IH. pose proof (N a (or_introl eq_refl)). lra.
Qed.
Lemma floored_sum_pos : 0 < s.
Proof.
  unfold s. destruct Pos as [P|[P P']].
  - destruct w as [|x w'] eqn:E; [congruence|]. rewrite <- E. apply Rlt_le_trans with (Rmax x floor); [pose proof (Rmax_r x floor); lra|].
    apply lsum_in; [|rewrite E; now left]. intros z Hz. apply in_map_iff in Hz. destruct Hz as (u & <- & _). pose proof (Rmax_r u floor). lra.
  - apply Rlt_le_trans with (lsum w); [exact P'|]. clear. induction w as [|x l IH]; cbn; [lra|]. unfold lsum in IH. pose proof (Rmax_l x floor). lra.
Qed.
Lemma floored_sum : lsum (floored floor w) = 1.
Proof.
  unfold floored. fold s. pose proof floored_sum_pos as P.
  assert (E : forall l, lsum (map (fun x => x / s) l) = lsum l / s).
  { induction l as [|x l IH]; cbn; [field; lra|]. unfold lsum in IH. rewrite IH. field. lra. }
  rewrite E. fold s. field. lra.
Qed.
Lemma floored_lower x : In x (floored floor w) -> floor / s <= x /\ (0 < floor -> 0 < x) /\ 0 <= x.
Proof.
  pose proof floored_sum_pos as P. unfold floored. fold s. intros H. apply in_map_iff in H. destruct H as (u & <- & H). apply in_map_iff in H. destruct H as (v & <- & H).
  pose proof (Rmax_r v floor) as M. assert (I : 0 < / s) by (apply Rinv_0_lt_compat, P). unfold Rdiv. split; [apply Rmult_le_compat_r; lra|]. split.
  - intros F. apply Rmult_lt_0_compat; lra.
  - apply Rmult_le_pos; [|lra]. destruct Pos; lra.
Qed.
Lemma floored_scale : s <= lsum w + INR (length w) * Rmax floor 0.
Proof.
  unfold s. clear Hw Pos. induction w as [|x l IH]; [cbn; lra|]. cbn [map lsum fold_right length]. rewrite S_INR.
  assert (N : forall z, In z l -> 0 <= z) by (intros; apply Nn; now right). specialize (IH N). unfold lsum in IH. pose proof (Nn x (or_introl eq_refl)).
  assert (Rmax x floor <= x + Rmax floor 0). { unfold Rmax. destruct (Rle_dec x floor), (Rle_dec floor 0); lra. }
  unfold lsum. lra.
Qed.
End Weights.
Lemma floored_nth floor w k : (k < length w)%nat -> nth k (floored floor w) 0 = Rmax (nth k w 0) floor / rsum (fun j => Rmax (nth j w 0) floor) (length w).
Proof.
  intros Hk. unfold floored. rewrite (nth_map _ _ _ 0) by (now rewrite map_length). rewrite (nth_map _ _ _ 0) by exact Hk. f_equal. apply (lsum_map (fun x => Rmax x floor)).
Qed.
Lemma floored_length floor w : length (floored floor w) = length w.
Proof. unfold floored. now rewrite !map_length. Qed.
