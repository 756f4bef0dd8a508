(** Lemmas for the coverage of several output columns and of a column of observations. *)
From Coq Require Import Reals List Arith Bool Lra Lia.
From Verif Require Import Model.Metrics Spec.Sums Proofs.MetricsP.
Import ListNotations.
Local Open Scope R_scope.

Lemma nth_grid {A} (F : nat -> nat -> A) c d : forall n s i k, (i < n)%nat -> (k < c)%nat ->
  nth (i * c + k) (flat_map (fun j => map (F j) (seq 0 c)) (seq s n)) d = F (s + i)%nat k.
Proof.
induction n as [|n IH]; intros s i k Hi Hk; [lia|]. cbn [seq flat_map]. destruct i as [|i].
- rewrite app_nth1 by (rewrite map_length, seq_length; lia). cbn [Nat.mul Nat.add].
  rewrite (nth_indep _ d (F s 0%nat)) by (rewrite map_length, seq_length; lia). rewrite map_nth, seq_nth by lia. rewrite Nat.add_0_r. reflexivity.
- rewrite app_nth2 by (rewrite map_length, seq_length; cbn; lia). rewrite map_length, seq_length.
  replace (S i * c + k - c)%nat with (i * c + k)%nat by (cbn; lia). rewrite IH by lia. f_equal. lia.
Qed.
Lemma indices2 n c : indices [n; c] = flat_map (fun i => map (fun k => [i; k]) (seq 0 c)) (seq 0 n).
Proof. cbn [indices]. apply flat_map_ext. intros i. cbn [map]. rewrite flat_map_single, map_map. reflexivity. Qed.
Lemma map_flat {A B C} (f : B -> C) (g : A -> list B) l : map f (flat_map g l) = flat_map (fun a => map f (g a)) l.
Proof. induction l as [|a l IH]; cbn; [reflexivity|]. rewrite map_app, IH. reflexivity. Qed.
Lemma map_indices2 {A} (f : list nat -> A) n c : map f (indices [n; c]) = flat_map (fun i => map (fun k => f [i; k]) (seq 0 c)) (seq 0 n).
Proof. rewrite indices2, map_flat. apply flat_map_ext. intros i. rewrite map_map. reflexivity. Qed.
Lemma flat_map_in {A B} (f g : A -> list B) l : (forall a, In a l -> f a = g a) -> flat_map f l = flat_map g l.
Proof. induction l as [|a l IH]; cbn; intros H; [reflexivity|]. rewrite (H a) by auto. rewrite IH; auto. Qed.
Lemma grid_ext {A} (f g : nat -> nat -> A) n c : (forall i k, (i < n)%nat -> (k < c)%nat -> f i k = g i k) ->
  flat_map (fun i => map (f i) (seq 0 c)) (seq 0 n) = flat_map (fun i => map (g i) (seq 0 c)) (seq 0 n).
Proof. intros H. apply flat_map_in. intros i Hi. apply in_seq in Hi. apply map_ext_in. intros k Hk. apply in_seq in Hk. apply H; lia. Qed.
Lemma getb2 n c v i k : (i < n)%nat -> (k < c)%nat -> getb (Arr [n; c] v) [i; k] = nth (i * c + k) v 0.
Proof.
intros Hi Hk. unfold getb, zipw. cbn. f_equal. destruct (Nat.eqb_spec n 1), (Nat.eqb_spec c 1); subst; nia.
Qed.
Lemma getb2_vec c v i k : (k < c)%nat -> getb (Arr [c] v) [i; k] = nth k v 0.
Proof. intros Hk. unfold getb, zipw. cbn. f_equal. destruct (Nat.eqb_spec c 1); subst; lia. Qed.
Lemma getb2_col n v i k : (i < n)%nat -> getb (Arr [n; 1%nat] v) [i; k] = nth i v 0.
Proof. intros Hi. unfold getb, zipw. cbn. f_equal. destruct (Nat.eqb_spec n 1); subst; lia. Qed.
Lemma bshape_same n c : bshape [n; c] [n; c] = Some [n; c].
Proof. unfold bshape. cbn. rewrite !Nat.eqb_refl. reflexivity. Qed.
Lemma bshape_col n : bshape [n; 1%nat] [n] = Some [n; n].
Proof.
unfold bshape. cbn [rev app bshape_rev]. destruct (Nat.eqb_spec 1 n) as [<-|]; [reflexivity|]. cbn [Nat.eqb]. reflexivity.
Qed.
Definition grid {A} (f : nat -> nat -> A) n c : list A := flat_map (fun i => map (f i) (seq 0 c)) (seq 0 n).
Lemma bc2 f n c a b : broadcast f (Arr [n; c] a) (Arr [n; c] b) = Some (Arr [n; c] (grid (fun i k => f (nth (i * c + k) a 0) (nth (i * c + k) b 0)) n c)).
Proof.
unfold broadcast. cbn [shape]. rewrite bshape_same. cbn [option_map]. rewrite map_indices2. do 2 f_equal.
apply (grid_ext (fun i k => f (getb (Arr [n; c] a) [i; k]) (getb (Arr [n; c] b) [i; k]))). intros i k Hi Hk. rewrite !getb2 by assumption. reflexivity.
Qed.
Lemma bc_col f n a b : broadcast f (Arr [n; 1%nat] a) (Arr [n] b) = Some (Arr [n; n] (grid (fun i k => f (nth i a 0) (nth k b 0)) n n)).
Proof.
unfold broadcast. cbn [shape]. rewrite bshape_col. cbn [option_map]. rewrite map_indices2. do 2 f_equal.
apply (grid_ext (fun i k => f (getb (Arr [n; 1%nat] a) [i; k]) (getb (Arr [n] b) [i; k]))). intros i k Hi Hk.
rewrite getb2_vec, getb2_col by assumption. reflexivity.
Qed.
Lemma nth_grid0 (f : nat -> nat -> R) n c i k : (i < n)%nat -> (k < c)%nat -> nth (i * c + k) (grid f n c) 0 = f i k.
Proof. intros. unfold grid. rewrite nth_grid by assumption. reflexivity. Qed.
Lemma zipw_app {A B C} (f : A -> B -> C) a a' b b' : length a = length b -> zipw f (a ++ a') (b ++ b') = zipw f a b ++ zipw f a' b'.
Proof. unfold zipw. revert b. induction a as [|x a IH]; intros [|y b] L; try discriminate; cbn; [reflexivity|]. f_equal. apply IH. cbn in L. lia. Qed.
Lemma zipw_grid (g h : nat -> nat -> R) n c : zipw Rmult (grid g n c) (grid h n c) = grid (fun i k => g i k * h i k) n c.
Proof.
unfold grid. generalize 0%nat at 2 4 6. induction n as [|n IH]; intros s; [reflexivity|]. cbn [seq flat_map].
rewrite zipw_app by (rewrite !map_length; reflexivity). rewrite zipw_seq, IH. reflexivity.
Qed.
Lemma grid_length {A} (f : nat -> nat -> A) n c : length (grid f n c) = (n * c)%nat.
Proof. unfold grid. generalize 0%nat at 2. induction n as [|n IH]; intros s; [reflexivity|]. cbn [seq flat_map]. rewrite app_length, map_length, seq_length, IH. cbn. lia. Qed.
Lemma sum_app a b : sum_l (a ++ b) = sum_l a + sum_l b.
Proof. unfold sum_l. induction a as [|x a IH]; cbn; [ring|]. rewrite IH. ring. Qed.
Lemma sum_seq (f : nat -> R) n : sum_l (map f (seq 0 n)) = rsum f n.
Proof.
induction n as [|n IH]; [reflexivity|]. rewrite seq_S, map_app, sum_app, IH. cbn. ring.
Qed.
Lemma sum_grid (f : nat -> nat -> R) n c : sum_l (grid f n c) = rsum (fun i => rsum (f i) c) n.
Proof.
unfold grid. induction n as [|n IH]; [reflexivity|]. rewrite seq_S, flat_map_app, sum_app, IH. cbn [flat_map rsum Nat.add]. rewrite app_nil_r, sum_seq. ring.
Qed.
Lemma nth_repeats c : forall var i k, (i < length var)%nat -> (k < c)%nat -> nth (i * c + k) (flat_map (fun v => repeat v c) var) 0 = nth i var 0.
Proof.
induction var as [|v var IH]; intros i k Hi Hk; [cbn in Hi; lia|]. cbn [flat_map]. destruct i as [|i].
- rewrite app_nth1 by (rewrite repeat_length; lia). cbn [Nat.mul Nat.add nth]. apply nth_repeat_lt || (clear - Hk; revert k Hk; induction c as [|c IHc]; intros [|k] Hk; cbn; try lia; [reflexivity|]; apply IHc; lia).
- rewrite app_nth2 by (rewrite repeat_length; cbn; lia). rewrite repeat_length. replace (S i * c + k - c)%nat with (i * c + k)%nat by (cbn; lia).
  cbn in Hi. cbn [nth]. apply IH; lia.
Qed.
Lemma repeats_length c : forall var : list R, length (flat_map (fun v => repeat v c) var) = (length var * c)%nat.
Proof. induction var as [|v var IH]; cbn; [reflexivity|]. rewrite app_length, repeat_length, IH. reflexivity. Qed.

Section Cols.
Variable ppf : R -> R.
Lemma picp_cols mean var ys c interval : (2 <= c)%nat -> length mean = (length var * c)%nat ->
  let n := length var in
  picp ppf (m_x c mean) (v_x c var) (Arr [n; c] ys) interval =
  Some (rsum (fun i => rsum (fun k => ind (z_of ppf interval) (nth (i * c + k) ys 0) (nth (i * c + k) mean 0) (nth i var 0)) c) n / INR (n * c)).
Proof.
intros Hc Lm n. unfold picp, m_x, v_x. cbn [shape vals]. destruct (Nat.eqb_spec c 1); [lia|]. rewrite Lm, Nat.div_mul by lia. fold n.
rewrite !bc2. cbn [vals]. rewrite zipw_grid. f_equal. unfold mean_l. rewrite grid_length, sum_grid. f_equal.
apply rsum_ext. intros i Hi. apply rsum_ext. intros k Hk. rewrite !nth_grid0 by assumption.
assert (B : (i * c + k < n * c)%nat) by nia.
rewrite !(nth_map0 sqrt _ 0) by (rewrite repeats_length; exact B). rewrite nth_repeats by assumption.
unfold ind. destruct Rle_dec; [destruct Rle_dec|]; lra.
Qed.
Lemma picp_column mean var ys interval : length var = length mean -> length ys = length mean -> (length mean <> 1)%nat ->
  let n := length mean in
  picp ppf (m_x 1 mean) (v_x 1 var) (Arr [n; 1%nat] ys) interval =
  Some (rsum (fun i => rsum (fun j => ind (z_of ppf interval) (nth i ys 0) (nth j mean 0) (nth j var 0)) n) n / INR (n * n)).
Proof.
intros Lv Ly N1 n. unfold picp. rewrite v_x1. cbn [shape vals]. rewrite Lv. rewrite !bc_m_x by (rewrite map_length; assumption). fold n.
rewrite !bc_col. cbn [vals]. rewrite zipw_grid. f_equal. unfold mean_l. rewrite grid_length, sum_grid. f_equal.
apply rsum_ext. intros i Hi. apply rsum_ext. intros j Hj. rewrite !nth_seq_map by assumption.
rewrite !(nth_map0 sqrt var 0) by (rewrite Lv; exact Hj). unfold ind. destruct Rle_dec; [destruct Rle_dec|]; lra.
Qed.
End Cols.
