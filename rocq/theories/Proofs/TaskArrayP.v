From Coq Require Import List Arith Lia.
From Verif Require Import Model.TaskArray.
Import ListNotations.

Lemma product_nth {X Y} (x : list X) (y : list Y) : forall p t xp yt,
  nth_error x p = Some xp -> nth_error y t = Some yt ->
  nth_error (cartesian_product x y) (p + length x * t) = Some (xp, yt).
Proof.
unfold cartesian_product. induction y as [|a y IH]; intros p t xp yt Hp Ht; [destruct t; discriminate|].
assert (Lp : p < length x) by (apply nth_error_Some; congruence).
cbn [flat_map]. destruct t as [|t].
- rewrite Nat.mul_0_r, Nat.add_0_r, nth_error_app1 by (rewrite map_length; lia).
  rewrite nth_error_map, Hp. cbn in *. congruence.
- rewrite nth_error_app2 by (rewrite map_length; nia). rewrite map_length.
  replace (p + length x * S t - length x) with (p + length x * t) by nia. apply IH; assumption.
Qed.
Lemma product_length {X Y} (x : list X) (y : list Y) : length (cartesian_product x y) = length x * length y.
Proof. unfold cartesian_product. induction y as [|a y IH]; cbn; [lia|]. rewrite app_length, map_length, IH. lia. Qed.

Lemma modn p n k : p < n -> (p + n * k) mod n = p.
Proof. intros H. rewrite Nat.mul_comm, Nat.mod_add by lia. apply Nat.mod_small; lia. Qed.
Lemma divn p n k : p < n -> (p + n * k) / n = k.
Proof. intros H. rewrite Nat.mul_comm, Nat.div_add by lia. rewrite Nat.div_small by lia. lia. Qed.
Lemma lt_flat P T p t : p < P -> t < T -> p + P * t < P * T. Proof. nia. Qed.
Section One.
Context {A : Type} (P T : nat) (a : array A).
Lemma mean_re_l p t : p < P -> t < T -> mean_re P T a [p; t] = a [p + P * t; 0].
Proof.
intros Hp Ht. unfold mean_re, reshapeF; cbn [flatF unflatF]. rewrite Nat.mul_0_r, Nat.add_0_r.
pose proof (lt_flat P T p t Hp Ht). rewrite Nat.mod_small, (Nat.div_small (p + P * t)) by lia. reflexivity.
Qed.
Lemma vec_re_l p t : p < P -> t < T -> vec_re P T a [p; t] = a [p + P * t].
Proof.
intros Hp Ht. unfold vec_re, reshapeF; cbn [flatF unflatF]. rewrite Nat.mul_0_r, Nat.add_0_r.
pose proof (lt_flat P T p t Hp Ht). rewrite Nat.mod_small by lia. reflexivity.
Qed.
Lemma cov_re_l i j t u : i < P -> j < P -> t < T -> u < T -> cov_re P T a [i; j; t; u] = a [i + P * t; j + P * u].
Proof.
intros Hi Hj Ht Hu. unfold cov_re, transpose0213, reshapeF; cbn [flatF unflatF]. rewrite Nat.mul_0_r, Nat.add_0_r.
pose proof (lt_flat P T i t Hi Ht). pose proof (lt_flat P T j u Hj Hu).
replace (i + P * (t + T * (j + P * u))) with ((i + P * t) + P * T * (j + P * u)) by ring.
rewrite modn, divn by lia. rewrite Nat.mod_small by lia. reflexivity.
Qed.
Lemma grad_re_l D p d t : p < P -> d < D -> t < T ->
  grad_re P T D a [p; d; t] = a [(p + P * (d + D * t)) mod (P * T); (p + P * (d + D * t)) / (P * T)].
Proof.
intros Hp Hd Ht. unfold grad_re, reshapeF; cbn [flatF unflatF]. rewrite Nat.mul_0_r, Nat.add_0_r.
pose proof (lt_flat D T d t Hd Ht). pose proof (lt_flat P (D * T) p (d + D * t) Hp H).
f_equal; f_equal; f_equal. apply Nat.mod_small. apply Nat.div_lt_upper_bound; nia.
Qed.
Lemma cov_grad_re_l i j t u : i < P -> j < P -> t < T -> u < T ->
  cov_grad_re P T a [i; j; t; u] = a [(i + P * (j + P * (t + T * u))) mod (P * T); (i + P * (j + P * (t + T * u))) / (P * T)].
Proof.
intros Hi Hj Ht Hu. unfold cov_grad_re, reshapeF; cbn [flatF unflatF]. rewrite Nat.mul_0_r, Nat.add_0_r.
pose proof (lt_flat T T t u Ht Hu). pose proof (lt_flat P (T * T) j (t + T * u) Hj H).
pose proof (lt_flat P (P * (T * T)) i _ Hi H0).
f_equal; f_equal; f_equal. apply Nat.mod_small. apply Nat.div_lt_upper_bound; [nia|].
replace (P * T * (P * T)) with (P * (P * (T * T))) by ring. assumption.
Qed.
End One.
