(** Lemmas for the multivariate mixture. *)
From Coq Require Import Reals Lra.
From Verif Require Import Model.Prelude Model.MixtureMV Spec.MixtureMVSpec.
Local Open Scope R_scope.

Lemma total_pos l : (forall a, In a l -> 0 < a) -> l <> [] -> 0 < total l.
Proof.
  induction l as [|a l IH]; [congruence|]. intros H _. cbn. assert (0 < a) by (apply H; now left).
  destruct l as [|b l]; [cbn; lra|]. assert (0 < total (b :: l)); [|unfold total in *; cbn in *; lra].
  apply IH; [intros c Hc; apply H; now right|discriminate].
Qed.
Lemma total_map_scal {A} c (f : A -> R) l : total (map (fun a => c * f a) l) = c * total (map f l).
Proof. induction l as [|a l IH]; [cbn; lra|]. unfold total in *. cbn. rewrite IH. lra. Qed.
Lemma total_map_ext {A} (f g : A -> R) l : (forall a, In a l -> f a = g a) -> total (map f l) = total (map g l).
Proof. intros H. f_equal. now apply map_ext_in. Qed.

Lemma logsumexp_value l : l <> [] -> logsumexp l = ln (total (map exp l)).
Proof.
  intros H. unfold logsumexp. cbv zeta. set (m := largest l). rewrite <- (ln_exp m) at 1. rewrite <- ln_mult.
  - f_equal. rewrite <- total_map_scal. apply total_map_ext. intros a _. rewrite <- exp_plus. f_equal. ring.
  - apply exp_pos.
  - apply total_pos; [|now destruct l].
    intros a Ha. apply in_map_iff in Ha as (b & <- & _). apply exp_pos.
Qed.

Lemma sum_to_shift K f : sum_to (S K) f = f O + sum_to K (fun k => f (S k)).
Proof. induction K as [|K IH]; [cbn; lra|]. change (sum_to (S (S K)) f) with (sum_to (S K) f + f (S K)). rewrite IH. cbn. lra. Qed.
Lemma total_sum_to {A} (d : A) (f : A -> R) l : total (map f l) = sum_to (length l) (fun k => f (nth k l d)).
Proof.
  induction l as [|a l IH]; [reflexivity|]. cbn [length]. rewrite sum_to_shift. cbn [nth map]. unfold total in *. cbn [fold_right]. now rewrite IH.
Qed.
Lemma sum_to_scal c f K : sum_to K (fun k => c * f k) = c * sum_to K f.
Proof. induction K as [|K IH]; cbn; [lra|]. rewrite IH. lra. Qed.
Lemma sum_to_ext K f g : (forall k, (k < K)%nat -> f k = g k) -> sum_to K f = sum_to K g.
Proof. induction K as [|K IH]; intros H; cbn; [reflexivity|]. rewrite IH by (intros; apply H; lia). now rewrite H by lia. Qed.
Lemma sum_to_pos K f : (0 < K)%nat -> (forall k, (k < K)%nat -> 0 < f k) -> 0 < sum_to K f.
Proof.
  intros HK H. destruct K as [|K]; [lia|]. clear HK. induction K as [|K IH]; cbn in *.
  - specialize (H O ltac:(lia)). lra.
  - assert (0 < sum_to K f + f K) by (apply IH; intros; apply H; lia). specialize (H (S K) ltac:(lia)). lra.
Qed.

Definition dpart : part := (0, (fun _ => 0, fun _ _ => 0)).
Section L.
Variable logpdf : vec -> mat -> vec -> option R.
Lemma weight_floor_pos : 0 < weight_floor.
Proof. unfold weight_floor. apply Rinv_0_lt_compat. apply pow_lt. lra. Qed.
Lemma row_value reg parts y : forall l, row logpdf reg parts y = Some l ->
  length l = length parts /\
  exists f, (forall k, (k < length parts)%nat -> exists v, logpdf (fst (snd (nth k parts dpart))) (prepare reg (snd (snd (nth k parts dpart)))) y = Some v /\ f k = exp v) /\
  total (map exp l) = sum_to (length parts) (fun k => Rmax (fst (nth k parts dpart)) weight_floor * f k).
Proof.
  induction parts as [|[w [m A]] parts IH]; intros l; cbn [row].
  - intros [= <-]. split; [reflexivity|]. exists (fun _ => 0). split; [cbn; intros; lia|reflexivity].
  - destruct (logpdf m (prepare reg A) y) as [v|] eqn:E; [|discriminate]. destruct (row logpdf reg parts y) as [l'|]; [|discriminate].
    intros [= <-]. destruct (IH l' eq_refl) as (L & f & Hf & T). split; [cbn; now rewrite L|].
    exists (fun k => match k with O => exp v | S j => f j end). split.
    + intros [|k] Hk; cbn [nth fst snd]; [eauto|]. cbn in Hk. apply Hf. lia.
    + cbn [length]. rewrite sum_to_shift. cbn [nth fst map]. unfold total in *. cbn [fold_right]. rewrite T. f_equal.
      rewrite exp_plus, exp_ln; [ring|]. pose proof weight_floor_pos. apply Rlt_le_trans with (1 := H). apply Rmax_r.
Qed.
Lemma rows_spec reg parts ys : forall l, rows logpdf reg parts ys = Some l ->
  length l = length ys /\ forall i d, (i < length ys)%nat -> row logpdf reg parts (nth i ys d) = Some (nth i l []).
Proof.
  induction ys as [|y ys IH]; intros l; cbn [rows].
  - intros [= <-]. split; [reflexivity|]. cbn; intros; lia.
  - destruct (row logpdf reg parts y) as [a|] eqn:E; [|discriminate]. destruct (rows logpdf reg parts ys) as [l'|]; [|discriminate].
    intros [= <-]. destruct (IH l' eq_refl) as [L H]. split; [cbn; now rewrite L|]. intros [|i] d Hi; cbn [nth]; [exact E|]. cbn in Hi. apply H. lia.
Qed.
Lemma loglik_value reg parts ys vals : loglik logpdf reg parts ys = Ok vals ->
  ys <> [] /\ parts <> [] /\ length vals = length ys /\ forall i d, (i < length ys)%nat ->
  exists f, (forall k, (k < length parts)%nat -> exists v, logpdf (fst (snd (nth k parts dpart))) (prepare reg (snd (snd (nth k parts dpart)))) (nth i ys d) = Some v /\ f k = exp v) /\
  nth i vals 0 = ln (sum_to (length parts) (fun k => Rmax (fst (nth k parts dpart)) weight_floor * f k)).
Proof.
  unfold loglik. destruct ys as [|y ys]; [discriminate|]. set (Y := y :: ys). destruct (rows logpdf reg parts Y) as [l|] eqn:E; [|discriminate].
  destruct parts as [|p parts]; [discriminate|]. set (P := p :: parts) in *. intros [= <-]. apply rows_spec in E as [L H].
  split; [discriminate|]. split; [discriminate|]. split; [now rewrite map_length|].
  intros i d Hi. specialize (H i d Hi). apply row_value in H as (L1 & f & Hf & T). exists f. split; [exact Hf|].
  rewrite <- T. rewrite <- logsumexp_value.
  - rewrite (nth_indep _ 0 (logsumexp [])) by (rewrite map_length; lia). now rewrite map_nth.
  - intros N. rewrite N in L1. discriminate L1.
Qed.
End L.

(** rows of the sampler *)
Lemma set_row_length out i v : length (set_row out i v) = length out.
Proof. revert i. induction out as [|a out IH]; intros [|i]; cbn; auto. Qed.
Lemma set_row_nth out i v j d : (i < length out)%nat -> nth j (set_row out i v) d = if (j =? i)%nat then v else nth j out d.
Proof.
  revert i j. induction out as [|a out IH]; intros [|i] [|j] H; cbn in *; try lia; auto. apply IH. lia.
Qed.
Lemma assign_length out idx : forall vals, length (assign out idx vals) = length out.
Proof. revert out. induction idx as [|i idx IH]; intros out [|v vals]; cbn; auto. now rewrite IH, set_row_length. Qed.
Lemma occ_shift k c j r : occurrences k (S j) (fun i => nth i (c :: r) O) = ((if (c =? k)%nat then 1 else 0) + occurrences k j (fun i => nth i r O))%nat.
Proof.
  induction j as [|j IH]; [cbn; destruct (c =? k)%nat; lia|]. change (occurrences k (S (S j)) (fun i => nth i (c :: r) O)) with
    (occurrences k (S j) (fun i => nth i (c :: r) O) + if (nth (S j) (c :: r) O =? k)%nat then 1 else 0)%nat. rewrite IH. cbn. lia.
Qed.
Lemma where_length k comp : forall s, length (where_from s k comp) = occurrences k (length comp) (fun i => nth i comp O).
Proof.
  induction comp as [|c comp IH]; intros s; [reflexivity|]. cbn [length]. rewrite occ_shift. cbn [where_from]. destruct (c =? k)%nat; cbn [length]; rewrite IH; lia.
Qed.
Lemma assign_where k comp d : forall s out vals, (s + length comp <= length out)%nat -> length vals = occurrences k (length comp) (fun i => nth i comp O) ->
  (forall i, (i < s)%nat -> nth i (assign out (where_from s k comp) vals) d = nth i out d) /\
  (forall j, (j < length comp)%nat -> nth (s + j) (assign out (where_from s k comp) vals) d =
     if (nth j comp O =? k)%nat then nth (occurrences k j (fun i => nth i comp O)) vals d else nth (s + j) out d).
Proof.
  induction comp as [|c comp IH]; intros s out vals Hs Hv; cbn [where_from].
  - split; [destruct vals; reflexivity|]. cbn; intros; lia.
  - cbn [length] in *. rewrite occ_shift in Hv. destruct (Nat.eqb_spec c k) as [->|N].
    + destruct vals as [|v vals]; [cbn in Hv; lia|]. cbn [assign].
      destruct (IH (S s) (set_row out s v) vals) as [H1 H2]; [rewrite set_row_length; lia|cbn in Hv; lia|]. split.
      * intros i Hi. rewrite H1 by lia. rewrite set_row_nth by lia. now destruct (Nat.eqb_spec i s); [lia|].
      * intros [|j] Hj.
        -- cbn [nth occurrences]. rewrite Nat.eqb_refl, Nat.add_0_r. rewrite H1 by lia. rewrite set_row_nth by lia. now rewrite Nat.eqb_refl.
        -- rewrite occ_shift, Nat.eqb_refl. cbn [nth Nat.add]. replace (s + S j)%nat with (S s + j)%nat by lia. rewrite H2 by lia.
           destruct (nth j comp O =? k)%nat; [reflexivity|]. rewrite set_row_nth by lia. now destruct (Nat.eqb_spec (S s + j) s); [lia|].
    + destruct (IH (S s) out vals) as [H1 H2]; [lia|lia|]. split; [intros; apply H1; lia|]. intros [|j] Hj.
      * cbn [nth]. rewrite Nat.add_0_r. rewrite H1 by lia. now destruct (Nat.eqb_spec c k).
      * rewrite occ_shift. cbn [nth]. destruct (Nat.eqb_spec c k); [congruence|]. replace (s + S j)%nat with (S s + j)%nat by lia. cbn [Nat.add]. apply H2. lia.
Qed.

Lemma fill_length normals reg comp parts : forall k out, length (fill normals k reg parts comp out) = length out.
Proof.
  induction parts as [|[w [m A]] parts IH]; intros k out; cbn [fill]; [reflexivity|]. rewrite IH.
  destruct (_ =? 0)%nat; [reflexivity|]. apply assign_length.
Qed.
Lemma fill_spec normals reg comp d parts : normals_contract normals -> forall k0 out, length out = length comp ->
  forall i, (i < length comp)%nat -> let c := nth i comp O in
  nth i (fill normals k0 reg parts comp out) d =
    if (k0 <=? c)%nat && (c <? k0 + length parts)%nat then
      nth (occurrences c i (fun j => nth j comp O))
        (normals c (fst (snd (nth (c - k0) parts dpart))) (prepare reg (snd (snd (nth (c - k0) parts dpart)))) (occurrences c (length comp) (fun j => nth j comp O))) d
    else nth i out d.
Proof.
  intros C. induction parts as [|[w [m A]] parts IH]; intros k0 out L i Hi c; cbn [fill].
  - cbn [length]. destruct (Nat.leb_spec k0 c), (Nat.ltb_spec c (k0 + 0)); try reflexivity; lia.
  - cbv zeta. set (idx := where_from 0 k0 comp). pose proof (where_length k0 comp 0) as Li. fold idx in Li.
    set (out' := if (length idx =? 0)%nat then out else assign out idx (normals k0 m (prepare reg A) (length idx))).
    assert (E' : nth i out' d = if (c =? k0)%nat then nth (occurrences k0 i (fun j => nth j comp O)) (normals k0 m (prepare reg A) (length idx)) d else nth i out d).
    { destruct (assign_where k0 comp d 0 out (normals k0 m (prepare reg A) (length idx))) as [_ H]; [lia|rewrite C; exact Li|].
      specialize (H i Hi). cbn [Nat.add] in H. fold idx c in H. unfold out'. destruct (Nat.eqb_spec (length idx) 0) as [Z|_]; [|exact H].
      destruct (Nat.eqb_spec c k0) as [Ec|_]; [|reflexivity]. exfalso.
      assert (P : forall n j (g : nat -> nat), (j < n)%nat -> g j = k0 -> (0 < occurrences k0 n g)%nat).
      { clear. induction n as [|n IHn]; intros j g Hj Hg; [lia|]. cbn. destruct (Nat.eq_dec j n) as [->|N]; [rewrite Hg, Nat.eqb_refl; lia|].
        assert (0 < occurrences k0 n g)%nat by (apply (IHn j); [lia|exact Hg]). lia. }
      specialize (P (length comp) i (fun j => nth j comp O) Hi Ec). lia. }
    assert (L' : length out' = length comp) by (unfold out'; destruct (_ =? 0)%nat; [exact L|]; now rewrite assign_length).
    rewrite (IH (S k0) out' L' i Hi). fold c. cbn [length]. destruct (Nat.eqb_spec c k0) as [Ec|N].
    + rewrite Ec. rewrite (proj2 (Nat.leb_gt (S k0) k0)) by lia. rewrite Nat.leb_refl. rewrite (proj2 (Nat.ltb_lt k0 (k0 + S (length parts)))) by lia.
      cbn [andb]. rewrite Nat.sub_diag. cbn [nth fst snd]. rewrite E', Li. reflexivity.
    + replace (k0 + S (length parts))%nat with (S k0 + length parts)%nat by lia.
      destruct (Nat.leb_spec k0 c) as [H1|H1], (Nat.leb_spec (S k0) c) as [H2|H2]; try lia; cbn [andb]; [|exact E'].
      destruct (c <? S k0 + length parts)%nat; [|exact E']. replace (c - k0)%nat with (S (c - S k0)) by lia. reflexivity.
Qed.
Lemma occ_lt k n j g : (j < n)%nat -> g j = k -> (occurrences k j g < occurrences k n g)%nat.
Proof.
  induction n as [|n IH]; intros Hj Hg; [lia|]. cbn. destruct (Nat.eq_dec j n) as [->|N]; [rewrite Hg, Nat.eqb_refl; lia|].
  specialize (IH ltac:(lia) Hg). lia.
Qed.
