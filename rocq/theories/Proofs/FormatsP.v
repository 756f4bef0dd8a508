From Coq Require Import Reals Arith Lra Lia Bool.
From Verif Require Import Model.FiniteDiff Model.Formats Spec.FormatsSpec.
Local Open Scope R_scope.

Lemma truncate_int : forall z : Z, truncate (IZR z) = IZR z.
Proof.
  assert (P : forall z : Z, Int_part (IZR z) = z).
  { intros z. unfold Int_part. rewrite <- (tech_up (IZR z) (z + 1)); rewrite ?plus_IZR; try lra. lia. }
  intros z. unfold truncate. destruct (Rle_dec 0 (IZR z)); [rewrite P; reflexivity|].
  rewrite <- (opp_IZR z), P, opp_IZR. lra.
Qed.
Lemma truncate_is_int : forall x, is_int (truncate x).
Proof.
  intros x. unfold truncate. destruct (Rle_dec 0 x); [eexists; reflexivity|].
  exists (- Int_part (- x))%Z. rewrite opp_IZR. reflexivity.
Qed.
Lemma truncate_fix : forall x, truncate x = x <-> is_int x.
Proof.
  intros x; split; [intros <-; apply truncate_is_int|intros [z ->]; apply truncate_int].
Qed.
Lemma truncate_small : forall z v, (0 <= z)%Z -> 0 <= v < 1 -> truncate (IZR z + v) = IZR z.
Proof.
  intros z v Hz Hv. assert (0 <= IZR z) by (apply IZR_le in Hz; exact Hz). unfold truncate.
  destruct (Rle_dec 0 (IZR z + v)); [|lra]. unfold Int_part. rewrite <- (tech_up (IZR z + v) (z + 1)); rewrite ?plus_IZR; try lra.
  f_equal; lia.
Qed.

Lemma bix_refl : forall k i, (i < k)%nat -> bix k i = i.
Proof. intros k i H. unfold bix. destruct (Nat.eqb_spec k 1); lia. Qed.
Lemma fits_refl : forall n, fits n n = true.
Proof. intros; unfold fits; rewrite Nat.eqb_refl; reflexivity. Qed.

(** addKV with noise of the right size *)
Lemma addKV_size : forall K V A, addKV K V = Done A -> dim (matrix_of A) = dim (matrix_of K).
Proof.
  intros [k|k] [d len v|m|m] A H; cbn [addKV] in H;
    repeat match type of H with context [if ?b then _ else _] => destruct b end; inversion H; reflexivity.
Qed.
Lemma addKV_entries : forall K V A, noise_size V = dim (matrix_of K) -> addKV K V = Done A ->
  forall i j, (i < dim (matrix_of K))%nat -> (j < dim (matrix_of K))%nat ->
  ent (matrix_of A) i j =
    match V with
    | NVec _ _ v => if Nat.eqb i j then store (dt (matrix_of K)) (ent (matrix_of K) i i + v i) else ent (matrix_of K) i j
    | NMat m | NSparse m => ent (matrix_of K) i j + ent m i j
    end.
Proof.
  intros [k|k] [d len v|m|m] A Hs H i j Hi Hj; cbn [addKV matrix_of noise_size] in *; rewrite ?Hs, ?fits_refl, ?Nat.eqb_refl in H;
    inversion H; subst A; cbn [matrix_of ent set_diag add_mat]; rewrite ?Hs, ?bix_refl by assumption; try reflexivity.
Qed.

Lemma store_float : forall x, store DFloat x = x.
Proof. reflexivity. Qed.

Theorem addKV_exact : forall K V A, sound (matrix_of K) -> noise_size V = dim (matrix_of K) -> addKV K V = Done A ->
  (holds (dim (matrix_of K)) A (fun i j => ent (matrix_of K) i j + noise_cov V i j) <->
   match V with
   | NVec _ _ v => dt (matrix_of K) = DInt -> forall i, (i < dim (matrix_of K))%nat -> is_int (ent (matrix_of K) i i + v i)
   | _ => True
   end).
Proof.
  intros K V A HK Hs H. pose proof (addKV_entries K V A Hs H) as E. pose proof (addKV_size K V A H) as D.
  set (n := dim (matrix_of K)) in *. split.
  - intros [_ Hh]. destruct V as [d len v|m|m]; auto. intros Hd i Hi.
    specialize (Hh i i Hi Hi). rewrite (E i i Hi Hi) in Hh. cbn [noise_cov] in Hh. rewrite Nat.eqb_refl, Hd in Hh.
    apply truncate_fix. exact Hh.
  - intros C. split; [exact D|]. intros i j Hi Hj. rewrite (E i j Hi Hj). destruct V as [d len v|m|m]; cbn [noise_cov]; auto.
    destruct (Nat.eqb_spec i j) as [->|]; [|lra]. destruct (dt (matrix_of K)) eqn:Ed; [reflexivity|].
    apply truncate_fix. apply C; auto.
Qed.

Theorem explicit_exact : forall K V A, sound (matrix_of K) -> noise_size V = dim (matrix_of K) -> stored_KV K V = Done A ->
  ((exists B, explicit_KV K V = Done B /\ same A B) <->
   match K, V with
   | Sparse _, NVec _ _ _ => False
   | Dense k, NVec _ _ v => dt k = DInt -> forall i, (i < dim k)%nat -> is_int (ent k i i + v i)
   | _, _ => True
   end).
Proof.
  intros K V A HK Hs H. unfold stored_KV in H.
  destruct V as [d len v|m|m].
  - destruct K as [k|k]; cbn [matrix_of noise_size] in *; subst len.
    + pose proof (addKV_exact (Dense k) (NVec d (dim k) v) A HK eq_refl H) as X. cbn [matrix_of] in X.
      assert (Ex : exists B, explicit_KV (Dense k) (NVec d (dim k) v) = Done B).
      { unfold explicit_KV; cbn [addKV np_diag dim]. rewrite fits_refl. eexists; reflexivity. }
      destruct Ex as [B EB].
      assert (HB : holds (dim k) B (fun i j => ent k i j + noise_cov (NVec d (dim k) v) i j)).
      { apply (addKV_exact (Dense k) (NMat (np_diag d (dim k) v)) B HK eq_refl EB). exact I. }
      pose proof (addKV_size _ _ _ H) as DA. cbn [matrix_of] in DA. split.
      * intros (B' & EB' & HS). rewrite EB in EB'; injection EB' as <-. apply X. split; [exact DA|].
        intros i j Hi Hj. destruct HS as [_ HS]. rewrite <- HS by (rewrite DA; assumption). apply HB; assumption.
      * intros C. exists B. split; [exact EB|]. apply X in C. destruct C as [_ C]. destruct HB as [DB HB].
        split; [congruence|]. rewrite DA. intros i j Hi Hj. rewrite HB, C by assumption. reflexivity.
    + split; [|intros []]. intros (B & EB & _). unfold explicit_KV in EB; cbn [addKV] in EB. discriminate.
  - split; [destruct K; intros; exact I|]. intros _. exists A. split; [exact H|split; [reflexivity|reflexivity]].
  - split; [destruct K; intros; exact I|]. intros _. exists A. split; [exact H|split; [reflexivity|reflexivity]].
Qed.

Lemma int_noise_lost : forall k d v, sound k -> dt k = DInt -> (forall i, (i < dim k)%nat -> 0 <= ent k i i) ->
  (forall i, (i < dim k)%nat -> 0 <= v i < 1) ->
  forall K, K = Dense k \/ K = Sparse k -> exists A, addKV K (NVec d (dim k) v) = Done A /\ holds (dim k) A (ent k).
Proof.
  intros k d v Hk Hd Hp Hv K HK.
  assert (E : exists A, addKV K (NVec d (dim k) v) = Done A).
  { destruct HK as [->| ->]; cbn [addKV]; rewrite ?fits_refl, ?Nat.eqb_refl; eexists; reflexivity. }
  destruct E as [A E]. exists A. split; [exact E|].
  assert (M : matrix_of K = k) by (destruct HK as [->| ->]; reflexivity).
  pose proof (addKV_size _ _ _ E) as D. split; [congruence|]. intros i j Hi Hj.
  rewrite (addKV_entries K (NVec d (dim k) v) A); cbn [noise_size]; rewrite ?M; auto.
  destruct (Nat.eqb_spec i j) as [->|]; [|reflexivity]. rewrite Hd. cbn [store].
  destruct (Hk Hd j j) as [z Hz]. rewrite Hz. apply truncate_small; [|apply Hv; assumption].
  apply le_IZR. rewrite <- Hz. apply Hp; assumption.
Qed.
