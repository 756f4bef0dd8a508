(** Lemmas for the trace files. *)
From Coq Require Import String Ascii DecimalString DecimalN.
From Verif Require Import Model.Prelude Model.TraceFiles.
Local Open Scope string_scope.

Lemma every_from_nth {A} n (l : list A) : (0 < n)%nat -> forall skip j, nth_error (every_from n skip l) j = nth_error l (skip + j * n).
Proof.
  intros Hn. induction l as [|a l IH]; intros skip j; cbn [every_from].
  - now destruct j, (skip + _)%nat.
  - destruct skip as [|s]; [|apply IH]. destruct j as [|j]; [reflexivity|]. cbn [nth_error]. rewrite IH.
    replace (0 + S j * n)%nat with (S (n - 1 + j * n)) by (cbn; lia). reflexivity.
Qed.
Lemma every_nth {A} n (l : list A) j : (0 < n)%nat -> nth_error (every n l) j = nth_error l (j * n).
Proof. intros Hn. apply (every_from_nth n l Hn 0). Qed.

Lemma fname_eqb_spec a b : reflect (a = b) (fname_eqb a b).
Proof.
  destruct a as [k s], b as [l t]. unfold fname_eqb. cbn [fst snd]. destruct (Z.eqb_spec k l) as [->|N]; cbn [andb].
  - destruct (String.eqb_spec s t) as [->|N]; constructor; congruence.
  - constructor. congruence.
Qed.
Lemma append_length a b : String.length (a ++ b) = (String.length a + String.length b)%nat.
Proof. induction a; cbn; congruence. Qed.
Lemma tmp_other n : tmp_of n <> n.
Proof. destruct n as [k s]. unfold tmp_of. cbn [fst snd]. intros [= H]. apply (f_equal String.length) in H. rewrite append_length in H. cbn in H. lia. Qed.
Lemma suffix_inj a b : suffix a = suffix b -> a = b.
Proof.
  unfold suffix. destruct (String.eqb_spec a "") as [->|Na], (String.eqb_spec b "") as [->|Nb]; cbn; congruence.
Qed.
Section F.
Variables X F St : Type.
Notation fs := (fs X F St).
Lemma upd_same (d : fs) n c : upd d n c n = c.
Proof. unfold upd. now destruct (fname_eqb_spec n n). Qed.
Lemma upd_other (d : fs) n c m : m <> n -> upd d n c m = d m.
Proof. intros H. unfold upd. now destruct (fname_eqb_spec m n). Qed.
Lemma savez_cases o n p (d : fs) : let d' := fst (atomic_savez o n p d) in
  (forall m, m <> n -> m <> tmp_of n -> d' m = d m) /\
  (o = Written -> d' n = Some (Complete p) /\ d' (tmp_of n) = None /\ snd (atomic_savez o n p d) = true) /\
  (o <> Written -> d' n = d n /\ snd (atomic_savez o n p d) = false).
Proof.
  pose proof (tmp_other n) as T. destruct o; cbn [atomic_savez fst snd]; repeat match goal with |- _ /\ _ => split end; try congruence;
    intros; repeat match goal with |- _ /\ _ => split end; rewrite ?upd_same; auto; rewrite ?upd_other by congruence; rewrite ?upd_same; auto.
Qed.
End F.

(** chunk tags *)
Lemma read_zeros k s u : NilEmpty.uint_of_string s = Some u -> exists v, NilEmpty.uint_of_string (zeros k s) = Some v /\ N.of_uint v = N.of_uint u.
Proof.
  intros H. induction k as [|k IH]; [eauto|]. destruct IH as (v & E & Ev). exists (Decimal.D0 v). split; [|exact Ev].
  change (zeros (S k) s) with (String "0"%char (zeros k s)). cbn. now rewrite E.
Qed.
Lemma to_uint_not_nil n : N.to_uint n <> Decimal.Nil.
Proof. destruct n as [|p]; cbn; [discriminate|]. apply DecimalPos.Unsigned.to_uint_nonnil. Qed.
Lemma nilzero_nonnil u : u <> Decimal.Nil -> NilZero.string_of_uint u = NilEmpty.string_of_uint u.
Proof. destruct u; auto. congruence. Qed.
Lemma six_digits_inj a b : six_digits a = six_digits b -> a = b.
Proof.
  unfold six_digits. rewrite !nilzero_nonnil by apply to_uint_not_nil. intros H.
  destruct (read_zeros (6 - String.length (NilEmpty.string_of_uint (N.to_uint a))) _ _ (NilEmpty.usu (N.to_uint a))) as (v & E & Ev).
  destruct (read_zeros (6 - String.length (NilEmpty.string_of_uint (N.to_uint b))) _ _ (NilEmpty.usu (N.to_uint b))) as (w & E' & Ew).
  rewrite H in E. rewrite E in E'. injection E' as ->. rewrite !DecimalN.Unsigned.of_to in *. congruence.
Qed.
Fixpoint no_dot (s : string) : bool := match s with EmptyString => true | String c t => negb (Ascii.eqb c "."%char) && no_dot t end.
Lemma no_dot_digits u : no_dot (NilEmpty.string_of_uint u) = true.
Proof. induction u; cbn; auto. Qed.
Lemma no_dot_zeros k s : no_dot s = true -> no_dot (zeros k s) = true.
Proof. intros H. induction k; [exact H|]. exact IHk. Qed.
Lemma no_dot_tmp s : no_dot (s ++ ".tmp") = false.
Proof. induction s as [|c s IH]; [reflexivity|]. cbn. rewrite IH. apply andb_false_r. Qed.
Lemma no_dot_tag n : no_dot (chunk_tag n) = true.
Proof. unfold chunk_tag, six_digits. rewrite nilzero_nonnil by apply to_uint_not_nil. cbn [append no_dot]. apply no_dot_zeros, no_dot_digits. Qed.
Lemma chunk_tag_inj a b : chunk_tag a = chunk_tag b -> a = b.
Proof. unfold chunk_tag. cbn. intros [= H]. now apply six_digits_inj. Qed.
Lemma chunk_path n k : path k (chunk_tag n) = (k, "_" ++ chunk_tag n).
Proof. reflexivity. Qed.
Lemma plain_no_tmp k tag n : no_dot tag = true -> path k tag <> tmp_of n.
Proof.
  intros H E. unfold path, tmp_of in E. apply (f_equal (fun p : fname => no_dot (snd p))) in E. cbn [snd] in E. rewrite no_dot_tmp in E.
  unfold suffix in E. destruct (String.eqb tag ""); [discriminate|]. cbn [append no_dot] in E. rewrite H in E. discriminate.
Qed.
