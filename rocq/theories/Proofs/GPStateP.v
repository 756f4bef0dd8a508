From Verif Require Import Model.Prelude Model.GPState Spec.GPStateSpec.

Section Mat.
  Context {F : Type} (f0 : F).
  Notation matrix := (list (list F)).
  Notation mget := (@mget F f0).
  Implicit Types a b m : list (list F).

  Definition rect (r c : nat) (m : matrix) : Prop := length m = r /\ forall x, In x m -> length x = c.

  Lemma rect_row r c m i : rect r c m -> i < r -> length (nth i m []) = c.
  Proof. intros [H1 H2] Hi. apply H2, nth_In. lia. Qed.


  Lemma mat_ext r (c : nat) a b : rect r c a -> rect r c b ->
    (forall i j, i < r -> j < c -> mget a i j = mget b i j) -> a = b.
  Proof.
    intros Ha Hb H. apply (nth_ext _ _ [] []).
    - destruct Ha, Hb; congruence.
    - intros i Hi. assert (i < r) by (destruct Ha; lia).
      apply (nth_ext _ _ f0 f0).
      + now rewrite (rect_row r c a i), (rect_row r c b i).
      + intros j Hj. rewrite (rect_row r c a i) in Hj by assumption. now apply H.
  Qed.

  Lemma hcat_len a b : length a = length b -> length (hcat a b) = length a.
  Proof. revert b; induction a as [|x a IH]; intros [|y b]; cbn; intros; try lia. rewrite IH; lia. Qed.
  Lemma hcat_nth a b i : length a = length b -> nth i (hcat a b) [] = nth i a [] ++ nth i b [].
  Proof.
    revert b i; induction a as [|x a IH]; intros [|y b] i H; cbn in *; try lia.
    - now destruct i.
    - destruct i; [reflexivity|]. apply IH. lia.
  Qed.
  Lemma rect_hcat r c1 c2 a b : rect r c1 a -> rect r c2 b -> rect r (c1 + c2) (hcat a b).
  Proof.
    intros Ha Hb. assert (E : length a = length b) by (destruct Ha, Hb; congruence). split.
    - rewrite hcat_len by assumption. apply Ha.
    - intros x Hx. apply (In_nth _ _ []) in Hx as (i & Hi & <-).
      rewrite hcat_len in Hi by assumption. rewrite hcat_nth, app_length by assumption.
      destruct Ha as [La Ha]. rewrite (rect_row r c1), (rect_row r c2); [reflexivity|assumption|lia|split;assumption|lia].
  Qed.
  Lemma mget_hcat r c1 c2 a b i j : rect r c1 a -> rect r c2 b -> i < r ->
    mget (hcat a b) i j = if j <? c1 then mget a i j else mget b i (j - c1).
  Proof.
    intros Ha Hb Hi. unfold GPState.mget. rewrite hcat_nth by (destruct Ha, Hb; congruence).
    destruct (Nat.ltb_spec j c1).
    - rewrite app_nth1; [reflexivity|]. now rewrite (rect_row r c1).
    - rewrite app_nth2; rewrite (rect_row r c1); auto.
  Qed.
  Lemma rect_app r1 r2 c (a b : matrix) : rect r1 c a -> rect r2 c b -> rect (r1 + r2) c (a ++ b).
  Proof.
    intros [A1 A2] [B1 B2]. split; [rewrite app_length; lia|].
    intros x Hx. apply in_app_or in Hx as [|]; auto.
  Qed.
  Lemma mget_app r1 c a b i j : rect r1 c a ->
    mget (a ++ b) i j = if i <? r1 then mget a i j else mget b (i - r1) j.
  Proof.
    intros [A1 A2]. unfold GPState.mget. destruct (Nat.ltb_spec i r1).
    - now rewrite app_nth1 by lia.
    - now rewrite app_nth2, A1 by lia.
  Qed.
  Lemma rect_transpose r c m : rect r c m -> rect c r (transpose f0 c m).
  Proof.
    intros [H1 H2]. unfold transpose. split; [now rewrite map_length, seq_length|].
    intros x Hx. apply in_map_iff in Hx as (j & <- & _). now rewrite map_length.
  Qed.
  Lemma mget_transpose r c m i j : rect r c m -> i < c -> j < r ->
    mget (transpose f0 c m) i j = mget m j i.
  Proof.
    intros [H1 H2] Hi Hj. unfold GPState.mget, transpose.
    rewrite (nth_indep _ [] (map (fun r => nth 0 r f0) m)) by (rewrite map_length, seq_length; lia).
    rewrite (map_nth (fun j => map (fun r => nth j r f0) m)), seq_nth by lia. cbn [plus].
    rewrite (nth_indep _ f0 (nth i [] f0)) by (rewrite map_length; lia).
    now rewrite (map_nth (fun r => nth i r f0)).
  Qed.
  Lemma nth_skipn {A} n (l : list A) i d : nth i (skipn n l) d = nth (n + i) l d.
  Proof.
    revert l. induction n as [|n IH]; intros l; [reflexivity|].
    destruct l as [|x l]; cbn [skipn plus nth]; [now destruct i|apply IH].
  Qed.
  Lemma nth_firstn {A} n (l : list A) i d : i < n -> nth i (firstn n l) d = nth i l d.
  Proof.
    revert l i. induction n as [|n IH]; intros l i Hi; [lia|].
    destruct l as [|x l]; cbn; [reflexivity|]. destruct i; [reflexivity|]. apply IH. lia.
  Qed.
  Lemma rect_low_left n p m : rect (n + p) (n + p) m -> rect p n (low_left n m).
  Proof.
    intros [H1 H2]. unfold low_left. split; [rewrite map_length, skipn_length; lia|].
    intros x Hx. apply in_map_iff in Hx as (r & <- & Hr).
    rewrite firstn_length, (H2 r); [lia|]. rewrite <- (firstn_skipn n m). apply in_or_app. now right.
  Qed.
  Lemma mget_low_left n p m i j : rect (n + p) (n + p) m -> i < p -> j < n ->
    mget (low_left n m) i j = mget m (n + i) j.
  Proof.
    intros [H1 H2] Hi Hj. unfold low_left, GPState.mget.
    rewrite (nth_indep _ [] (firstn n [])) by (rewrite map_length, skipn_length; lia).
    rewrite (map_nth (firstn n)), nth_firstn, nth_skipn by lia. reflexivity.
  Qed.
  Lemma rect_low_right n p m : rect (n + p) (n + p) m -> rect p p (low_right n m).
  Proof.
    intros [H1 H2]. unfold low_right. split; [rewrite map_length, skipn_length; lia|].
    intros x Hx. apply in_map_iff in Hx as (r & <- & Hr).
    rewrite skipn_length, (H2 r); [lia|]. rewrite <- (firstn_skipn n m). apply in_or_app. now right.
  Qed.
  Lemma mget_low_right n p m i j : rect (n + p) (n + p) m -> i < p ->
    mget (low_right n m) i j = mget m (n + i) (n + j).
  Proof.
    intros [H1 H2] Hi. unfold low_right, GPState.mget.
    rewrite (nth_indep _ [] (skipn n [])) by (rewrite map_length, skipn_length; lia).
    rewrite (map_nth (skipn n)), !nth_skipn. reflexivity.
  Qed.

  Lemma rect_block r1 r2 c1 c2 a b (c d : matrix) : rect r1 c1 a -> rect r1 c2 b -> rect r2 c1 c -> rect r2 c2 d ->
    rect (r1 + r2) (c1 + c2) (block a b c d).
  Proof. intros. apply rect_app; now apply rect_hcat. Qed.
  Lemma mget_block r1 r2 c1 c2 a b (c d : matrix) i j : rect r1 c1 a -> rect r1 c2 b -> rect r2 c1 c -> rect r2 c2 d ->
    i < r1 + r2 -> 
    mget (block a b c d) i j =
      if i <? r1 then (if j <? c1 then mget a i j else mget b i (j - c1))
      else (if j <? c1 then mget c (i - r1) j else mget d (i - r1) (j - c1)).
  Proof.
    intros A B C D Hi. unfold block. rewrite (mget_app r1 (c1 + c2)) by now apply rect_hcat.
    destruct (Nat.ltb_spec i r1).
    - apply (mget_hcat r1 c1 c2); assumption.
    - apply (mget_hcat r2 c1 c2); try assumption. lia.
  Qed.

  (** Bordering A with the new rows of B gives B exactly when B's leading block is A. *)
  Lemma bordered_eq n p a b : rect n n a -> rect (n + p) (n + p) b ->
    (forall i j, i < n + p -> j < n + p -> mget b i j = mget b j i) ->
    (forall i j, i < n -> j < n -> mget a i j = mget b i j) ->
    bordered f0 a b = b.
  Proof.
    intros Ha Hb Hs He. unfold bordered. destruct Ha as [La Ha]. rewrite La.
    assert (Ra : rect n n a) by (split; assumption).
    pose proof (rect_low_left n p b Hb) as RL. pose proof (rect_low_right n p b Hb) as RR.
    pose proof (rect_transpose p n _ RL) as RT.
    apply (mat_ext (n + p) (n + p)); [now apply rect_block|assumption|].
    intros i j Hi Hj. rewrite (mget_block n p n p) by assumption.
    destruct (Nat.ltb_spec i n), (Nat.ltb_spec j n).
    - now apply He.
    - rewrite (mget_transpose p n), (mget_low_left n p) by (assumption || lia).
      rewrite Hs by lia. f_equal; lia.
    - rewrite (mget_low_left n p) by (assumption || lia). f_equal; lia.
    - rewrite (mget_low_right n p) by (assumption || lia). f_equal; lia.
  Qed.

  Lemma bordered_block n p a b : rect n n a -> rect (n + p) (n + p) b ->
    forall i j, i < n -> j < n -> mget (bordered f0 a b) i j = mget a i j.
  Proof.
    intros Ra Hb i j Hi Hj. unfold bordered. destruct Ra as [La Ha]. rewrite La.
    pose proof (rect_low_left n p b Hb) as RL. pose proof (rect_low_right n p b Hb) as RR.
    pose proof (rect_transpose p n _ RL) as RT.
    assert (Ra : rect n n a) by (split; assumption).
    rewrite (mget_block n p n p) by (assumption || lia).
    destruct (Nat.ltb_spec i n); [|lia]. destruct (Nat.ltb_spec j n); [reflexivity|lia].
  Qed.
End Mat.

Section Ent.
  Context {P F : Type} (f0 : F).
  Notation mget := (@mget F f0).
  Lemma rect_ent (g : P -> P -> F) xs ys : rect (length xs) (length ys) (map (fun x => map (fun y => g x y) ys) xs).
  Proof.
    split; [apply map_length|]. intros r Hr. apply in_map_iff in Hr as (x & <- & _). apply map_length.
  Qed.
  Lemma mget_ent (g : P -> P -> F) xs ys i j d : i < length xs -> j < length ys ->
    mget (map (fun x => map (fun y => g x y) ys) xs) i j = g (nth i xs d) (nth j ys d).
  Proof.
    intros Hi Hj. unfold GPState.mget.
    rewrite (nth_indep _ [] (map (g d) ys)) by (rewrite map_length; lia).
    rewrite (map_nth (fun x => map (fun y => g x y) ys)).
    rewrite (nth_indep _ f0 (g (nth i xs d) d)) by (rewrite map_length; lia).
    now rewrite (map_nth (g (nth i xs d))).
  Qed.
  Lemma nth_app_lt (xs ys : list P) i d : i < length xs -> nth i (xs ++ ys) d = nth i xs d.
  Proof. intros. now apply app_nth1. Qed.

  (** kernel matrix of appended points = block matrix *)
  Lemma ent_block (g : P -> P -> F) xs ys : (forall x y, g x y = g y x) ->
    block (map (fun x => map (fun y => g x y) xs) xs)
          (map (fun x => map (fun y => g x y) ys) xs)
          (transpose f0 (length ys) (map (fun x => map (fun y => g x y) ys) xs))
          (map (fun x => map (fun y => g x y) ys) ys)
    = map (fun x => map (fun y => g x y) (xs ++ ys)) (xs ++ ys).
  Proof.
    intros Hg.
    pose proof (rect_ent g xs xs) as R1. pose proof (rect_ent g xs ys) as R2.
    pose proof (rect_ent g ys ys) as R3. pose proof (rect_ent g (xs ++ ys) (xs ++ ys)) as R4.
    pose proof (rect_transpose f0 _ _ _ R2) as R5. rewrite app_length in R4.
    apply (mat_ext f0 (length xs + length ys) (length xs + length ys)); [now apply rect_block|assumption|].
    intros i j Hi Hj. rewrite (mget_block f0 _ _ _ _ _ _ _ _ _ _ R1 R2 R5 R3) by assumption.
    assert (exists d : P, True) as (d & _).
    { destruct (xs ++ ys) as [|d l] eqn:E; [|now exists d].
      apply (f_equal (@length P)) in E. rewrite app_length in E. cbn in E. lia. }
    rewrite (mget_ent g (xs ++ ys) (xs ++ ys) i j d) by (rewrite app_length; lia).
    destruct (Nat.ltb_spec i (length xs)) as [A|A], (Nat.ltb_spec j (length xs)) as [B|B].
    - rewrite (mget_ent g xs xs i j d) by assumption. now rewrite !app_nth1 by assumption.
    - rewrite (mget_ent g xs ys i _ d) by lia. now rewrite (app_nth1 _ _ _ A), (app_nth2 _ _ _ B).
    - rewrite (mget_transpose f0 _ _ _ _ _ R2) by lia. rewrite (mget_ent g xs ys _ _ d) by lia.
      rewrite Hg. now rewrite (app_nth2 _ _ _ A), (app_nth1 _ _ _ B).
    - rewrite (mget_ent g ys ys _ _ d) by lia. now rewrite (app_nth2 _ _ _ A), (app_nth2 _ _ _ B).
  Qed.
End Ent.

Section KV.
  Context {F : Type} (f0 : F) (fadd : F -> F -> F).
  Notation mget := (@mget F f0).
  Notation set_diag := (@set_diag F f0 fadd).
  Notation madd := (@madd F fadd).

  Lemma combine_seq_nth {A} (l : list A) i d s : i < length l ->
    nth i (combine (seq s (length l)) l) (0, d) = (s + i, nth i l d).
  Proof.
    intros Hi. rewrite combine_nth by apply seq_length. now rewrite seq_nth by assumption.
  Qed.
  Lemma rect_set_diag r c K v : rect r c K -> rect r c (set_diag K v).
  Proof.
    intros [H1 H2]. unfold GPState.set_diag. split.
    - rewrite map_length, combine_length, seq_length. lia.
    - intros x Hx. apply in_map_iff in Hx as ([i row] & <- & Hin).
      rewrite map_length, combine_length, seq_length. apply in_combine_r in Hin. rewrite (H2 row Hin). lia.
  Qed.
  Lemma mget_set_diag r c K v i j : rect r c K -> i < r -> j < c ->
    mget (set_diag K v) i j = if i =? j then fadd (mget K i j) (nth i v f0) else mget K i j.
  Proof.
    intros [H1 H2] Hi Hj. unfold GPState.mget, GPState.set_diag.
    set (f := fun p : nat * list F => let '(i0, r0) := p in
           map (fun q : nat * F => let '(j0, e) := q in if Nat.eqb i0 j0 then fadd e (nth i0 v f0) else e)
               (combine (seq 0 (length r0)) r0)).
    rewrite (nth_indep _ [] (f (0, []))) by (rewrite map_length, combine_length, seq_length; lia).
    rewrite (map_nth f), combine_seq_nth by lia. cbn [plus]. unfold f at 1.
    assert (Hl : length (nth i K []) = c) by (apply H2, nth_In; lia).
    set (g := fun q : nat * F => let '(j0, e) := q in if Nat.eqb i j0 then fadd e (nth i v f0) else e).
    rewrite (nth_indep _ f0 (g (0, f0))) by (rewrite map_length, combine_length, seq_length; lia).
    rewrite (map_nth g), combine_seq_nth by lia. reflexivity.
  Qed.
  Lemma madd_len a b : length a = length b -> length (madd a b) = length a.
  Proof. revert b; induction a as [|x a IH]; intros [|y b]; cbn; intros; try lia. rewrite IH; lia. Qed.
  Lemma rect_madd r c a b : rect r c a -> rect r c b -> rect r c (madd a b).
  Proof.
    revert r b. induction a as [|x a IH]; intros r [|y b] [A1 A2] [B1 B2]; cbn in *; try lia.
    - split; [assumption|]. intros z [].
    - destruct r as [|r]; [lia|].
      destruct (IH r b) as [C1 C2].
      + split; [lia|]. auto.
      + split; [lia|]. auto.
      + split; cbn; [lia|]. intros z [<-|Hz]; [|auto].
        rewrite map_length, combine_length, (A2 x), (B2 y) by now left. lia.
  Qed.
  Lemma mget_madd r c a b i j : rect r c a -> rect r c b -> i < r -> j < c ->
    mget (madd a b) i j = fadd (mget a i j) (mget b i j).
  Proof.
    revert r b i. induction a as [|x a IH]; intros r [|y b] i [A1 A2] [B1 B2] Hi Hj; cbn in A1, B1; try lia.
    destruct i as [|i].
    - unfold GPState.mget. cbn [GPState.madd nth].
      rewrite (nth_indep _ f0 (fadd (fst (f0,f0)) (snd (f0,f0)))) by (rewrite map_length, combine_length, (A2 x), (B2 y) by (now left); lia).
      rewrite (map_nth (fun p : F * F => fadd (fst p) (snd p))).
      rewrite combine_nth by (rewrite (A2 x), (B2 y) by (now left); lia). reflexivity.
    - unfold GPState.mget in *. cbn [GPState.madd nth]. destruct r as [|r]; [lia|].
      apply (IH r b i); try lia; split; try lia; intros; [apply A2|apply B2]; now right.
  Qed.
End KV.

Section GPStateP.
  Context {P F H : Type} (f0 : F) (fadd : F -> F -> F).
  Variable kernel : list P -> list P -> H -> list (list F).
  Variable user_mean : option (list P -> H -> list F).
  Variable favg : list F -> F.
  Variable defnoise : list F -> F.
  Variable noise : @noise_model P F H.
  Variable rank_mode : bool.
  Notation gp := (@gp P F H).
  Notation build := (build f0 fadd kernel user_mean favg defnoise noise rank_mode).
  Notation gstep := (gstep f0 fadd kernel user_mean favg defnoise noise rank_mode).
  Notation gsteps := (gsteps f0 fadd kernel user_mean favg defnoise noise rank_mode).
  Notation refresh := (refresh f0 fadd rank_mode).
  Notation mean_of := (mean_of user_mean favg).
  Notation noise_of := (noise_of favg defnoise noise).

  Hypothesis Hk : symmetric_kernel kernel.
  Hypothesis Hm : match user_mean with None => True | Some f => pointwise_mean f end.

  (** prior and noise match the data *)
  Definition Inv (s : gp) : Prop :=
    pm s = mean_of (xd s) (yd s) (hp s) /\ pK s = kernel (xd s) (xd s) (hp s) /\
    pV s = noise_of (xd s) (yd s) (nvar s) (hp s).
  Definition Fact (s : gp) : Prop := addKV f0 fadd (pK s) (pV s) = Some (factored s).

  Lemma refresh_some r (s s' : gp) : refresh r s = Some s' ->
    xd s' = xd s /\ yd s' = yd s /\ nvar s' = nvar s /\ hp s' = hp s /\ pm s' = pm s /\ pK s' = pK s /\ pV s' = pV s /\
    exists kv, addKV f0 fadd (pK s) (pV s) = Some kv /\
      factored s' = if r then update_KV f0 rank_mode (factored s) kv else kv.
  Proof.
    unfold GPState.refresh. destruct (addKV f0 fadd (pK s) (pV s)) as [kv|] eqn:E; [|discriminate].
    intros Heq. injection Heq as <-. cbn. repeat split; auto. exists kv. split; [reflexivity|]. now destruct r.
  Qed.

  Lemma mean_app x y x' y' (nv : list F) h (s : gp) :
    pm s = mean_of x y h -> 
    (match user_mean with None => default_mean favg (y ++ y') (x ++ x') | Some f => pm s ++ f x' h end)
    = mean_of (x ++ x') (y ++ y') h.
  Proof.
    clear Hk nv. intros E. unfold GPState.mean_of in *. destruct user_mean as [f|]; [|reflexivity].
    destruct Hm as (mu & Hmu). rewrite E, !Hmu, map_app. reflexivity.
  Qed.

  Lemma step_inv s o s' : Inv s -> gstep s o = Some s' -> Inv s'.
  Proof.
    intros (I1 & I2 & I3) E. destruct o as [r x y nv|x y nv|h]; cbn in E.
    - unfold gp_append in E. apply refresh_some in E as (E1 & E2 & E3 & E4 & E5 & E6 & E7 & _).
      cbn in *. unfold Inv. rewrite E1, E2, E3, E4, E5, E6, E7. repeat split.
      + apply (mean_app (xd s) (yd s) x y []). exact I1.
      + destruct Hk as (k & Hs & He). rewrite I2, !He. apply ent_block. intros; apply Hs.
    - unfold gp_overwrite in E. apply refresh_some in E as (E1 & E2 & E3 & E4 & E5 & E6 & E7 & _).
      cbn in *. unfold Inv. rewrite E1, E2, E3, E4, E5, E6, E7. auto.
    - unfold gp_set_hps in E. apply refresh_some in E as (E1 & E2 & E3 & E4 & E5 & E6 & E7 & _).
      cbn in *. unfold Inv. rewrite E1, E2, E3, E4, E5, E6, E7. auto.
  Qed.

  (** addKV on a kernel matrix, entry by entry *)
  Lemma addKV_rect n K v kv : rect n n K -> (forall m, v = VFull m -> rect n n m) ->
    addKV f0 fadd K v = Some kv -> rect n n kv.
  Proof.
    intros RK Hv E. destruct v as [l|m]; cbn in E; destruct (Nat.eqb _ _); try discriminate; injection E as <-.
    - now apply rect_set_diag.
    - apply rect_madd; auto.
  Qed.

  Lemma stable_block x y nv x' y' nv' h kv kv' :
    stable_noise noise -> length nv = length x -> length nv' = length x' ->
    addKV f0 fadd (kernel x x h) (noise_of x y nv h) = Some kv ->
    addKV f0 fadd (kernel (x ++ x') (x ++ x') h) (noise_of (x ++ x') (y ++ y') (nv ++ nv') h) = Some kv' ->
    bordered f0 kv kv' = kv'.
  Proof.
    intros Hst L1 L2 E E'. destruct Hk as (k & Hs & He). rewrite !He in E, E'.
    pose proof (rect_ent (fun a b => k a b h) x x) as RK.
    pose proof (rect_ent (fun a b => k a b h) (x ++ x') (x ++ x')) as RK'. rewrite app_length in RK'.
    destruct x as [|d0 xs] eqn:Ex.
    { (* nothing old *)
      assert (kv = []) as ->.
      { destruct (noise_of [] y nv h) as [l|m]; cbn in E; destruct (Nat.eqb _ _); try discriminate;
        injection E as <-; [reflexivity|]. destruct m; reflexivity. }
      assert (Rkv' : rect (length x') (length x') kv').
      { eapply addKV_rect; [exact RK'| |exact E']. intros m Em. cbn [app length plus] in *.
        unfold GPState.noise_of in Em. destruct noise as [f| |]; cbn in Hst; try contradiction.
        - destruct Hst as [(nu & Hf)|(nu & _ & Hf)]; rewrite Hf in Em; [discriminate|].
          injection Em as <-. apply rect_ent.
        - destruct (Nat.eqb _ _); discriminate. }
      unfold bordered. cbn [length]. unfold block.
      apply (mat_ext f0 (length x') (length x')); [|assumption|].
      - cbn [hcat app]. pose proof (rect_low_left 0 (length x') kv' Rkv') as A.
        pose proof (rect_low_right 0 (length x') kv' Rkv') as B.
        apply (rect_hcat _ 0 _ _ _ A B).
      - intros i j Hi Hj. cbn [hcat app].
        pose proof (rect_low_left 0 (length x') kv' Rkv') as A.
        pose proof (rect_low_right 0 (length x') kv' Rkv') as B.
        rewrite (mget_hcat f0 (length x') 0 (length x') _ _ _ _ A B) by assumption.
        cbn [Nat.ltb Nat.leb]. rewrite (mget_low_right f0 0 (length x')) by assumption. f_equal; lia. }
    rewrite <- Ex in *. clear Ex.
    assert (G : forall a b, k a b h = k b a h) by (intros; apply Hs).
    unfold GPState.noise_of in E, E'. destruct noise as [f| |] eqn:En; cbn in Hst; try contradiction.
    - destruct Hst as [(nu & Hf)|(nu & Hns & Hf)]; rewrite Hf in E, E'; cbn in E, E';
      (destruct (Nat.eqb _ _) in E; [|discriminate]); (destruct (Nat.eqb _ _) in E'; [|discriminate]);
      injection E as <-; injection E' as <-.
      + apply (bordered_eq f0 (length x) (length x')); try now apply rect_set_diag.
        * intros i j Hi Hj. rewrite !(mget_set_diag f0 fadd _ _ _ _ _ _ RK') by assumption.
          rewrite !(mget_ent f0 (fun a b => k a b h) _ _ _ _ d0) by (rewrite app_length; assumption).
          rewrite (Nat.eqb_sym j i). destruct (Nat.eqb_spec i j) as [->|]; [reflexivity|]. apply G.
        * intros i j Hi Hj. rewrite (mget_set_diag f0 fadd _ _ _ _ _ _ RK) by assumption.
          rewrite (mget_set_diag f0 fadd _ _ _ _ _ _ RK') by lia.
          rewrite !(mget_ent f0 (fun a b => k a b h) _ _ _ _ d0) by (rewrite ?app_length; lia).
          rewrite !app_nth1 by (rewrite ?map_length; lia). rewrite map_app.
          rewrite app_nth1 by (rewrite map_length; lia). reflexivity.
      + pose proof (rect_ent (fun a b => nu a b h) x x) as RN.
        pose proof (rect_ent (fun a b => nu a b h) (x ++ x') (x ++ x')) as RN'. rewrite app_length in RN'.
        apply (bordered_eq f0 (length x) (length x')); try now apply rect_madd.
        * intros i j Hi Hj. rewrite !(mget_madd f0 fadd _ _ _ _ _ _ RK' RN') by assumption.
          rewrite !(mget_ent f0 (fun a b => k a b h) _ _ _ _ d0), !(mget_ent f0 (fun a b => nu a b h) _ _ _ _ d0) by (rewrite app_length; assumption).
          f_equal; [apply G|apply Hns].
        * intros i j Hi Hj. rewrite (mget_madd f0 fadd _ _ _ _ _ _ RK RN), (mget_madd f0 fadd _ _ _ _ _ _ RK' RN') by lia.
          rewrite !(mget_ent f0 (fun a b => k a b h) _ _ _ _ d0), !(mget_ent f0 (fun a b => nu a b h) _ _ _ _ d0) by (rewrite ?app_length; lia).
          now rewrite !app_nth1 by lia.
    - rewrite L1, Nat.eqb_refl in E. rewrite !app_length, L1, L2, Nat.eqb_refl in E'. cbn in E, E'.
      destruct (Nat.eqb _ _) in E; [|discriminate]. destruct (Nat.eqb _ _) in E'; [|discriminate].
      injection E as <-. injection E' as <-.
      apply (bordered_eq f0 (length x) (length x')); try now apply rect_set_diag.
      + intros i j Hi Hj. rewrite !(mget_set_diag f0 fadd _ _ _ _ _ _ RK') by assumption.
        rewrite !(mget_ent f0 (fun a b => k a b h) _ _ _ _ d0) by (rewrite app_length; assumption).
        rewrite (Nat.eqb_sym j i). destruct (Nat.eqb_spec i j) as [->|]; [reflexivity|]. apply G.
      + intros i j Hi Hj. rewrite (mget_set_diag f0 fadd _ _ _ _ _ _ RK) by assumption.
        rewrite (mget_set_diag f0 fadd _ _ _ _ _ _ RK') by lia.
        rewrite !(mget_ent f0 (fun a b => k a b h) _ _ _ _ d0) by (rewrite ?app_length; lia).
        now rewrite !app_nth1 by lia.
  Qed.

  Lemma addKV_len K v kv n : rect n n K -> addKV f0 fadd K v = Some kv -> length kv = n.
  Proof.
    intros [R1 R2] E. destruct v as [l|m]; cbn in E; destruct (Nat.eqb_spec (length l) (length K)) as [L|] ||
      destruct (Nat.eqb_spec (length m) (length K)) as [L|]; try discriminate; injection E as <-.
    - unfold set_diag. rewrite map_length, combine_length, seq_length. lia.
    - rewrite madd_len; lia.
  Qed.

  Lemma kernel_rect x h : rect (length x) (length x) (kernel x x h).
  Proof. destruct Hk as (k & _ & He). rewrite He. apply (rect_ent (fun a b => k a b h)). Qed.

  Lemma step_fact s o s' : stable_noise noise ->
    Inv s -> Fact s -> length (nvar s) = length (xd s) -> aligned o ->
    gstep s o = Some s' -> Fact s' /\ length (nvar s') = length (xd s').
  Proof.
    intros Hst I HF Hl Ha E. pose proof (step_inv s o s' I E) as I'.
    destruct o as [r x y nv|x y nv|h]; cbn in E, Ha.
    - unfold gp_append in E. apply refresh_some in E as (E1 & E2 & E3 & E4 & E5 & E6 & E7 & kv' & Ek & Ef).
      cbn [xd yd nvar hp pm pK pV factored] in *. split; [|rewrite E1, E3, !app_length; lia].
      destruct I as (_ & I2 & I3). destruct I' as (_ & I2' & I3').
      unfold Fact in *. rewrite I2', I3', E1, E2, E3, E4.
      rewrite <- E6 in Ek. rewrite <- E7 in Ek. rewrite I2', I3', E1, E2, E3, E4 in Ek.
      rewrite Ek, Ef. f_equal. destruct r; [|reflexivity].
      unfold update_KV. destruct rank_mode; [|reflexivity].
      destruct (Nat.leb_spec (length kv') (length (factored s))) as [|L]; [reflexivity|].
      rewrite I2, I3 in HF. symmetry. eapply (stable_block (xd s) (yd s) (nvar s) x y nv (hp s)); auto.
    - unfold gp_overwrite in E. apply refresh_some in E as (E1 & E2 & E3 & E4 & E5 & E6 & E7 & kv' & Ek & Ef).
      cbn in *. unfold Fact. rewrite E6, E7, Ek, Ef, E1, E3. auto.
    - unfold gp_set_hps in E. apply refresh_some in E as (E1 & E2 & E3 & E4 & E5 & E6 & E7 & kv' & Ek & Ef).
      cbn in *. unfold Fact. rewrite E6, E7, Ek, Ef, E1, E3. auto.
  Qed.

  Lemma build_ok x y nv h s : build x y nv h = Some s ->
    Inv s /\ Fact s /\ xd s = x /\ yd s = y /\ nvar s = nv /\ hp s = h.
  Proof.
    unfold GPState.build. intros E.
    assert (E' : refresh false (GP x y nv h (mean_of x y h) (kernel x x h) (noise_of x y nv h) []) = Some s) by exact E.
    apply refresh_some in E' as (E1 & E2 & E3 & E4 & E5 & E6 & E7 & kv' & Ek & Ef). cbn in *.
    unfold Inv, Fact. rewrite E1, E2, E3, E4, E5, E6, E7, Ef. auto 10.
  Qed.

  Lemma steps_inv os : forall s s', Inv s -> gsteps s os = Some s' -> Inv s'.
  Proof.
    induction os as [|o os IH]; cbn; intros s s' I E; [now injection E as <-|].
    destruct (gstep s o) as [s1|] eqn:E1; [|discriminate]. eapply IH; [|exact E]. eapply step_inv; eauto.
  Qed.

  Lemma steps_fact os : stable_noise noise -> forall s s', Inv s -> Fact s -> length (nvar s) = length (xd s) ->
    (forall o, In o os -> aligned o) -> gsteps s os = Some s' -> Fact s'.
  Proof.
    intros Hst. induction os as [|o os IH]; cbn; intros s s' I HF L Ha E; [now injection E as <-|].
    destruct (gstep s o) as [s1|] eqn:E1; [|discriminate].
    destruct (step_fact s o s1 Hst I HF L) as [HF1 L1]; auto.
    eapply IH; [| | | |exact E]; eauto. eapply step_inv; eauto.
  Qed.

  Lemma build_of_inv s : Inv s -> forall kv, addKV f0 fadd (pK s) (pV s) = Some kv ->
    build (xd s) (yd s) (nvar s) (hp s) = Some (GP (xd s) (yd s) (nvar s) (hp s) (pm s) (pK s) (pV s) kv).
  Proof.
    intros (I1 & I2 & I3) kv E. unfold GPState.build, GPState.refresh. cbn.
    rewrite I2, I3 in E. rewrite E, I1, I2, I3. reflexivity.
  Qed.

  (** the step always leaves a K+V that can be formed *)
  Lemma steps_kv os : forall s s', gsteps s os = Some s' -> (exists kv, addKV f0 fadd (pK s) (pV s) = Some kv) ->
    exists kv, addKV f0 fadd (pK s') (pV s') = Some kv.
  Proof.
    induction os as [|o os IH]; cbn; intros s s' E X; [now injection E as <-|].
    destruct (gstep s o) as [s1|] eqn:E1; [|discriminate]. apply (IH s1); [exact E|].
    destruct o as [r x y nv|x y nv|h]; cbn in E1;
    [unfold gp_append in E1|unfold gp_overwrite in E1|unfold gp_set_hps in E1];
    apply refresh_some in E1 as (_ & _ & _ & _ & _ & E6 & E7 & kv & Ek & _); rewrite E6, E7; eauto.
  Qed.

  Definition ds_of (s : gp) : dataset := DS (xd s) (yd s) (nvar s) (hp s).
  Lemma step_ds s o s' : gstep s o = Some s' -> ds_of s' = ds_step (ds_of s) o.
  Proof.
    destruct o as [r x y nv|x y nv|h]; cbn; intros E;
    [unfold gp_append in E|unfold gp_overwrite in E|unfold gp_set_hps in E];
    apply refresh_some in E as (E1 & E2 & E3 & E4 & _); cbn in *; unfold ds_of; now rewrite E1, E2, E3, E4.
  Qed.
  Lemma steps_ds os : forall s s', gsteps s os = Some s' -> ds_of s' = history (ds_of s) os.
  Proof.
    induction os as [|o os IH]; cbn; intros s s' E; [now injection E as <-|].
    destruct (gstep s o) as [s1|] eqn:E1; [|discriminate]. rewrite (IH s1 s' E). unfold history. cbn [fold_left].
    now rewrite (step_ds s o s1 E1).
  Qed.

  Lemma incremental_prior_l : forall x y nv h s0 os s d,
    build x y nv h = Some s0 -> gsteps s0 os = Some s -> history (DS x y nv h) os = d ->
    exists t, build (ds_x d) (ds_y d) (ds_nv d) (ds_h d) = Some t /\ pm t = pm s /\ pK t = pK s /\ pV t = pV s.
  Proof.
    intros x y nv h s0 os s d B E Hd. apply build_ok in B as (I & HF & B1 & B2 & B3 & B4).
    pose proof (steps_ds os s0 s E) as D. unfold ds_of at 2 in D. rewrite B1, B2, B3, B4, Hd in D. subst d.
    rewrite <- D. cbn [ds_of ds_x ds_y ds_nv ds_h].
    destruct (steps_kv os s0 s E) as (kv & Ekv). { unfold Fact in HF. eauto. }
    pose proof (steps_inv os s0 s I E) as I'.
    eexists. split; [apply (build_of_inv s I' kv Ekv)|]. auto.
  Qed.

  Lemma incremental_factor_l : stable_noise noise -> forall x y nv h s0 os s d,
    build x y nv h = Some s0 -> length nv = length x -> (forall o, In o os -> aligned o) ->
    gsteps s0 os = Some s -> history (DS x y nv h) os = d ->
    build (ds_x d) (ds_y d) (ds_nv d) (ds_h d) = Some s /\ addKV f0 fadd (pK s) (pV s) = Some (factored s).
  Proof.
    intros Hst x y nv h s0 os s d B L Ha E Hd. apply build_ok in B as (I & HF & B1 & B2 & B3 & B4).
    pose proof (steps_ds os s0 s E) as D. unfold ds_of at 2 in D. rewrite B1, B2, B3, B4, Hd in D. subst d.
    rewrite <- D. cbn [ds_of ds_x ds_y ds_nv ds_h].
    pose proof (steps_inv os s0 s I E) as I'.
    assert (HF' : Fact s).
    { eapply steps_fact; [eassumption|exact I|exact HF| |exact Ha|exact E]. now rewrite B1, B3. }
    split; [|exact HF']. rewrite (build_of_inv s I' _ HF'). now destruct s.
  Qed.
End GPStateP.
