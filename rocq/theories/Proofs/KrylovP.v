(** Proofs about starting guesses and the column loops. *)
From Verif Require Import Model.Prelude Model.Data Model.Krylov.
Local Open Scope nat_scope.

Section Guess.
  Context {V : Type} (zero : V).
  (** entry (i, j) of an array *)
  Definition entry (m : mat V) (i j : nat) : V := nth j (nth i (rows m) []) zero.
  Definition as_mat (g : guess V) : option (mat V) :=
    match g with GNone => None | GVec l => Some (Mat 1 (map (fun v => [v]) l)) | GMat m => Some m end.

  Lemma nth_repeat_in {A} (a d : A) i n : i < n -> nth i (repeat a n) d = a.
  Proof. revert i. induction n as [|n IH]; intros i H; [lia|]. destruct i; cbn; [reflexivity|]. apply IH. lia. Qed.

  Lemma match_columns_spec m c m1 : mat_ok m -> match_columns m c = Some m1 ->
    mat_ok m1 /\ ncols m1 = c /\ length (rows m1) = length (rows m) /\
    (ncols m = c \/ ncols m = 1 /\ 1 < c) /\
    forall i j, i < length (rows m) -> j < c -> entry m1 i j = entry m i (if Nat.eqb (ncols m) 1 then 0 else j).
  Proof.
    intros Hm. unfold match_columns. destruct (Nat.eqb_spec (ncols m) 1) as [E1|N1]; cbn [andb].
    - destruct (Nat.ltb_spec 1 c) as [Hc|Hc].
      + cbn [ncols]. rewrite E1, Nat.mul_1_l, Nat.eqb_refl. intros [= <-].
        assert (Hrow : forall r, In r (rows m) -> exists v, r = [v]).
        { intros r Hr. apply Hm in Hr. rewrite E1 in Hr. destruct r as [|v [|w r]]; try discriminate. now exists v. }
        split; [|split; [reflexivity|split; [cbn; now rewrite map_length|split; [auto|]]]].
        * intros r Hr. cbn in Hr. apply in_map_iff in Hr as (r0 & <- & Hr). destruct (Hrow r0 Hr) as (v & ->).
          cbn. now rewrite app_nil_r, repeat_length.
        * intros i j Hi Hj. unfold entry. cbn [rows].
          rewrite (nth_indep _ [] (concat (map (fun v => repeat v c) []))) by (rewrite map_length; exact Hi).
          rewrite (map_nth (fun r => concat (map (fun v => repeat v c) r))).
          destruct (Hrow (nth i (rows m) []) (nth_In _ _ Hi)) as (v & ->). cbn. rewrite app_nil_r. now apply nth_repeat_in.
      + destruct (Nat.eqb_spec (ncols m) c) as [Ec|]; [|discriminate]. intros [= <-].
        split; [exact Hm|]. split; [exact Ec|]. split; [reflexivity|]. split; [now left|].
        intros i j Hi Hj. assert (j = 0) by lia. now subst.
    - destruct (Nat.eqb_spec (ncols m) c) as [Ec|]; [|discriminate]. intros [= <-]. auto 10.
  Qed.
  Lemma match_columns_none (m : mat V) c : match_columns m c = None <-> ncols m <> c /\ ~ (ncols m = 1 /\ 1 < c).
  Proof.
    unfold match_columns. destruct (Nat.eqb_spec (ncols m) 1) as [E1|N1]; cbn [andb].
    - destruct (Nat.ltb_spec 1 c) as [Hc|Hc].
      + cbn [ncols]. rewrite E1, Nat.mul_1_l, Nat.eqb_refl. split; [discriminate|lia].
      + destruct (Nat.eqb_spec (ncols m) c); split; try discriminate; try lia; auto.
    - destruct (Nat.eqb_spec (ncols m) c); split; try discriminate; try lia; auto.
  Qed.
  Lemma match_rows_spec m r : mat_ok m -> let m1 := match_rows zero m r in
    mat_ok m1 /\ ncols m1 = ncols m /\ length (rows m1) = r /\
    forall i j, i < r -> j < ncols m -> entry m1 i j = if Nat.ltb i (length (rows m)) then entry m i j else zero.
  Proof.
    intros Hm m1. unfold m1, match_rows. destruct (Nat.ltb_spec (length (rows m)) r) as [Hlt|Hge].
    - split; [|split; [reflexivity|split]].
      + intros x Hx. cbn in Hx. apply in_app_or in Hx as [Hx|Hx]; [now apply Hm|]. apply repeat_spec in Hx as ->. apply repeat_length.
      + cbn. rewrite app_length, repeat_length. lia.
      + intros i j Hi Hj. unfold entry. cbn [rows]. destruct (Nat.ltb_spec i (length (rows m))) as [H|H].
        * now rewrite app_nth1.
        * rewrite app_nth2 by lia. rewrite nth_repeat_in by lia. now apply nth_repeat_in.
    - destruct (Nat.ltb_spec r (length (rows m))) as [Hlt|Hge'].
      + split; [|split; [reflexivity|split]].
        * intros x Hx. cbn in Hx. apply Hm. rewrite <- (firstn_skipn r (rows m)). apply in_or_app. now left.
        * cbn. rewrite firstn_length. lia.
        * intros i j Hi Hj. unfold entry. cbn [rows]. replace (Nat.ltb i (length (rows m))) with true by (symmetry; apply Nat.ltb_lt; lia).
          rewrite <- (firstn_skipn r (rows m)) at 2. rewrite app_nth1; [reflexivity|]. rewrite firstn_length. lia.
      + split; [exact Hm|]. split; [reflexivity|]. split; [lia|]. intros i j Hi Hj.
        replace (Nat.ltb i (length (rows m))) with true by (symmetry; apply Nat.ltb_lt; lia). reflexivity.
  Qed.

  Lemma guess_l (x0 : guess V) r c : (forall m, as_mat x0 = Some m -> mat_ok m) ->
    match as_mat x0 with
    | None => normalize_guess zero x0 r c = Some None
    | Some m =>
        (normalize_guess zero x0 r c = None <-> ncols m <> c /\ ~ (ncols m = 1 /\ 1 < c)) /\
        forall g, normalize_guess zero x0 r c = Some g -> exists m', g = Some m' /\
          mat_ok m' /\ ncols m' = c /\ length (rows m') = r /\
          (forall i j, i < r -> j < c ->
            entry m' i j = if Nat.ltb i (length (rows m)) then entry m i (if Nat.eqb (ncols m) 1 then 0 else j) else zero) /\
          (forall j, j < c -> length (column_guess zero m' j) = r /\ forall i, i < r -> nth i (column_guess zero m' j) zero = entry m' i j)
    end.
  Proof.
    intros Hok. assert (Hall : forall m, mat_ok m -> forall res, res = match match_columns m c with None => None | Some m1 => Some (Some (match_rows zero m1 r)) end ->
        (res = None <-> ncols m <> c /\ ~ (ncols m = 1 /\ 1 < c)) /\
        forall g, res = Some g -> exists m', g = Some m' /\
          mat_ok m' /\ ncols m' = c /\ length (rows m') = r /\
          (forall i j, i < r -> j < c ->
            entry m' i j = if Nat.ltb i (length (rows m)) then entry m i (if Nat.eqb (ncols m) 1 then 0 else j) else zero) /\
          (forall j, j < c -> length (column_guess zero m' j) = r /\ forall i, i < r -> nth i (column_guess zero m' j) zero = entry m' i j)).
    { intros m Hm res ->. split.
      - rewrite <- match_columns_none. destruct (match_columns m c); split; congruence.
      - intros g. destruct (match_columns m c) as [m1|] eqn:E; [|discriminate]. intros [= <-].
        destruct (match_columns_spec m c m1 Hm E) as (A1 & A2 & A3 & A4 & A5).
        destruct (match_rows_spec m1 r A1) as (B1 & B2 & B3 & B4). eexists. split; [reflexivity|].
        split; [exact B1|]. split; [congruence|]. split; [exact B3|]. split.
        + intros i j Hi Hj. rewrite B4 by lia. rewrite A3. destruct (Nat.ltb_spec i (length (rows m))); [now apply A5|reflexivity].
        + intros j Hj. unfold column_guess. rewrite map_length. split; [exact B3|]. intros i Hi. unfold entry.
          rewrite (nth_indep _ zero (nth (Nat.min j (ncols (match_rows zero m1 r) - 1)) [] zero)) by (rewrite map_length; lia).
          rewrite (map_nth (fun r0 => nth (Nat.min j (ncols (match_rows zero m1 r) - 1)) r0 zero)). f_equal. rewrite B2. lia. }
    destruct x0 as [|l|m]; cbn [as_mat]; [reflexivity| |]; (apply Hall; [now apply Hok|reflexivity]).
  Qed.
End Guess.

Section Solve.
  Context {Col : Type} (single : Col -> option Col -> Col * Z) (block : list Col -> option (list Col) -> option (list Col * Z)).
  Notation ocol x0 j := (match x0 with Some l => nth_error l j | None => None end).
  Notation columnwise := (columnwise single). Notation blocks := (blocks single block). Notation solve_block := (solve_block single block).

  Lemma columnwise_spec : forall vec x0 s w, columnwise vec x0 = (s, w) -> (forall l, x0 = Some l -> length l = length vec) ->
    length s = length vec /\
    (forall j v, nth_error vec j = Some v -> nth_error s j = Some (fst (single v (ocol x0 j)))) /\
    (w = false -> forall j v, nth_error vec j = Some v -> snd (single v (ocol x0 j)) = 0%Z).
  Proof.
    induction vec as [|v vs IH]; intros x0 s w; cbn [Krylov.columnwise].
    - intros [= <- <-] _. split; [reflexivity|]. split; intros; destruct j; discriminate.
    - destruct (single v _) as [s0 code] eqn:E. destruct (columnwise vs _) as [ss w'] eqn:E'. intros [= <- <-] Hl.
      assert (H0 : (match x0 with Some (x :: _) => Some x | _ => None end) = ocol x0 0) by (destruct x0 as [[|? ?]|]; reflexivity).
      assert (HS : forall j, ocol (match x0 with Some (_ :: xs) => Some xs | o => o end) j = ocol x0 (S j)).
      { intros j. destruct x0 as [[|x xs]|]; [|reflexivity|reflexivity]. specialize (Hl [] eq_refl). discriminate. }
      destruct (IH _ _ _ E') as (I1 & I2 & I3).
      { intros l. destruct x0 as [[|x xs]|]; [|intros [= <-]; specialize (Hl _ eq_refl); cbn in Hl; lia|discriminate].
        specialize (Hl [] eq_refl). discriminate. }
      split; [cbn; lia|]. split.
      + intros [|j] u Hu; [injection Hu as <-; rewrite <- H0, E; reflexivity|]. rewrite <- HS. exact (I2 j u Hu).
      + intros Hw. apply orb_false_iff in Hw as [Hc Hw]. apply negb_false_iff, Z.eqb_eq in Hc.
        intros [|j] u Hu; [injection Hu as <-; rewrite <- H0, E; exact Hc|]. rewrite <- HS. exact (I3 Hw j u Hu).
  Qed.

  Hypothesis block_len : forall vec x0 s code, block vec x0 = Some (s, code) -> length s = length vec.
  Lemma solve_block_len vec x0 s code : solve_block vec x0 = (s, code) -> (forall l, x0 = Some l -> length l = length vec) -> length s = length vec.
  Proof.
    unfold Krylov.solve_block. destruct (block vec x0) as [[s' c']|] eqn:E; intros [= <- <-] Hl; [exact (block_len _ _ _ _ E)|].
    destruct (columnwise vec x0) as [s0 w] eqn:E0. now destruct (columnwise_spec _ _ _ _ E0 Hl).
  Qed.

  (** slice b of a list *)
  Definition slice {A} (bs b : nat) (l : list A) : list A := firstn bs (skipn (b * bs) l).

  Lemma blocks_spec bs : 0 < bs -> forall fuel vec x0 s codes,
    blocks fuel bs vec x0 = (s, codes) -> length vec <= fuel -> (forall l, x0 = Some l -> length l = length vec) ->
    length s = length vec /\
    forall j, j < length vec -> exists code,
      nth_error codes (j / bs) = Some code /\ code = snd (solve_block (slice bs (j / bs) vec) (option_map (slice bs (j / bs)) x0)) /\
      nth_error s j = nth_error (fst (solve_block (slice bs (j / bs) vec) (option_map (slice bs (j / bs)) x0))) (j mod bs).
  Proof.
    intros Hbs. induction fuel as [|f IH]; intros vec x0 s codes; cbn [Krylov.blocks].
    - destruct vec; cbn; [|lia]. intros [= <- <-] _ _. split; [reflexivity|]. intros j Hj. cbn in Hj. lia.
    - destruct vec as [|v vs] eqn:Ev; [intros [= <- <-] _ _; split; [reflexivity|intros j Hj; cbn in Hj; lia]|].
      rewrite <- Ev in *. destruct (solve_block (firstn bs vec) (option_map (firstn bs) x0)) as [s0 c0] eqn:E0.
      destruct (blocks f bs (skipn bs vec) (option_map (skipn bs) x0)) as [ss cs] eqn:E1. intros [= <- <-] Hf Hl.
      assert (L0 : length s0 = length (firstn bs vec)).
      { eapply solve_block_len; [exact E0|]. intros l. destruct x0 as [x|]; [|discriminate]. cbn. intros [= <-].
        rewrite !firstn_length. now rewrite (Hl x eq_refl). }
      destruct (IH _ _ _ _ E1) as (I1 & I2).
      { rewrite skipn_length. assert (0 < length vec) by (rewrite Ev; cbn; lia). lia. }
      { intros l. destruct x0 as [x|]; [|discriminate]. cbn. intros [= <-]. rewrite !skipn_length. now rewrite (Hl x eq_refl). }
      split.
      { rewrite app_length, L0, I1, <- app_length. now rewrite firstn_skipn. }
      intros j Hj. destruct (Nat.lt_ge_cases j bs) as [Hlt|Hge].
      + rewrite Nat.div_small, Nat.mod_small by exact Hlt. exists c0.
        assert (Ex : option_map (slice bs 0) x0 = option_map (firstn bs) x0) by (destruct x0; reflexivity).
        rewrite Ex. change (slice bs 0 vec) with (firstn bs vec). rewrite E0. cbn [fst snd]. split; [reflexivity|]. split; [reflexivity|].
        rewrite nth_error_app1; [reflexivity|]. rewrite L0, firstn_length. lia.
      + assert (Hfb : length (firstn bs vec) = bs) by (rewrite firstn_length; lia).
        specialize (I2 (j - bs)). rewrite skipn_length in I2. destruct I2 as (code & J1 & J2 & J3); [lia|].
        assert (Hd : j / bs = S ((j - bs) / bs)).
        { replace j with ((j - bs) + 1 * bs) at 1 by lia. rewrite Nat.div_add by lia. lia. }
        assert (Hmd : j mod bs = (j - bs) mod bs).
        { replace j with ((j - bs) + 1 * bs) at 1 by lia. now rewrite Nat.mod_add by lia. }
        assert (Hsl : forall {A} (l : list A), slice bs (S ((j - bs) / bs)) l = slice bs ((j - bs) / bs) (skipn bs l)).
        { intros A l. unfold slice. f_equal. cbn [Nat.mul]. clear. generalize ((j - bs) / bs * bs) as a. intros a.
          revert l. induction bs as [|b IHb]; intros l; [reflexivity|]. destruct l as [|x l]; [now rewrite !skipn_nil|]. cbn [Nat.add skipn]. apply IHb. }
        exists code. rewrite Hd, Hmd. cbn [nth_error]. rewrite Hsl.
        assert (Ho : option_map (slice bs (S ((j - bs) / bs))) x0 = option_map (slice bs ((j - bs) / bs)) (option_map (skipn bs) x0)).
        { destruct x0 as [x|]; [|reflexivity]. cbn. now rewrite Hsl. }
        rewrite Ho. split; [exact J1|]. split; [exact J2|]. rewrite <- J3, nth_error_app2 by lia. now rewrite L0, Hfb.
  Qed.
End Solve.
