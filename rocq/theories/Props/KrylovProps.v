(** Properties C19 and C21: starting guesses and column blocks. *)
From Verif Require Import Model.Prelude Model.Data Model.Krylov Proofs.KrylovP.
Local Open Scope nat_scope.

(** C19: [as_mat] reads a 1-d guess as one column *)
Theorem guess_shape : forall {V : Type} (zero : V) (x0 : guess V) r c,
  (forall m, as_mat x0 = Some m -> mat_ok m) ->
  match as_mat x0 with
  | None => normalize_guess zero x0 r c = Some None
  | Some m =>
      (normalize_guess zero x0 r c = None <-> ncols m <> c /\ ~ (ncols m = 1 /\ 1 < c)) /\
      forall g, normalize_guess zero x0 r c = Some g -> exists m', g = Some m' /\
        mat_ok m' /\ ncols m' = c /\ length (rows m') = r /\
        (forall i j, i < r -> j < c ->
          entry zero m' i j = if Nat.ltb i (length (rows m)) then entry zero m i (if Nat.eqb (ncols m) 1 then 0 else j) else zero) /\
        (forall j, j < c -> length (column_guess zero m' j) = r /\
                            forall i, i < r -> nth i (column_guess zero m' j) zero = entry zero m' i j)
  end.
Proof. exact @guess_l. Qed.
Print Assumptions guess_shape.

Example guess_shape_ex :
  normalize_guess 0%Z (GVec [1; 2]%Z) 3 2 = Some (Some (Mat 2 [[1; 1]; [2; 2]; [0; 0]]%Z)) /\
  normalize_guess 0%Z (GMat (Mat 2 [[1; 2]; [3; 4]; [5; 6]]%Z)) 2 2 = Some (Some (Mat 2 [[1; 2]; [3; 4]]%Z)) /\
  normalize_guess 0%Z (GMat (Mat 2 [[1; 2]]%Z)) 1 3 = None /\ normalize_guess 0%Z (GVec [1]%Z) 1 0 = None.
Proof. vm_compute. auto. Qed.

(** C21: every column is solved exactly once, in order, with its own starting guess; in block mode column
    j is column (j mod bs) of the solution of block (j / bs), where a block whose solver raised is solved
    column by column.  No warning means that every solve reported success. *)
Theorem column_blocks : forall {Col : Type} (single : Col -> option Col -> Col * Z)
    (block : list Col -> option (list Col) -> option (list Col * Z)) block_mode block_size vec x0 sol warned,
  (forall v x s code, block v x = Some (s, code) -> length s = length v) ->
  (forall l, x0 = Some l -> length l = length vec) ->
  conj_grad single block block_mode block_size vec x0 = (sol, warned) ->
  let bs := Z.to_nat (Z.max 1 (Z.min block_size (Z.of_nat (length vec)))) in
  let cut b {A} (l : list A) := firstn bs (skipn (b * bs) l) in
  let guess j := match x0 with Some l => nth_error l j | None => None end in
  length sol = length vec /\
  forall j v, nth_error vec j = Some v ->
    (block_mode = false \/ length vec <= 1 ->
       nth_error sol j = Some (fst (single v (guess j))) /\ (warned = false -> snd (single v (guess j)) = 0%Z)) /\
    (block_mode = true -> 1 < length vec ->
       match block (cut (j / bs) vec) (option_map (cut (j / bs)) x0) with
       | Some (s, code) => nth_error sol j = nth_error s (j mod bs) /\ (warned = false -> code = 0%Z)
       | None => nth_error sol j = Some (fst (single v (guess j))) /\ warned = true
       end).
Proof.
  intros Col single block block_mode block_size vec x0 sol warned Hb Hx. unfold conj_grad.
  set (bs := Z.to_nat (Z.max 1 (Z.min block_size (Z.of_nat (length vec))))). assert (Hbs : 0 < bs) by (unfold bs; lia).
  destruct (block_mode && Nat.ltb 1 (length vec)) eqn:C; cbn zeta.
  - apply andb_true_iff in C as [-> C]. apply Nat.ltb_lt in C.
    destruct (blocks single block (length vec) bs vec x0) as [s codes] eqn:E. intros [= <- <-].
    destruct (blocks_spec single block Hb bs Hbs _ _ _ _ _ E (le_n _) Hx) as [L H]. split; [exact L|].
    intros j v Hv. split; [intros [?|?]; [discriminate|lia]|]. intros _ _.
    assert (Hj : j < length vec) by (apply nth_error_Some; congruence).
    destruct (H j Hj) as (code & H1 & H2 & H3). unfold solve_block, slice in H2, H3.
    assert (Hw : existsb (fun c => negb (Z.eqb c 0)) codes = false -> code = 0%Z).
    { intros Hf. destruct (Z.eqb_spec code 0) as [|Nc]; [assumption|]. exfalso. apply nth_error_In in H1.
      assert (existsb (fun c => negb (Z.eqb c 0)) codes = true); [|congruence]. apply existsb_exists. exists code. split; [exact H1|].
      now apply negb_true_iff, Z.eqb_neq. }
    destruct (block _ _) as [[s' c']|] eqn:Eb.
    + cbn in H2, H3. subst c'. auto.
    + cbn [fst snd] in H2, H3. split.
      * rewrite H3. destruct (columnwise single _ _) as [s0 w0] eqn:E0. apply columnwise_spec in E0 as (_ & E0 & _).
        -- cbn [fst]. assert (Hn : forall A (l : list A), nth_error (firstn bs (skipn (j / bs * bs) l)) (j mod bs) = nth_error l j).
           { intros A l. assert (Hm : j mod bs < bs) by (apply Nat.mod_upper_bound; lia).
             rewrite <- (firstn_skipn (j / bs * bs) l) at 2. pose proof (Nat.div_mod j bs) as Hd.
             destruct (Nat.le_gt_cases (j / bs * bs) (length l)) as [Hle|Hgt].
             - rewrite nth_error_app2; rewrite firstn_length, Nat.min_l by exact Hle; [|lia]. replace (j - j / bs * bs) with (j mod bs) by lia.
               rewrite <- (firstn_skipn bs (skipn (j / bs * bs) l)) at 2.
               destruct (Nat.lt_ge_cases (j mod bs) (length (firstn bs (skipn (j / bs * bs) l)))) as [H'|H'].
               + now rewrite nth_error_app1.
               + rewrite (proj2 (nth_error_None _ _) H'). symmetry. apply nth_error_None. rewrite firstn_skipn.
                 rewrite firstn_length in H'. lia.
             - rewrite skipn_all2 by lia. rewrite firstn_nil, app_nil_r. replace (nth_error [] (j mod bs)) with (@None A) by (now destruct (j mod bs)).
               symmetry. apply nth_error_None. rewrite firstn_length. lia. }
           rewrite (E0 (j mod bs) v) by (rewrite Hn; exact Hv). do 3 f_equal. destruct x0 as [l|]; [|reflexivity]. cbn. now rewrite Hn.
        -- intros l. destruct x0 as [x|]; [|discriminate]. cbn. intros [= <-]. rewrite !firstn_length, !skipn_length. now rewrite (Hx x eq_refl).
      * apply existsb_exists. exists 4%Z. rewrite H2 in H1. split; [now apply nth_error_In in H1|reflexivity].
  - intros E. destruct (columnwise_spec single _ _ _ _ E Hx) as (L & H1 & H2). split; [exact L|]. intros j v Hv. split.
    + intros _. split; [now apply H1|]. intros Hw. now apply H2.
    + intros -> Hl. apply Nat.ltb_lt in Hl. rewrite Hl in C. discriminate.
Qed.
Print Assumptions column_blocks.

(** five columns in blocks of two; columns are numbers, a solution is the number plus the guess; the block
    solver raises on blocks that contain 30 *)
Example column_blocks_ex :
  let single v (g : option Z) := ((v + match g with Some x => x | None => 0 end)%Z, 0%Z) in
  let block vs (gs : option (list Z)) := if existsb (Z.eqb 30) vs then None
                       else Some (map (fun p => fst p + snd p)%Z (combine vs (match gs with Some l => l | None => repeat 0%Z (length vs) end)), 0%Z) in
  conj_grad single block true 2 [10; 20; 30; 40; 50]%Z (Some [1; 2; 3; 4; 5]%Z) = ([11; 22; 33; 44; 55]%Z, true) /\
  conj_grad single block true 9 [10; 20]%Z None = ([10; 20]%Z, false) /\
  conj_grad single block false 2 [10; 20; 30; 40; 50]%Z (Some [1; 2; 3; 4; 5]%Z) = ([11; 22; 33; 44; 55]%Z, false).
Proof. vm_compute. auto. Qed.
