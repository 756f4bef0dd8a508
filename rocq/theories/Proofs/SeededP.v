(** Lemmas for Props/SeededProps.v. *)
From Coq Require Import Reals Lra Lia.
From Verif Require Import Model.Prelude Model.Ext Model.Kernels Model.BO Model.Surrogate Model.Seeded Spec.Sums Spec.SurrogateSpec Proofs.SurrogateP.
Local Open Scope R_scope.

Lemma inside_not_outside x : forall b, (forall p, In p (combine x b) -> fst (snd p) <= fst p <= snd (snd p)) -> outside x b = false.
Proof.
  unfold outside. induction x as [|v x IH]; intros [|[lo hi] b] H; try reflexivity. cbn.
  pose proof (H (v, (lo, hi)) (or_introl eq_refl)) as B. cbn in B. unfold rltb. destruct (Rlt_dec v lo); [lra|]. destruct (Rlt_dec hi v); [lra|]. cbn.
  apply IH. intros p Hp. apply H. right. exact Hp.
Qed.
Lemma choose_inside {Gl} (draw : Gl -> nat -> R) adv x b gl : outside x b = false -> choose_start Gl draw adv x b gl = (x, gl).
Proof. unfold choose_start. intros ->. reflexivity. Qed.

Lemma settings_inside lstsq D n us ys vs : least_squares lstsq -> (0 < n)%nat -> let st := fit_settings lstsq D n us ys vs in
  10000 / 9999 * / 10 ^ 12 <= f_scale st -> forall k, f_lo st k <= f_init st k <= f_hi st k.
Proof.
  intros LS Hn st W k. destruct (scale_l lstsq D n us ys vs LS Hn) as [P _]. fold st in P.
  destruct (settings_eq lstsq D n us ys vs) as (_ & E1 & E2 & E3 & _). fold st in E1, E2, E3.
  assert (A : 0 < / 10 ^ 12) by (apply Rinv_0_lt_compat, pow_lt; lra).
  assert (A9 : 0 < / 10 ^ 9) by (apply Rinv_0_lt_compat, pow_lt; lra).
  assert (A4 : / 10 ^ 4 = 1 / 10000) by (cbn; field). assert (A2 : / 10 ^ 2 = 1 / 100) by (cbn; field). assert (P2 : 10 ^ 2 = 100) by (cbn; ring).
  set (e := / 10 ^ 12) in *. set (e9 := / 10 ^ 9) in *.
  set (nug := Rmax (/ 10 ^ 7 * f_scale st) e) in *. assert (Nu : e <= nug) by apply Rmax_r.
  rewrite E1, E2, E3. destruct k as [|k]; [rewrite A4, P2; lra|]. destruct (Nat.ltb k D); [rewrite A2; lra|].
  pose proof (Rmax_l (f_scale st) (10 * nug)). pose proof (Rmax_r (f_scale st) (10 * nug)).
  rewrite A4. split; [apply Rmax_r|apply Rmax_lub; lra].
Qed.

Section Run.
Variables (Gl Own : Type) (draw : Gl -> nat -> R) (advance : Gl -> nat -> Gl) (c : bo_cfg) (tf : list dimt).
Variables (objective : nat -> list R -> option ext) (noise_function : option (nat -> list R -> option ext)) (fixed_noise : option R).
Variables (early_stop : nat -> bool) (lstsq : lstsq_oracle) (G : Type) (local_train : settings -> list ev -> list R -> option G).
Variables (acquire : G -> list ev -> Own -> option (list R * ext) * Own).
Hypothesis LS : least_squares lstsq.
Notation fit := (fit_g Gl draw advance tf lstsq G local_train).
Notation search := (search_g Gl Own draw advance c tf objective noise_function fixed_noise early_stop lstsq G local_train acquire).
Definition wide (evs : list ev) : Prop := 10000 / 9999 * / 10 ^ 12 <= f_scale (data_settings tf lstsq evs).

Lemma in_combine_map {A} (f : A -> R) (g : A -> R * R) l p : In p (combine (map f l) (map g l)) -> exists k, p = (f k, g k).
Proof. induction l as [|a l IH]; cbn; [contradiction|]. intros [<-|H]; [exists a; reflexivity|exact (IH H)]. Qed.

Lemma fit_quiet evs gl gl2 : (0 < length evs)%nat -> wide evs -> fit evs gl = (fst (fit evs gl2), gl).
Proof.
  intros L W. unfold fit_g. set (st := data_settings tf lstsq evs). set (ks := seq 0 (f_count st)).
  assert (O : outside (map (f_init st) ks) (map (fun k => (f_lo st k, f_hi st k)) ks) = false).
  { apply inside_not_outside. intros p Hp. apply in_combine_map in Hp. destruct Hp as [k ->]. cbn [fst snd].
    exact (settings_inside lstsq _ _ _ _ _ LS L W k). }
  rewrite !choose_inside by exact O. reflexivity.
Qed.

Lemma evaluate_grows u it evs cbs evs' cbs' : evaluate tf objective noise_function fixed_noise u it evs cbs = Some (evs', cbs') -> exists e, evs' = evs ++ [e].
Proof. unfold evaluate. destruct (objective _ _); [|discriminate]. intros H. injection H as <- _. eexists. reflexivity. Qed.

Lemma search_grows left : forall gp stall pb pu evs cbs polls own gl evs' cbs' p' s w g' gl',
  search left gp stall pb pu evs cbs polls own gl = (Ok (evs', cbs', p', s, w, g'), gl') -> exists more, evs' = evs ++ more.
Proof.
  induction left as [|left IH]; intros gp stall pb pu evs cbs polls own gl evs' cbs' p' s w g' gl'; cbn [search_g].
  - intros H. injection H as <- _ _ _ _ _ _. exists []. rewrite app_nil_r. reflexivity.
  - destruct (early_stop polls). { intros H. injection H as <- _ _ _ _ _ _. exists []. rewrite app_nil_r. reflexivity. }
    destruct (match gp with Some g => _ | None => _ end) as [[g|] gl1]; [|intros H; injection H as <- _ _ _ _ _ _; exists []; rewrite app_nil_r; reflexivity].
    destruct (acquire g evs own) as [[[u ei]|] own1]; [|discriminate].
    destruct (rltb 0 (ei_tol c) && eltb ei (Fin (ei_tol c)))%bool. { intros H. injection H as <- _ _ _ _ _ _. exists []. rewrite app_nil_r. reflexivity. }
    destruct (evaluate tf objective noise_function fixed_noise u (length evs) evs cbs) as [[e1 c1]|] eqn:Ev; [|discriminate].
    destruct (evaluate_grows _ _ _ _ _ _ Ev) as [e ->].
    destruct (_ && _)%bool. { intros H. injection H as <- _ _ _ _ _ _. exists [e]. reflexivity. }
    intros H. destruct (IH _ _ _ _ _ _ _ _ _ _ _ _ _ _ _ _ H) as [more ->]. exists (e :: more). rewrite <- app_assoc. reflexivity.
Qed.

Lemma search_quiet left : forall gp stall pb pu evs cbs polls own gl evs' cbs' p' s w g' gl',
  search left gp stall pb pu evs cbs polls own gl = (Ok (evs', cbs', p', s, w, g'), gl') -> (0 < length evs)%nat ->
  (forall k, (length evs <= k <= length evs')%nat -> wide (firstn k evs')) ->
  gl' = gl /\ forall gl2, search left gp stall pb pu evs cbs polls own gl2 = (Ok (evs', cbs', p', s, w, g'), gl2).
Proof.
  induction left as [|left IH]; intros gp stall pb pu evs cbs polls own gl evs' cbs' p' s w g' gl' H L W.
  - cbn [search_g] in *. injection H as <- <- <- <- <- <- <-. split; [reflexivity|intros; reflexivity].
  - assert (We : wide evs).
    { destruct (search_grows _ _ _ _ _ _ _ _ _ _ _ _ _ _ _ _ _ H) as [more ->].
      specialize (W (length evs)). rewrite firstn_app, Nat.sub_diag, firstn_all, app_nil_r in W. apply W. rewrite app_length. lia. }
    cbn [search_g] in *. destruct (early_stop polls). { injection H as <- <- <- <- <- <- <-. split; [reflexivity|intros; reflexivity]. }
    assert (F : exists o, forall g2, (match gp with
                             | Some g => if Nat.eqb (length evs mod refit_every c) 0 then fit evs g2 else (Some g, g2)
                             | None => fit evs g2
                             end) = (o, g2)).
    { destruct gp as [g|]; [destruct (Nat.eqb _ 0); [|exists (Some g); reflexivity]|];
        exists (fst (fit evs gl)); intros g2; apply fit_quiet; assumption. }
    destruct F as [o F]. rewrite F in H. setoid_rewrite F. destruct o as [g|]; [|injection H as <- <- <- <- <- <- <-; split; [reflexivity|intros; reflexivity]].
    destruct (acquire g evs own) as [[[u ei]|] own1]; [|discriminate].
    destruct (rltb 0 (ei_tol c) && eltb ei (Fin (ei_tol c)))%bool. { injection H as <- <- <- <- <- <- <-. split; [reflexivity|intros; reflexivity]. }
    destruct (evaluate tf objective noise_function fixed_noise u (length evs) evs cbs) as [[e1 c1]|] eqn:Ev; [|discriminate].
    destruct (evaluate_grows _ _ _ _ _ _ Ev) as [e ->].
    destruct (_ && _)%bool. { injection H as <- <- <- <- <- <- <-. split; [reflexivity|intros; reflexivity]. }
    apply (IH _ _ _ _ _ _ _ _ _ _ _ _ _ _ _ _ H); [rewrite app_length; cbn; lia|].
    intros k Hk. apply W. rewrite app_length in Hk. cbn in Hk. lia.
Qed.

Lemma design_count us : forall evs cbs polls evs' cbs' polls',
  design tf objective noise_function fixed_noise early_stop us evs cbs polls = Some (evs', cbs', polls', false) ->
  length evs' = (length us + length evs)%nat.
Proof.
  induction us as [|u us IH]; intros evs cbs polls evs' cbs' polls'; cbn [design].
  - intros H. injection H as <- _ _. reflexivity.
  - destruct (early_stop polls); [discriminate|]. destruct (evaluate _ _ _ _ _ _ _ _) as [[e1 c1]|] eqn:Ev; [|discriminate].
    destruct (evaluate_grows _ _ _ _ _ _ Ev) as [e ->]. intros H. rewrite (IH _ _ _ _ _ _ H), app_length. cbn. lia.
Qed.

Variables (post_mean : G -> list (list R) -> option (list R)) (default_rng : Z -> Own) (sobol : Z -> nat -> list R).
Notation run := (train_bo Gl Own draw advance c tf objective noise_function fixed_noise early_stop lstsq G local_train acquire post_mean default_rng sobol).
Lemma run_quiet seed x b gl info cbs gl' : (forall p, In p (combine x b) -> fst (snd p) <= fst p <= snd (snd p)) ->
  run seed x b gl = (Ok (info, cbs), gl') ->
  (forall k, (design_size (n_init_arg c) (Z.of_nat (length tf)) (max_iter c) <= Z.of_nat k <= Z.of_nat (length (i_evs info)))%Z -> wide (firstn k (i_evs info))) ->
  gl' = gl /\ forall gl2, run seed x b gl2 = (Ok (info, cbs), gl2).
Proof.
  intros B. unfold train_bo. rewrite choose_inside by (apply inside_not_outside; exact B). intros H W.
  assert (E : forall gl2, choose_start Gl draw advance x b gl2 = (x, gl2)) by (intros; apply choose_inside, inside_not_outside, B).
  setoid_rewrite E. clear E. unfold bo_seeded in *.
  destruct (design tf objective noise_function fixed_noise early_stop (to_unit tf x :: _) [] [] 0) as [[[[evs cb0] polls] [|]]|] eqn:De; [| |discriminate].
  - destruct (Nat.eqb (length evs) 0); [discriminate|]. destruct (recommend G post_mean None evs) as [bi nv].
    injection H as <- <- <-. split; [reflexivity|intros; reflexivity].
  - pose proof (design_count _ _ _ _ _ _ _ De) as N. cbn [length] in N. rewrite map_length, seq_length in N.
    destruct (search _ _ _ _ _ evs cb0 polls (default_rng seed) gl) as [[[[[[[evs' cbs'] p'] s] w] g']|er] gl1] eqn:Se; [|discriminate].
    destruct (recommend G post_mean g' evs') as [bi nv] eqn:Re. injection H as <- <- <-. cbn [i_evs] in W.
    destruct (search_quiet _ _ _ _ _ _ _ _ _ _ _ _ _ _ _ _ _ Se) as [-> Q].
    { cbn in N. lia. }
    { intros k Hk. apply W. cbn in N. assert (2 <= design_size (n_init_arg c) (Z.of_nat (length tf)) (max_iter c))%Z by (unfold design_size; lia). lia. }
    split; [reflexivity|]. intros gl2. rewrite Q, Re. reflexivity.
Qed.
End Run.

Section States.
Variables (Gl Own : Type) (draw : Gl -> nat -> R) (advance : Gl -> nat -> Gl) (c : bo_cfg) (tf : list dimt).
Variables (objective : nat -> list R -> option ext) (noise_function : option (nat -> list R -> option ext)) (fixed_noise : option R).
Variables (early_stop : nat -> bool) (lstsq : lstsq_oracle) (G : Type) (local_train : settings -> list ev -> list R -> option G).
Variables (post_mean : G -> list (list R) -> option (list R)) (sobol : Z -> nat -> list R).
Notation search := (search_g Gl Own draw advance c tf objective noise_function fixed_noise early_stop lstsq G local_train).
Notation run := (train_bo Gl Own draw advance c tf objective noise_function fixed_noise early_stop lstsq G local_train).
Lemma search_states (A : G -> list ev -> Own -> option (list R * ext)) (nx : Own -> Own) (o0 : Own) (n0 : nat) left : forall gp stall pb pu evs cbs polls own o2 gl,
  (n0 <= length evs)%nat -> own = Nat.iter (length evs - n0) nx o0 ->
  search (fun g evs own => (A g evs own, nx own)) left gp stall pb pu evs cbs polls own gl =
  search (fun g evs own => (A g evs (Nat.iter (length evs - n0) nx o0), own)) left gp stall pb pu evs cbs polls o2 gl.
Proof.
  induction left as [|left IH]; intros gp stall pb pu evs cbs polls own o2 gl L E; cbn [search_g]; [reflexivity|].
  destruct (early_stop polls); [reflexivity|]. destruct (match gp with Some g => _ | None => _ end) as [[g|] gl1]; [|reflexivity].
  rewrite <- E. destruct (A g evs own) as [[u ei]|]; [|reflexivity]. destruct (_ && _)%bool; [reflexivity|].
  destruct (evaluate _ _ _ _ _ _ _ _) as [[e1 c1]|] eqn:Ev; [|reflexivity]. cbn zeta. destruct (_ && _)%bool; [reflexivity|].
  destruct (evaluate_grows _ _ _ _ _ _ _ _ _ _ Ev) as [e ->]. apply IH; rewrite app_length; cbn [length]; [lia|].
  replace (length evs + 1 - n0)%nat with (S (length evs - n0)) by lia. cbn [Nat.iter]. rewrite E. reflexivity.
Qed.
Lemma states_l (A : G -> list ev -> Own -> option (list R * ext)) (nx : Own -> Own) (default_rng : Z -> Own) seed x b gl :
  let n0 := Nat.max 1 (Z.to_nat (design_size (n_init_arg c) (Z.of_nat (length tf)) (max_iter c))) in
  run (fun g evs own => (A g evs own, nx own)) post_mean default_rng sobol seed x b gl =
  run (fun g evs own => (A g evs (Nat.iter (length evs - n0) nx (default_rng seed)), own)) post_mean default_rng sobol seed x b gl.
Proof.
  intros n0. unfold train_bo. destruct (choose_start _ _ _ x b gl) as [start gl1]. unfold bo_seeded.
  destruct (design tf objective noise_function fixed_noise early_stop (to_unit tf start :: _) [] [] 0) as [[[[evs cb0] polls] [|]]|] eqn:De; [reflexivity| |reflexivity].
  pose proof (design_count _ _ _ _ _ _ _ _ _ _ _ _ De) as N. cbn [length] in N. rewrite map_length, seq_length in N.
  rewrite (search_states A nx (default_rng seed) n0 _ _ _ _ _ _ _ _ _ (default_rng seed)); [reflexivity|lia|].
  replace (length evs - n0)%nat with 0%nat by lia. reflexivity.
Qed.
Lemma drawn_inside (f : nat -> R) : forall b k, (forall j, 0 <= f j < 1) -> (forall lo hi, In (lo, hi) b -> lo <= hi) ->
  outside (map (fun p => fst (snd p) + f (fst p) * (snd (snd p) - fst (snd p))) (combine (seq k (length b)) b)) b = false.
Proof.
  unfold outside. induction b as [|[lo hi] b IH]; intros k F B; [reflexivity|]. cbn [length seq combine map existsb fst snd].
  pose proof (B lo hi (or_introl eq_refl)). specialize (F k) as Fk.
  assert (0 <= f k * (hi - lo) <= hi - lo). { split; [apply Rmult_le_pos; lra|]. rewrite <- (Rmult_1_l (hi - lo)) at 2. apply Rmult_le_compat_r; lra. }
  unfold rltb at 1 2. destruct (Rlt_dec _ lo); [lra|]. destruct (Rlt_dec hi _); [lra|]. cbn [orb]. apply IH; [exact F|]. intros; apply B; right; assumption.
Qed.
Lemma nth_drawn (f : nat -> R) : forall b k i lo hi, nth_error b i = Some (lo, hi) ->
  nth_error (map (fun p => fst (snd p) + f (fst p) * (snd (snd p) - fst (snd p))) (combine (seq k (length b)) b)) i = Some (lo + f (k + i)%nat * (hi - lo)).
Proof.
  induction b as [|p b IH]; intros k [|i] lo hi E; try discriminate; cbn [nth_error length seq combine map fst snd] in *.
  - injection E as ->. cbn [fst snd]. rewrite Nat.add_0_r. reflexivity.
  - rewrite (IH (S k) i lo hi E). do 4 f_equal. lia.
Qed.
Lemma drawn_l acquire (default_rng : Z -> Own) seed x b gl : outside x b = true -> (forall k, 0 <= draw gl k < 1) -> (forall lo hi, In (lo, hi) b -> lo <= hi) ->
  exists start, length start = length b /\ (forall k lo hi, nth_error b k = Some (lo, hi) -> nth_error start k = Some (lo + draw gl k * (hi - lo))) /\
    run acquire post_mean default_rng sobol seed x b gl = run acquire post_mean default_rng sobol seed start b (advance gl (length b)).
Proof.
  intros O F B. eexists. split; [|split; [intros k lo hi E; exact (nth_drawn (draw gl) b 0 k lo hi E)|]].
  - rewrite map_length, combine_length, seq_length. lia.
  - unfold train_bo at 1. unfold choose_start. rewrite O. unfold train_bo. rewrite choose_inside by (apply drawn_inside; assumption). reflexivity.
Qed.
End States.
