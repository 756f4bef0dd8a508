(** C185: a seeded Bayesian optimization (gp_bo.py 575-811 called by GP.train). *)
From Coq Require Import Reals Lra Lia.
From Verif Require Import Model.Prelude Model.Ext Model.Kernels Model.BO Model.Surrogate Model.Seeded Spec.Sums Spec.SurrogateSpec Proofs.SurrogateP Proofs.SeededP.
Local Open Scope R_scope.

(** The search is a function of the seed: if the start lies in the bounds and no surrogate was fitted to values whose scale is
    below 1.0001e-12, then the same call gives the same evaluations, callbacks and recommendation whatever the state of NumPy's
    global generator is, and leaves that generator as it was.
    Missing: data of a smaller scale and starts outside the bounds, see the refutation. *)
Theorem seeded_search_partial : forall Gl Own (draw : Gl -> nat -> R) advance c tf objective noise_function fixed_noise early_stop lstsq G
    (local_train : settings -> list ev -> list R -> option G) (acquire : G -> list ev -> Own -> option (list R * ext) * Own)
    post_mean default_rng sobol seed x b gl info cbs gl',
  let run := train_bo Gl Own draw advance c tf objective noise_function fixed_noise early_stop lstsq G local_train acquire post_mean default_rng sobol in
  least_squares lstsq ->
  (forall p, In p (combine x b) -> fst (snd p) <= fst p <= snd (snd p)) ->
  run seed x b gl = (Ok (info, cbs), gl') ->
  (forall k, (design_size (n_init_arg c) (Z.of_nat (length tf)) (max_iter c) <= Z.of_nat k <= Z.of_nat (length (i_evs info)))%Z ->
     10000 / 9999 * / 10 ^ 12 <= f_scale (data_settings tf lstsq (firstn k (i_evs info)))) ->
  gl' = gl /\ forall gl2, run seed x b gl2 = (Ok (info, cbs), gl2).
Proof. intros * LS. exact (run_quiet Gl Own draw advance c tf objective noise_function fixed_noise early_stop lstsq G local_train acquire LS post_mean default_rng sobol seed x b gl info cbs gl'). Qed.
Print Assumptions seeded_search_partial.

(** Where the random numbers go.  The acquisitions of a run see the successive states of one generator: if the acquisition moves
    the generator on by [nx] whenever it is called, the k-th one after the design gets what [nx] makes of the seeded generator in
    k - 1 moves.  A start outside the bounds is replaced by one drawn from the global generator, and the run goes on with what is
    left of that generator. *)
Theorem seeded_states : forall Gl Own (draw : Gl -> nat -> R) advance c tf objective noise_function fixed_noise early_stop lstsq G
    (local_train : settings -> list ev -> list R -> option G) post_mean sobol,
  let run := train_bo Gl Own draw advance c tf objective noise_function fixed_noise early_stop lstsq G local_train in
  (forall (A : G -> list ev -> Own -> option (list R * ext)) (nx : Own -> Own) default_rng seed x b gl,
     let n0 := Nat.max 1 (Z.to_nat (design_size (n_init_arg c) (Z.of_nat (length tf)) (max_iter c))) in
     run (fun g evs own => (A g evs own, nx own)) post_mean default_rng sobol seed x b gl =
     run (fun g evs own => (A g evs (Nat.iter (length evs - n0) nx (default_rng seed)), own)) post_mean default_rng sobol seed x b gl) /\
  (forall acquire default_rng seed x b gl, outside x b = true ->
     (forall k, 0 <= draw gl k < 1) -> (forall lo hi, In (lo, hi) b -> lo <= hi) ->
     exists start, length start = length b /\
       (forall k lo hi, nth_error b k = Some (lo, hi) -> nth_error start k = Some (lo + draw gl k * (hi - lo))) /\
       run acquire post_mean default_rng sobol seed x b gl = run acquire post_mean default_rng sobol seed start b (advance gl (length b))).
Proof.
  intros. split; intros.
  - apply (states_l Gl Own draw advance c tf objective noise_function fixed_noise early_stop lstsq G local_train post_mean sobol A nx default_rng seed x b gl).
  - apply (drawn_l Gl Own draw advance c tf objective noise_function fixed_noise early_stop lstsq G local_train post_mean sobol acquire default_rng seed x b gl H H0 H1).
Qed.
Print Assumptions seeded_states.

(** What the scale is: while there are too few points for the quadratic trend, the variance of the values found so far, or one
    if they are all equal. *)
Definition spread (l : list R) : R :=
  let n := length l in let m := rsum (fun a => nth a l 0) n / INR n in rsum (fun a => (nth a l 0 - m) ^ 2) n / INR n.
Theorem surrogate_scale : forall tf lstsq evs, evs <> [] -> (length evs < 2 * (1 + 2 * length tf))%nat ->
  f_scale (data_settings tf lstsq evs) = (let s := spread (map ev_y evs) in if Req_EM_T s 0 then 1 else s).
Proof.
  intros tf lstsq evs N L.
  assert (E : forall vs us, f_scale (fit_settings lstsq (length tf) (length evs) us (fun a => - nth a (map ev_y evs) 0) vs) =
    let ys := fun a => - nth a (map ev_y evs) 0 in let n := length evs in
    let r := fun a => ys a - mean_of ys n in
    if Rle_dec (var_of r n) 0 then (if Req_EM_T (var_of ys n) 0 then 1 else var_of ys n) else var_of r n).
  { intros vs us. unfold fit_settings, polynomial_mean, n_coef. destruct (Nat.ltb_spec (length evs) (2 * (1 + 2 * length tf))); [|lia]. destruct vs; reflexivity. }
  unfold data_settings. rewrite E. clear E. cbn zeta. set (n := length evs). set (ys := fun a => - nth a (map ev_y evs) 0).
  assert (Hn : 0 < INR n) by (apply lt_0_INR; destruct evs; [congruence|cbn; lia]).
  assert (V : var_of ys n = spread (map ev_y evs)).
  { unfold var_of, spread, mean_of. rewrite map_length. fold n. f_equal. apply rsum_ext. intros a _. unfold ys.
    rewrite (rsum_ext (fun a => - nth a (map ev_y evs) 0) (fun a => - 1 * nth a (map ev_y evs) 0)) by (intros; ring).
    rewrite rsum_scal. unfold Rdiv. ring. }
  assert (M : var_of (fun a => ys a - mean_of ys n) n = var_of ys n).
  { assert (Z : mean_of (fun a => ys a - mean_of ys n) n = 0).
    { unfold mean_of at 1. rewrite (rsum_ext _ (fun a => ys a + (- mean_of ys n))) by (intros; ring). rewrite rsum_plus, rsum_const.
      unfold mean_of. field. lra. }
    unfold var_of at 1. rewrite Z. unfold var_of. f_equal. apply rsum_ext. intros. ring. }
  rewrite M, V. destruct (Rle_dec _ 0) as [Q|Q]; [reflexivity|]. destruct (Req_EM_T _ 0); [lra|reflexivity].
Qed.
Print Assumptions surrogate_scale.

(** C185: refuted.  Two runs of the same call with the same seed and a start inside the bounds: the values found differ by 2e-7,
    the start of the surrogate's training is then below its box, the global generator is asked for another one, and the next point
    of the search depends on the answer. *)
Definition one_dim : list dimt := [make_dim 0 1 None].
Definition short : bo_cfg := BoCfg 3 (Some 2%Z) 10 (1 / 1000) (1 / 1000) 0 1.
Definition flat_objective (_ : nat) (theta : list R) : option ext := Some (Fin (2 / 10 ^ 7 * nth 0 theta 0)).
(** an optimizer that does no step, and an acquisition that proposes a point at the length scale *)
Definition no_steps (_ : settings) (_ : list ev) (start : list R) : option R := Some (nth 1 start 0).
Definition at_scale (g : R) (_ : list ev) (own : unit) : option (list R * ext) * unit := (Some ([clip g], Fin 1), own).
(** a generator with two states *)
Definition flip (gl : bool) (_ : nat) : R := if gl then 0 else 1 / 2.
Definition flat_run (gl : bool) := train_bo bool unit flip (fun gl _ => negb gl) short one_dim flat_objective None None (fun _ => false)
  (fun rows cols => ls cols rows) R no_steps at_scale (fun _ _ => None) (fun _ => tt) (fun _ _ => [1]) 0 [0] [(0, 1)] gl.
Lemma clip_id u : 0 <= u <= 1 -> clip u = u.
Proof. intros H. unfold clip. rewrite Rmax_left by lra. rewrite Rmin_left by lra. reflexivity. Qed.
Lemma unit1 u : from_unit1 (make_dim 0 1 None) u = clip u.
Proof. unfold make_dim, from_unit1, rltb. destruct (Rlt_dec 0 0); [lra|]. cbn. destruct (Rlt_dec 0 1); [|lra]. cbn. ring. Qed.
Lemma start1 : to_unit one_dim [0] = [0].
Proof. unfold one_dim, to_unit, to_unit1, make_dim, rltb. cbn. destruct (Rlt_dec 0 0); [lra|]. cbn. destruct (Rlt_dec 0 1); [|lra]. cbn. rewrite clip_id; [f_equal; field|]. unfold Rdiv. lra. Qed.
Lemma flat_settings e0 e1 : ev_y e0 = 0 -> ev_y e1 = 2 / 10 ^ 7 -> let st := data_settings one_dim (fun rows cols => ls cols rows) [e0; e1] in
  f_init st O < f_lo st O.
Proof.
  intros Y0 Y1 st. unfold st, data_settings. set (ys := fun a => - nth a (map ev_y [e0; e1]) 0). set (us := fun a i => nth i (nth a (map ev_u [e0; e1]) []) 0).
  set (vs := match known _ with [] => None | _ => _ end).
  change (length one_dim) with 1%nat. change (length [e0; e1]) with 2%nat.
  destruct (scale_l (fun rows cols => ls cols rows) 1 2 us ys vs ls_least ltac:(lia)) as (P & L & _).
  destruct (settings_eq (fun rows cols => ls cols rows) 1 2 us ys vs) as (_ & E1 & E2 & _).
  fold ys. set (s := fit_settings _ 1 2 us ys vs) in *. rewrite E1, E2.
  assert (V : var_of ys 2 = / 10 ^ 14). { unfold var_of, mean_of, ys. cbn [rsum map nth]. rewrite Y0, Y1. cbn. field. }
  rewrite V in L. assert (N : / 10 ^ 14 <> 0) by (apply Rinv_neq_0_compat, pow_nonzero; lra). specialize (L N).
  assert (/ 10 ^ 14 < / 10 ^ 12) by (apply Rinv_lt_contravar; [apply Rmult_lt_0_compat; apply pow_lt; lra|apply Rlt_pow; [lra|lia]]).
  assert (/ 10 ^ 4 = 1 / 10000) by (cbn; field). lra.
Qed.
Lemma flat_fit e0 e1 gl : ev_y e0 = 0 -> ev_y e1 = 2 / 10 ^ 7 -> ev_v e0 = None -> ev_v e1 = None ->
  fit_g bool flip (fun gl _ => negb gl) one_dim (fun rows cols => ls cols rows) R no_steps [e0; e1] gl = (Some (/ 10 ^ 2 + flip gl 1 * (2 - / 10 ^ 2)), negb gl).
Proof.
  intros Y0 Y1 V0 V1. pose proof (flat_settings e0 e1 Y0 Y1) as F. cbn zeta in F. unfold fit_g. set (st := data_settings _ _ _) in *.
  assert (C : f_count st = 3%nat) by (unfold st, data_settings; cbn [map]; rewrite V0, V1; reflexivity).
  assert (S1 : f_lo st 1%nat = / 10 ^ 2 /\ f_hi st 1%nat = 2) by (unfold st, data_settings; cbn [map]; rewrite V0, V1; split; reflexivity). destruct S1 as [Lo Hi].
  rewrite C. cbn [seq map]. unfold choose_start. cbn [outside combine existsb fst snd]. unfold outside. cbn [combine existsb fst snd].
  unfold rltb at 1. destruct (Rlt_dec (f_init st 0) (f_lo st 0)); [|lra]. cbn [orb length seq combine map fst snd]. unfold no_steps. cbn [nth]. rewrite Lo, Hi. reflexivity.
Qed.
Lemma flat_points gl : exists info cbs, fst (flat_run gl) = Ok (info, cbs) /\ map ev_theta (i_evs info) = [[0]; [1]; [clip (clip (/ 10 ^ 2 + flip gl 1 * (2 - / 10 ^ 2)))]].
Proof.
  unfold flat_run, train_bo. rewrite choose_inside by (apply inside_not_outside; intros p [<-|[]]; cbn; lra).
  unfold bo_seeded. change (Z.to_nat (design_size (n_init_arg short) (Z.of_nat (length one_dim)) (max_iter short))) with 2%nat.
  rewrite start1. cbn [Nat.sub seq map design]. unfold evaluate at 1. cbn [length flat_objective].
  unfold evaluate at 1. cbn [length flat_objective].
  set (e0 := Ev [0] _ _ _). cbn [app]. set (e1 := Ev [1] _ _ _).
  assert (T0 : ev_theta e0 = [0]) by (unfold e0, one_dim, from_unit; cbn [ev_theta combine map fst snd]; rewrite unit1, clip_id by lra; reflexivity).
  assert (T1 : ev_theta e1 = [1]) by (unfold e1, one_dim, from_unit; cbn [ev_theta combine map fst snd]; rewrite unit1, clip_id by lra; reflexivity).
  assert (Y0 : ev_y e0 = 0). { change (ev_y e0) with (2 / 10 ^ 7 * nth 0 (ev_theta e0) 0). rewrite T0. cbn [nth]. ring. }
  assert (Y1 : ev_y e1 = 2 / 10 ^ 7). { change (ev_y e1) with (2 / 10 ^ 7 * nth 0 (ev_theta e1) 0). rewrite T1. cbn [nth]. ring. }
  change (length [e0; e1]) with 2%nat. change (Z.to_nat (max_iter short - Z.of_nat 2)) with 1%nat. cbn [search_g].
  rewrite (flat_fit e0 e1 gl Y0 Y1 eq_refl eq_refl). cbn [at_scale]. cbn [short ei_tol]. unfold rltb at 1. destruct (Rlt_dec 0 0); [lra|]. cbn [andb].
  unfold evaluate at 1. cbn [flat_objective length]. cbn [app]. set (e2 := Ev _ _ _ _).
  assert (T2 : ev_theta e2 = [clip (clip (/ 10 ^ 2 + flip gl 1 * (2 - / 10 ^ 2)))]) by (unfold e2, one_dim, from_unit; cbn [ev_theta combine map fst snd]; rewrite unit1; reflexivity).
  change (patience _) with 10%Z. destruct (no_gain _ _ _ _); cbn [Z.add Z.leb Z.ltb Z.compare Pos.compare Pos.compare_cont andb];
    (destruct (recommend _ _ _ _) as [bi nv]; eexists; eexists; split; [reflexivity|]; cbn [i_evs map]; rewrite T0, T1, T2; reflexivity).
Qed.
Theorem seeded_search_refuted : exists Gl Own (draw : Gl -> nat -> R) advance c tf objective lstsq G
    (local_train : settings -> list ev -> list R -> option G) (acquire : G -> list ev -> Own -> option (list R * ext) * Own) post_mean default_rng sobol seed x b,
  let run := train_bo Gl Own draw advance c tf objective None None (fun _ => false) lstsq G local_train acquire post_mean default_rng sobol seed x b in
  least_squares lstsq /\ (forall gl i, 0 <= draw gl i < 1) /\
  (forall p, In p (combine x b) -> fst (snd p) <= fst p <= snd (snd p)) /\
  exists gl1 gl2 info1 cbs1 info2 cbs2,
    fst (run gl1) = Ok (info1, cbs1) /\ fst (run gl2) = Ok (info2, cbs2) /\
    map ev_theta (i_evs info1) = [[0]; [1]; [1 / 100]] /\ map ev_theta (i_evs info2) = [[0]; [1]; [1]].
Proof.
  exists bool, unit, flip, (fun gl _ => negb gl), short, one_dim, flat_objective, (fun rows cols => ls cols rows), R, no_steps, at_scale,
    (fun _ _ => None), (fun _ => tt), (fun _ _ => [1]), 0%Z, [0], [(0, 1)]. split; [exact ls_least|]. split; [intros [|]; cbn; intros; lra|].
  split; [intros p [<-|[]]; cbn; lra|]. exists true, false.
  destruct (flat_points true) as (i1 & c1 & R1 & P1). destruct (flat_points false) as (i2 & c2 & R2 & P2).
  exists i1, c1, i2, c2. split; [exact R1|]. split; [exact R2|]. rewrite P1, P2. cbn [flip].
  assert (/ 10 ^ 2 = 1 / 100) as -> by (cbn; field). split.
  - rewrite (clip_id (1 / 100 + 0 * _)) by lra. rewrite clip_id by lra. f_equal. f_equal. f_equal. f_equal. ring.
  - assert (E : clip (1 / 100 + 1 / 2 * (2 - 1 / 100)) = 1) by (unfold clip; rewrite Rmax_left by lra; rewrite Rmin_right by lra; reflexivity).
    rewrite E. rewrite clip_id by lra. reflexivity.
Qed.
Print Assumptions seeded_search_refuted.

(** The hypotheses of [seeded_search_partial] are met by the same search of the objective theta: it evaluates 0, 1 and 0.3. *)
Definition steep_run (gl : bool) := train_bo bool unit flip (fun gl _ => negb gl) short one_dim (fun _ theta => Some (Fin (nth 0 theta 0))) None None (fun _ => false)
  (fun rows cols => ls cols rows) R no_steps at_scale (fun _ _ => None) (fun _ => tt) (fun _ _ => [1]) 0 [0] [(0, 1)] gl.
Lemma steep_scale evs : map ev_y evs = [0; 1] \/ map ev_y evs = [0; 1; 3 / 10] -> 1 / 10 <= f_scale (data_settings one_dim (fun rows cols => ls cols rows) evs).
Proof.
  intros H. assert (L : length (map ev_y evs) = length evs) by apply map_length.
  rewrite surrogate_scale; [|destruct H as [H|H]; intros ->; discriminate|rewrite <- L; destruct H as [-> | ->]; cbn; lia].
  cbn zeta. assert (S : 1 / 10 <= spread (map ev_y evs)). { destruct H as [-> | ->]; unfold spread; cbn; lra. }
  destruct (Req_EM_T _ 0); lra.
Qed.
Example seeded_search_ex : exists info cbs, map ev_theta (i_evs info) = [[0]; [1]; [3 / 10]] /\ forall gl, steep_run gl = (Ok (info, cbs), gl).
Proof.
  assert (T : 10000 / 9999 * / 10 ^ 12 <= 1 / 10).
  { assert (/ 10 ^ 12 <= / 10 ^ 2) by (apply Rinv_le_contravar; [apply pow_lt; lra|apply Rle_pow; [lra|lia]]). assert (/ 10 ^ 2 = 1 / 100) by (cbn; field). lra. }
  assert (E : exists info cbs gl', map ev_theta (i_evs info) = [[0]; [1]; [3 / 10]] /\ map ev_y (i_evs info) = [0; 1; 3 / 10] /\ steep_run true = (Ok (info, cbs), gl')).
  { unfold steep_run, train_bo. rewrite choose_inside by (apply inside_not_outside; intros p [<-|[]]; cbn; lra).
    unfold bo_seeded. change (Z.to_nat (design_size (n_init_arg short) (Z.of_nat (length one_dim)) (max_iter short))) with 2%nat.
    rewrite start1. cbn [Nat.sub seq map design]. unfold evaluate at 1. cbn [length]. unfold evaluate at 1. cbn [length].
    set (e0 := Ev [0] _ _ _). cbn [app]. set (e1 := Ev [1] _ _ _).
    assert (T0 : ev_theta e0 = [0]) by (unfold e0, one_dim, from_unit; cbn [ev_theta combine map fst snd]; rewrite unit1, clip_id by lra; reflexivity).
    assert (T1 : ev_theta e1 = [1]) by (unfold e1, one_dim, from_unit; cbn [ev_theta combine map fst snd]; rewrite unit1, clip_id by lra; reflexivity).
    assert (Y0 : ev_y e0 = 0) by (change (ev_y e0) with (nth 0 (ev_theta e0) 0); rewrite T0; reflexivity).
    assert (Y1 : ev_y e1 = 1) by (change (ev_y e1) with (nth 0 (ev_theta e1) 0); rewrite T1; reflexivity).
    change (length [e0; e1]) with 2%nat. change (Z.to_nat (max_iter short - Z.of_nat 2)) with 1%nat. cbn [search_g].
    assert (F : fit_g bool flip (fun gl _ => negb gl) one_dim (fun rows cols => ls cols rows) R no_steps [e0; e1] true = (Some (3 / 10), true)).
    { rewrite (fit_quiet bool flip (fun gl _ => negb gl) one_dim (fun rows cols => ls cols rows) R no_steps ls_least [e0; e1] true true);
        [|cbn; lia|unfold wide; eapply Rle_trans; [exact T|]; apply steep_scale; left; cbn [map]; rewrite Y0, Y1; reflexivity].
      unfold fit_g, choose_start. set (st := data_settings _ _ _).
      assert (C : f_count st = 3%nat) by reflexivity. rewrite C. cbn [seq map].
      assert (O : outside [f_init st 0%nat; f_init st 1%nat; f_init st 2%nat] [(f_lo st 0%nat, f_hi st 0%nat); (f_lo st 1%nat, f_hi st 1%nat); (f_lo st 2%nat, f_hi st 2%nat)] = false).
      { assert (W : 10000 / 9999 * / 10 ^ 12 <= f_scale st) by (eapply Rle_trans; [exact T|]; apply steep_scale; left; cbn [map]; rewrite Y0, Y1; reflexivity).
        apply inside_not_outside. intros p [<-|[<-|[<-|[]]]]; cbn [fst snd]; (eapply settings_inside; [exact ls_least|apply Nat.lt_0_succ|exact W]). }
      rewrite O. reflexivity. }
    rewrite F. cbn [at_scale short ei_tol]. unfold rltb at 1. destruct (Rlt_dec 0 0); [lra|]. cbn [andb].
    unfold evaluate at 1. cbn [length app]. set (e2 := Ev _ _ _ _).
    assert (T2 : ev_theta e2 = [3 / 10]) by (unfold e2, one_dim, from_unit; cbn [ev_theta combine map fst snd]; rewrite unit1, (clip_id (3 / 10)), clip_id by lra; reflexivity).
    assert (Y2 : ev_y e2 = 3 / 10) by (change (ev_y e2) with (nth 0 (ev_theta e2) 0); rewrite T2; reflexivity).
    change (patience _) with 10%Z. destruct (no_gain _ _ _ _); cbn [Z.add Z.leb Z.ltb Z.compare Pos.compare Pos.compare_cont andb];
      (destruct (recommend _ _ _ _) as [bi nv]; eexists; eexists; eexists; split; [|split; [|reflexivity]]; cbn [i_evs map]; [rewrite T0, T1, T2|rewrite Y0, Y1, Y2]; reflexivity). }
  destruct E as (info & cbs & gl' & P & Y & E). exists info, cbs. split; [exact P|].
  refine (proj2 (seeded_search_partial _ _ _ _ _ _ _ _ _ _ _ _ _ _ _ _ _ _ _ _ true info cbs gl' ls_least _ E _)); [intros p [<-|[]]; cbn; lra|].
  intros k Hk. assert (L : length (map ev_y (i_evs info)) = length (i_evs info)) by apply map_length. rewrite Y in L. cbn in L. rewrite <- L in Hk.
  change (design_size (n_init_arg short) (Z.of_nat (length one_dim)) (max_iter short)) with 2%Z in Hk.
  eapply Rle_trans; [exact T|]. apply steep_scale. rewrite <- firstn_map, Y. assert (k = 2 \/ k = 3)%nat as [-> | ->] by lia; [left|right]; reflexivity.
Qed.
