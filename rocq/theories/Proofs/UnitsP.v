(** Proofs about training with default settings in another unit of the inputs. *)
From Coq Require Import Reals Lra Lia FunctionalExtensionality.
From Verif Require Import Model.Prelude Model.Ext Model.Kernels Model.MCMC Model.AdaptRun Model.Adapt Model.Training Model.TrainPlan Model.DefaultTraining.
From Verif Require Import Spec.Sums Spec.UnitsSpec.
Local Open Scope R_scope.

Definition pos (f : nat -> R) := forall i, 0 < f i.
Lemma factor_pos c : pos c -> pos (factor c).
Proof. intros P [|i]; cbn; [lra|apply P]. Qed.
Lemma scaled_length f h : length (scaled f h) = length h.
Proof. revert f; induction h; intros f; cbn; auto. Qed.
Lemma nth_scaled h : forall f i, nth i (scaled f h) NaN = escaled (f i) (nth i h NaN).
Proof. induction h as [|e h IH]; intros f [|i]; cbn; auto. apply (IH (fun i => f (S i))). Qed.
Lemma scaled_ext h : forall f g, (forall i, f i = g i) -> scaled f h = scaled g h.
Proof. induction h as [|e h IH]; intros f g H; cbn; [reflexivity|]. rewrite H. f_equal. apply IH. intros; apply H. Qed.
Lemma scaled_map_seq {A} (g : A -> ext) : forall f (l : list A), scaled f (map g l) = map (fun p => escaled (f (fst p)) (g (snd p))) (combine (seq 0 (length l)) l).
Proof.
  intros f l. assert (H : forall s, scaled (fun i => f (s + i)%nat) (map g l) = map (fun p => escaled (f (fst p)) (g (snd p))) (combine (seq s (length l)) l)).
  { induction l as [|a l IH]; intros s; cbn; [reflexivity|]. rewrite Nat.add_0_r. f_equal. rewrite <- IH. apply scaled_ext. intros. f_equal. lia. }
  apply (H O).
Qed.

(** ** positions *)
Lemma gather_scaled x f s m : gather (scaled f x) (seq s m) = scaled (fun i => f (s + i)%nat) (gather x (seq s m)).
Proof.
  revert s. induction m as [|m IH]; intros s; cbn; [reflexivity|]. rewrite nth_scaled, Nat.add_0_r. f_equal. unfold gather in IH. rewrite IH.
  apply scaled_ext. intros. f_equal. lia.
Qed.
Lemma setn_scaled x : forall f i v, setn (scaled f x) i (escaled (f i) v) = scaled f (setn x i v).
Proof. induction x as [|e x IH]; intros f [|i] v; cbn; auto. f_equal. apply (IH (fun i => f (S i))). Qed.
Lemma scatter_scaled f m : forall s x vals, scatter (scaled f x) (seq s m) (scaled (fun i => f (s + i)%nat) vals) = option_map (scaled f) (scatter x (seq s m) vals).
Proof.
  induction m as [|m IH]; intros s x [|v vals]; cbn; auto. rewrite Nat.add_0_r, setn_scaled, <- IH. f_equal. apply scaled_ext. intros. f_equal. lia.
Qed.
Lemma eltb_scaled a e1 e2 : 0 < a -> eltb (escaled a e1) (escaled a e2) = eltb e1 e2.
Proof.
  intros P. destruct e1, e2; cbn; auto. destruct (Rlt_dec r r0), (Rlt_dec (a * r) (a * r0)); auto; exfalso; nra.
Qed.
Lemma eleb_scaled a e1 e2 : 0 < a -> eleb (escaled a e1) (escaled a e2) = eleb e1 e2.
Proof.
  intros P. destruct e1, e2; cbn; auto. destruct (Rle_dec r r0), (Rle_dec (a * r) (a * r0)); auto; exfalso; nra.
Qed.

(** ** the box *)
Fixpoint bscaled (f : nat -> R) (b : list (R * R)) : list (R * R) :=
  match b with [] => [] | p :: b' => (f O * fst p, f O * snd p) :: bscaled (fun i => f (S i)) b' end.
Lemma bscaled_length f b : length (bscaled f b) = length b.
Proof. revert f; induction b; intros f; cbn; auto. Qed.
Lemma nth_bscaled b : forall f k, nth k (bscaled f b) (0, 0) = (f k * fst (nth k b (0, 0)), f k * snd (nth k b (0, 0))).
Proof. induction b as [|p b IH]; intros f [|k]; cbn; rewrite ?Rmult_0_r; auto. apply (IH (fun i => f (S i))). Qed.
Lemma oob_scaled b : forall f x, pos f -> out_of_bounds (scaled f x) (ebox (bscaled f b)) = out_of_bounds x (ebox b).
Proof.
  induction b as [|p b IH]; intros f [|e x] P; [reflexivity..|]. cbn [scaled bscaled ebox map out_of_bounds fst snd].
  change (Fin (f O * fst p)) with (escaled (f O) (Fin (fst p))). change (Fin (f O * snd p)) with (escaled (f O) (Fin (snd p))).
  rewrite !eltb_scaled by apply P. destruct (_ || _)%bool; [reflexivity|]. apply (IH (fun i => f (S i))). intros i; apply P.
Qed.
Lemma uniform_scaled b : forall f us, uniform (ebox (bscaled f b)) us = option_map (scaled f) (uniform (ebox b) us).
Proof.
  induction b as [|p b IH]; intros f us; [reflexivity|]. cbn. fold (ebox (bscaled (fun i => f (S i)) b)). rewrite IH. fold (ebox b). destruct (uniform (ebox b) _); cbn; [|reflexivity].
  do 2 f_equal. f_equal. ring.
Qed.
Lemma choose_scaled b f init x us : pos f ->
  choose_init (option_map (scaled f) init) (scaled f x) (ebox (bscaled f b)) us = match choose_init init x (ebox b) us with Ok v => Ok (scaled f v) | Err e => Err e end.
Proof.
  intros P. assert (E : forall z, match out_of_bounds (scaled f z) (ebox (bscaled f b)) with
      | Some true => match uniform (ebox (bscaled f b)) us with Some v => Ok v | None => Err EOverflow end | Some false => Ok (scaled f z) | None => Err EIndex end =
    match match out_of_bounds z (ebox b) with
      | Some true => match uniform (ebox b) us with Some v => Ok v | None => Err EOverflow end | Some false => Ok z | None => Err EIndex end
    with Ok v => Ok (scaled f v) | Err e => Err e end).
  { intros z. rewrite oob_scaled, uniform_scaled by exact P. destruct (out_of_bounds z (ebox b)) as [[]|]; auto. destruct (uniform _ _); reflexivity. }
  destruct init as [z|]; apply E.
Qed.

Lemma in_bounds_scaled b f x : pos f -> in_bounds (scaled f x) (ebox (bscaled f b)) = in_bounds x (ebox b).
Proof.
  intros P. unfold in_bounds. unfold ebox. rewrite !map_length, scaled_length, bscaled_length. destruct (Nat.eqb _ _); [|reflexivity]. do 3 f_equal.
  all: revert f b P; induction x as [|e x IH]; intros f [|p b] P; cbn; auto; rewrite (IH (fun i => f (S i)) b (fun i => P (S i))); f_equal.
  - apply (eltb_scaled (f O) e (Fin (fst p))), P.
  - apply (eltb_scaled (f O) (Fin (snd p)) e), P.
Qed.
Lemma start_scaled b f init x us : pos f ->
  start_point (option_map (scaled f) init) (scaled f x) (ebox (bscaled f b)) us = match start_point init x (ebox b) us with Ok v => Ok (scaled f v) | Err e => Err e end.
Proof.
  intros P. unfold start_point. rewrite choose_scaled by exact P. destruct (choose_init init x (ebox b) us); [|reflexivity]. rewrite in_bounds_scaled by exact P.
  destruct (in_bounds _ _) as [[]|]; reflexivity.
Qed.
Lemma prior_scaled b f x : pos f -> training_prior (ebox (bscaled f b)) (scaled f x) = training_prior (ebox b) x.
Proof. intros P. unfold training_prior. rewrite in_bounds_scaled by exact P. reflexivity. Qed.

(** ** default bounds *)
Section Columns.
Variables (c t : nat -> R).
Hypothesis P : pos c.
Lemma rmax_affine i l : forall a, rmax_list (c i * a + t i) (map (fun v => c i * v + t i) l) = c i * rmax_list a l + t i.
Proof.
  induction l as [|b l IH]; intros a; cbn; [reflexivity|]. rewrite IH. assert (0 < c i) by apply P.
  unfold Rmax. destruct (Rle_dec a _), (Rle_dec (c i * a + t i) _); auto; nra.
Qed.
Lemma rmin_affine i l : forall a, rmin_list (c i * a + t i) (map (fun v => c i * v + t i) l) = c i * rmin_list a l + t i.
Proof.
  induction l as [|b l IH]; intros a; cbn; [reflexivity|]. rewrite IH. assert (0 < c i) by apply P.
  unfold Rmin. destruct (Rle_dec a _), (Rle_dec (c i * a + t i) _); auto; nra.
Qed.
Lemma range_affine i l : col_range (map (fun v => c i * v + t i) l) = c i * col_range l.
Proof. destruct l as [|a l]; cbn; [ring|]. rewrite rmax_affine, rmin_affine. ring. Qed.
Lemma bounds_in_unit D k y xs :
  default_bounds true k y (columns D (map (in_unit c t) xs)) = match default_bounds true k y (columns D xs) with Ok b => Ok (bscaled (factor c) b) | Err e => Err e end.
Proof.
  unfold default_bounds. cbn [negb]. unfold columns. rewrite !map_length, seq_length. destruct (Nat.eqb k (D + 1)); cbn [negb]; [|reflexivity]. f_equal. cbn [bscaled factor fst snd]. rewrite !Rmult_1_l. f_equal.
  { fold (columns D xs). rewrite !map_map. change (fun i => factor c (S i)) with c.
    assert (H : forall s, map (fun i => (col_range (map (fun x => x i) (map (in_unit c t) xs)) / 100, col_range (map (fun x => x i) (map (in_unit c t) xs)) * 10)) (seq s D) =
      bscaled (fun i => c (s + i)%nat) (map (fun i => (col_range (map (fun x => x i) xs) / 100, col_range (map (fun x => x i) xs) * 10)) (seq s D))).
    { clear k y. induction D as [|D IH]; intros s; [reflexivity|]. cbn [seq map bscaled fst snd]. rewrite Nat.add_0_r, IH.
      rewrite map_map. replace (map (fun x => in_unit c t x s) xs) with (map (fun v => c s * v + t s) (map (fun x => x s) xs)) by (rewrite map_map; reflexivity).
      rewrite range_affine. f_equal; [f_equal; lra|]. f_equal. apply functional_extensionality. intros i. f_equal. lia. }
    unfold columns. rewrite map_map. exact (H O). }
Qed.
End Columns.

(** ** the covariance of the visited positions *)
Fixpoint rscaled (f : nat -> R) (l : list R) : list R := match l with [] => [] | a :: l' => f O * a :: rscaled (fun i => f (S i)) l' end.
Lemma nth_rscaled l : forall f k, nth k (rscaled f l) 0 = f k * nth k l 0.
Proof. induction l as [|a l IH]; intros f [|k]; cbn; rewrite ?Rmult_0_r; auto. apply (IH (fun i => f (S i))). Qed.
Lemma finite_scaled v : forall f, finite (scaled f v) = option_map (rscaled f) (finite v).
Proof. induction v as [|e v IH]; intros f; cbn; [reflexivity|]. destruct e; cbn; auto. rewrite IH. destruct (finite v); reflexivity. Qed.
Definition fscaled (f : nat -> R) (g : nat -> R) : nat -> R := fun k => f k * g k.
Lemma coords_scaled f m x : coords (seq 0 m) (scaled f x) = option_map (fscaled f) (coords (seq 0 m) x).
Proof.
  unfold coords. rewrite gather_scaled, finite_scaled. cbn [Nat.add]. destruct (finite _); [|reflexivity]. cbn. f_equal. apply functional_extensionality. intros k.
  rewrite nth_rscaled. reflexivity.
Qed.
Lemma lsum_scal {A} (a : R) (g : A -> R) l : lsum (fun x => a * g x) l = a * lsum g l.
Proof. induction l as [|x l IH]; cbn; [ring|]. unfold lsum in IH. rewrite IH. ring. Qed.
Lemma lsum_map' {A B} (g : B -> R) (h : A -> B) l : lsum g (map h l) = lsum (fun x => g (h x)) l.
Proof. induction l as [|x l IH]; cbn; [reflexivity|]. unfold lsum in IH. rewrite IH. reflexivity. Qed.
Lemma mean_scaled f w i : mean (fun y : nat -> R => y i) (map (fscaled f) w) = f i * mean (fun y => y i) w.
Proof. unfold mean. rewrite lsum_map', map_length. unfold fscaled. rewrite lsum_scal. unfold Rdiv. ring. Qed.
Lemma cov_scaled f w i j : cov (map (fscaled f) w) i j = f i * f j * cov w i j.
Proof.
  unfold cov. rewrite lsum_map', map_length, !mean_scaled.
  replace (lsum _ w) with (f i * f j * lsum (fun x => (x i - mean (fun y => y i) w) * (x j - mean (fun y => y j) w)) w); [unfold Rdiv; ring|].
  rewrite <- lsum_scal. f_equal. apply functional_extensionality. intros x. unfold fscaled. ring.
Qed.
Lemma all_some_scaled f m xs : all_some (map (coords (seq 0 m)) (map (scaled f) xs)) = option_map (map (fscaled f)) (all_some (map (coords (seq 0 m)) xs)).
Proof.
  induction xs as [|x xs IH]; [reflexivity|]. cbn [map all_some]. rewrite coords_scaled. destruct (coords (seq 0 m) x); cbn; [|reflexivity]. rewrite IH.
  destruct (all_some (map (coords (seq 0 m)) xs)); reflexivity.
Qed.
Definition sig_rel (f : nat -> R) (s s' : option (nat -> nat -> R)) : Prop :=
  match s, s' with None, None => True | Some M, Some M' => forall k l, M' k l = f k * f l * M k l | _, _ => False end.
Lemma sample_cov_scaled f m xs : sig_rel f (sample_cov (seq 0 m) xs) (sample_cov (seq 0 m) (map (scaled f) xs)).
Proof.
  unfold sample_cov. rewrite all_some_scaled. destruct (all_some _) as [[|a [|b w]]|]; cbn [option_map map sig_rel]; auto.
  intros k l. apply (cov_scaled f (a :: b :: w)).
Qed.
Lemma window_map {A B} (g : A -> B) e K l : window e K (map g l) = map g (window e K l).
Proof. unfold window. rewrite skipn_map, firstn_map. reflexivity. Qed.

(** ** a run *)
Section Run.
Variables (Omega : Type) (draw : option (nat -> nat -> R) -> Omega -> list ext -> list ext).
Variables (f : nat -> R) (lik lik' prior prior' : list ext -> ext) (m : nat).
Hypothesis P : pos f.
Hypothesis U : unit_free draw.
Hypothesis L : forall x, lik' (scaled f x) = lik x.
Hypothesis Q : forall x, prior' (scaled f x) = prior x.
Let prp := normal_proposal Omega draw.
Definition same (o o' : prop nargs) : Prop :=
  p_indices o = seq 0 m /\ p_indices o' = seq 0 m /\ p_auto o' = p_auto o /\ p_jumps o' = p_jumps o /\
  (let a := p_args o in let a' := p_args o' in
   n_ropt a' = n_ropt a /\ n_c0 a' = n_c0 a /\ n_c1 a' = n_c1 a /\ n_K a' = n_K a /\ n_adapt_cov a' = n_adapt_cov a /\ n_sigma a' = n_sigma a /\
   sig_rel f (n_Sigma a) (n_Sigma a')).
Definition st (t : trace) : trace := Trace (map (scaled f) (t_x t)) (t_f t).
Definition jres (r : res mcmc_err (list ext * ext * ext * R)) := match r with Ok (x, p, l, j) => Ok (scaled f x, p, l, j) | Err e => Err e end.
Lemma jump_rel x o o' pr lk w u : same o o' ->
  jump nargs Omega lik' prior' prp (scaled f x) o' pr lk w u = jres (jump nargs Omega lik prior prp x o pr lk w u).
Proof.
  intros (I & I' & A & J & _ & _ & _ & _ & _ & _ & Sg). unfold jump, prp, normal_proposal. rewrite I, I', A.
  rewrite gather_scaled. cbn [Nat.add]. change (fun i => f i) with f.
  assert (E : draw (n_Sigma (p_args o')) w (scaled f (gather x (seq 0 m))) = scaled f (draw (n_Sigma (p_args o)) w (gather x (seq 0 m)))).
  { destruct (n_Sigma (p_args o)), (n_Sigma (p_args o')); cbn in Sg; try easy; [apply (proj1 U)|apply (proj2 U)]; auto. }
  rewrite E. pose proof (scatter_scaled f m 0 x) as X. cbn [Nat.add] in X. change (fun i => f i) with f in X. rewrite X.
  destruct (scatter x _ _) as [xs|]; cbn [option_map]; [|reflexivity]. rewrite Q, L.
  destruct (negb _); [|reflexivity]. destruct (isnan _); [reflexivity|]. cbv zeta. destruct (accepts _ _ _); reflexivity.
Qed.
Lemma adapt_rel i t o o' jt : same o o' ->
  same (Prop_ (p_indices o) (p_auto o) (p_jumps o ++ [jt]) (adapt_args i t (Prop_ (p_indices o) (p_auto o) (p_jumps o ++ [jt]) (p_args o))))
       (Prop_ (p_indices o') (p_auto o') (p_jumps o' ++ [jt]) (adapt_args i (st t) (Prop_ (p_indices o') (p_auto o') (p_jumps o' ++ [jt]) (p_args o')))).
Proof.
  intros (I & I' & A & J & E1 & E2 & E3 & E4 & E5 & E6 & Sg). unfold same. cbn [p_indices p_auto p_jumps p_args].
  unfold adapt_args. cbn [p_indices p_auto p_jumps p_args]. rewrite E4, J.
  destruct (Nat.eqb (i mod n_K (p_args o)) 0); cbn [n_ropt n_c0 n_c1 n_K n_adapt_cov n_sigma n_Sigma]; [|now repeat split].
  do 9 (split; [now auto|]). split.
  - unfold new_sigma. rewrite E6, E4, E3, E2, E1. reflexivity.
  - unfold new_Sigma. rewrite E5, E4, E3, I, I'. cbn [st t_x]. destruct (n_adapt_cov (p_args o)); [|exact Sg].
    rewrite window_map. pose proof (sample_cov_scaled f m (window i (n_K (p_args o)) (t_x t))) as C.
    destruct (n_Sigma (p_args o)) as [M|], (n_Sigma (p_args o')) as [M'|]; cbn in Sg; try easy.
    destruct (sample_cov _ _) as [K|], (sample_cov (seq 0 m) (map _ _)) as [K'|]; cbn in C; try easy. cbn. intros k l. rewrite C, Sg. ring.
Qed.
Lemma sweep_rel i rnd t os os' : Forall2 same os os' -> forall k x pr lk,
  match sweep nargs Omega lik prior prp adapt_args i k rnd t x pr lk os with
  | Err e => sweep nargs Omega lik' prior' prp adapt_args i k rnd (st t) (scaled f x) pr lk os' = Err e
  | Ok (x1, p1, l1, os1) => exists os1', sweep nargs Omega lik' prior' prp adapt_args i k rnd (st t) (scaled f x) pr lk os' = Ok (scaled f x1, p1, l1, os1') /\ Forall2 same os1 os1'
  end.
Proof.
  induction 1 as [|o o' os os' H F IH]; intros k x pr lk; cbn [sweep]; [now exists []|].
  rewrite (jump_rel x o o' pr lk _ _ H). destruct (jump nargs Omega lik prior prp x o pr lk _ _) as [[[[x1 p1] l1] jt]|e]; cbn [jres]; [|reflexivity].
  specialize (IH (k + 1)%nat x1 p1 l1). destruct (sweep nargs Omega lik prior prp adapt_args i (k + 1) rnd t x1 p1 l1 os) as [[[[x2 p2] l2] os2]|e].
  - destruct IH as (os2' & E & F2). rewrite E. eexists. split; [reflexivity|]. constructor; [|exact F2]. apply adapt_rel, H.
  - rewrite IH. reflexivity.
Qed.
Definition si (v : info) : info := Info (i_f v) (i_maxf v) (i_map v) (scaled f (i_maxx v)) (map (scaled f) (i_x v)) (map (scaled f) (i_window v)).
Lemma collect_rel t : collect (st t) = si (collect t).
Proof.
  unfold collect, si, st. cbn [t_x t_f i_f i_maxf i_map i_maxx i_x i_window]. rewrite map_length, skipn_map. f_equal.
  change (@nil ext) with (scaled f []) at 1. apply map_nth.
Qed.
Lemma loop_rel rnd left : forall i t inf x pr lk os os', Forall2 same os os' ->
  loop nargs Omega lik' prior' prp adapt_args left i rnd default_break (st t) (option_map si inf) (scaled f x) pr lk os' =
  match loop nargs Omega lik prior prp adapt_args left i rnd default_break t inf x pr lk os with
  | Ok (t', inf') => Ok (st t', option_map si inf')
  | Err e => Err e
  end.
Proof.
  induction left as [|left IH]; intros i t inf x pr lk os os' F; cbn [loop]; [reflexivity|].
  pose proof (sweep_rel i rnd t os os' F 0 x pr lk) as W.
  destruct (sweep nargs Omega lik prior prp adapt_args i 0 rnd t x pr lk os) as [[[[x1 p1] l1] os1]|e]; [|rewrite W; reflexivity].
  destruct W as (os1' & E & F1). rewrite E.
  replace (Trace (t_x (st t) ++ [scaled f x1]) (t_f (st t) ++ [l1])) with (st (Trace (t_x t ++ [x1]) (t_f t ++ [l1]))) by (unfold st; cbn; rewrite map_app; reflexivity).
  set (t1 := Trace (t_x t ++ [x1]) (t_f t ++ [l1])). change (default_break (st t1)) with (default_break t1).
  destruct (default_break t1); [reflexivity|]. rewrite collect_rel. apply (IH _ t1 (Some (collect t1))). exact F1.
Qed.
Lemma run_rel x0 n rnd os os' : Forall2 same os os' ->
  run_mcmc nargs Omega lik' prior' prp adapt_args (scaled f x0) n rnd default_break os' =
  match run_mcmc nargs Omega lik prior prp adapt_args x0 n rnd default_break os with
  | Ok (t', inf') => Ok (st t', option_map si inf')
  | Err e => Err e
  end.
Proof.
  intros F. unfold run_mcmc. rewrite Q, L. change (Trace [scaled f x0] []) with (st (Trace [x0] [])).
  rewrite (loop_rel rnd _ 1 (Trace [x0] []) None x0 _ _ os os' F).
  destruct (loop _ _ _ _ _ _ _ _ _ _ _ _ _ _ _ _) as [[t' inf']|e]; [|reflexivity]. destruct inf'; reflexivity.
Qed.
End Run.

(** ** medians *)
Lemma rinsert_scal a v l : 0 < a -> rinsert (a * v) (map (Rmult a) l) = map (Rmult a) (rinsert v l).
Proof.
  intros A. induction l as [|b l IH]; cbn; [reflexivity|]. destruct (Rle_dec v b), (Rle_dec (a * v) (a * b)); cbn; auto; try (exfalso; nra). now rewrite IH.
Qed.
Lemma rsort_scal a l : 0 < a -> rsort (map (Rmult a) l) = map (Rmult a) (rsort l).
Proof. intros A. induction l as [|b l IH]; cbn; [reflexivity|]. unfold rsort in IH. rewrite IH. apply rinsert_scal, A. Qed.
Lemma median_scal a l : 0 < a -> median (map (Rmult a) l) = a * median l.
Proof.
  intros A. unfold median. rewrite map_length, rsort_scal by exact A.
  assert (E : forall k, nth k (map (Rmult a) (rsort l)) 0 = a * nth k (rsort l) 0) by (intros k; rewrite <- (Rmult_0_r a) at 1; apply map_nth).
  rewrite !E. destruct (Nat.odd _); [reflexivity|lra].
Qed.
Lemma result_scaled f d w : pos f -> mcmc_result d (map (scaled f) w) = scaled f (mcmc_result d w).
Proof.
  intros P. unfold mcmc_result. rewrite scaled_map_seq, seq_length.
  assert (E : combine (seq 0 d) (seq 0 d) = map (fun i => (i, i)) (seq 0 d)) by (generalize (seq 0 d); induction l as [|a l IH]; cbn; congruence).
  rewrite E, map_map. apply map_ext. intros i. cbn [fst snd escaled]. f_equal. rewrite <- median_scal by apply P. f_equal. rewrite !map_map. apply map_ext. intros x.
  rewrite nth_scaled. destruct (nth i x NaN); cbn; ring.
Qed.

(** ** training *)
Lemma proposal_rel c b : pos c -> same (factor c) (length b) (default_proposal b) (default_proposal (bscaled (factor c) b)).
Proof.
  intros P. unfold same, default_proposal. cbn [p_indices p_auto p_jumps p_args n_ropt n_c0 n_c1 n_K n_adapt_cov n_sigma n_Sigma]. rewrite bscaled_length.
  do 10 (split; [reflexivity|]). cbn. intros k l. destruct (Nat.eqb_spec k l) as [->|N]; [|ring].
  rewrite nth_bscaled. cbn [fst snd]. unfold Rdiv. ring.
Qed.
Lemma train_rel Omega (draw : option (nat -> nat -> R) -> Omega -> list ext -> list ext) D y xs lik lik' init current us n rnd c t :
  pos c -> unit_free draw -> (forall h, lik' (hps_in_unit c h) = lik h) ->
  train_mcmc Omega draw D y (map (in_unit c t) xs) lik' (option_map (hps_in_unit c) init) (hps_in_unit c current) us n rnd =
  match train_mcmc Omega draw D y xs lik init current us n rnd with
  | Ok (inf, h) => Ok (si (factor c) inf, hps_in_unit c h)
  | Err e => Err e
  end.
Proof.
  intros P U L. pose proof (factor_pos c P) as Pf. unfold train_mcmc, hps_in_unit. rewrite scaled_length, (bounds_in_unit c t P).
  destruct (default_bounds true (length current) y (columns D xs)) as [b|e]; [|reflexivity].
  rewrite (start_scaled b (factor c) init current us Pf). destruct (start_point init current (ebox b) us) as [x0|e]; [|reflexivity].
  rewrite (run_rel Omega draw (factor c) lik lik' (training_prior (ebox b)) _ (length b) Pf U L) with (os := [default_proposal b]);
    [|intros x; apply prior_scaled, Pf|constructor; [apply proposal_rel, P|constructor]].
  destruct (run_mcmc _ _ _ _ _ _ _ _ _ _ _) as [[t' [inf|]]|e]; cbn [option_map]; auto.
  cbn [si i_window]. rewrite scaled_length, result_scaled by exact Pf. reflexivity.
Qed.
