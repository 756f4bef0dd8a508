(** Lemmas about the data container. *)
From Verif Require Import Model.Prelude Model.Data Spec.DataSpec.

Section DataP.
  Context {V Obj : Type} (isnan : V -> bool).
  Notation gdata := (gdata V Obj). Notation op := (op V Obj).
  Notation pyx := (pyx V Obj). Notation pyy := (pyy V). Notation pyn := (pyn V).

  Lemma replay_appends {B} (f : op -> list B) init ops :
    forallb o_append ops = true -> replay f init ops = init ++ concat (map f ops).
  Proof.
    unfold replay. revert init. induction ops as [|o os IH]; cbn; intros init H.
    - now rewrite app_nil_r.
    - apply andb_true_iff in H as [H1 H2]. rewrite H1, IH by assumption. now rewrite app_assoc.
  Qed.

  Lemma replay_overwrite {B} (f : op -> list B) init pre o apps :
    o_append o = false -> forallb o_append apps = true ->
    replay f init (pre ++ o :: apps) = f o ++ concat (map f apps).
  Proof.
    intros H1 H2. unfold replay. rewrite fold_left_app. cbn. rewrite H1.
    apply (replay_appends f (f o) apps H2).
  Qed.

  (** ** Well-formedness kept by every call *)
  Definition wf (s : gdata) : Prop :=
    length (stored_x s) = length (stored_y s) /\ g_n s = length (stored_x s) /\
    (g_euclid s = true <-> exists m, g_x s = SMat m).

  Lemma xpts_len (x : sx V Obj) : length (xpts x) = sx_len x.
  Proof. destruct x; cbn; now rewrite map_length. Qed.

  Lemma column_rows (l : list V) : rows (column l) = map (fun v => [v]) l.
  Proof. reflexivity. Qed.

  Lemma opt_nat_eqb_true a b : opt_nat_eqb a b = true -> exists n, a = Some n /\ b = Some n.
  Proof.
    destruct a as [n|], b as [m|]; cbn; try discriminate.
    intros H. apply Nat.eqb_eq in H. subst. eauto.
  Qed.

  Lemma init_wf x y nv s : data_init isnan x y nv = Ok s ->
    wf s /\ stored_x s = pyx_pts x /\ stored_y s = pyy_rows y /\
    match nv with NVec l => g_noise s = Some l /\ length l = length (stored_x s) | _ => g_noise s = None end.
  Proof.
    unfold data_init, wf, stored_x, stored_y.
    destruct x as [m| |l|]; try discriminate;
    destruct y as [yl|ym| |]; try discriminate;
    destruct nv as [|nl| |]; try discriminate;
    cbn [pyx_len pyy_len];
    (try match goal with |- context [negb (opt_nat_eqb ?a ?b)] => destruct (opt_nat_eqb a b) eqn:E end; cbn [negb]; try discriminate);
    (try match goal with |- context [negb (opt_nat_eqb (Some (length nl)) ?b)] => destruct (opt_nat_eqb (Some (length nl)) b) eqn:E2 end; cbn [negb]; try discriminate);
    repeat match goal with H : opt_nat_eqb _ _ = true |- _ => apply opt_nat_eqb_true in H as (? & ? & ?) end;
    repeat match goal with H : Some _ = Some _ |- _ => injection H as ? end;
    try (match goal with n : option nat |- _ => destruct n; discriminate end).
    all: try (destruct (rows m) as [|r rs] eqn:Em; [discriminate|]; cbn [sx_len]);
         match goal with |- context [nan_found ?a ?b ?c ?d] => destruct (nan_found a b c d) eqn:En end;
         intros Hres; try discriminate; injection Hres as <-; cbn [g_x g_y g_n g_noise g_euclid xpts pyx_pts pyy_rows sx_len];
         rewrite ?column_rows, ?map_length, ?Em in *; cbn [rows column] in *; rewrite ?map_length in *.
    all: repeat split; eauto; try congruence; try (intros []; discriminate); try discriminate;
         try (intros (? & ?); discriminate).
  Qed.

  Lemma vstack_some (a b c : mat V) : vstack a b = Some c -> rows c = rows a ++ rows b /\ ncols a = ncols b /\ ncols c = ncols a.
  Proof.
    unfold vstack. destruct (Nat.eqb_spec (ncols a) (ncols b)) as [E|]; [|discriminate].
    intros H. injection H as <-. auto.
  Qed.

  (** One call: what an accepted call does, and what a call rejected early leaves. *)
  Lemma gp_update_spec s o s' r :
    wf s -> gp_update isnan s o = (s', r) ->
    (r = Ok tt ->
       wf s' /\
       stored_x s' = (if o_append o then stored_x s ++ op_xpts o else op_xpts o) /\
       stored_y s' = (if o_append o then stored_y s ++ op_yrows o else op_yrows o) /\
       g_noise s' = (match g_noise s with
                     | Some l => Some (if o_append o then l ++ op_noise_vals o else op_noise_vals o)
                     | None => None end) /\
       length (op_xpts o) = length (op_yrows o)) /\
    (is_ok r = false -> dirty_error r = false ->
       wf s' /\ g_x s' = g_x s /\ g_y s' = g_y s /\ g_noise s' = g_noise s /\ g_n s' = g_n s).
  Proof.
    intros (W1 & W2 & W3) H. unfold gp_update in H.
    destruct o as [x y nv ap]; cbn [o_x o_y o_noise o_append] in *.
    assert (Wself : wf s) by (repeat split; tauto).
    destruct x as [m| |l|]; try (injection H as <- <-; split; [discriminate|intros _ _; tauto]);
    destruct y as [yl|ym|yn|]; try (injection H as <- <-; split; [discriminate|intros _ _; tauto]);
    destruct nv as [|nl| |]; try (injection H as <- <-; split; [discriminate|intros _ _; tauto]).
    all: match type of H with (if negb (opt_nat_eqb ?a ?b) then _ else _) = _ =>
           destruct (opt_nat_eqb a b) eqn:E end; cbn [negb] in H;
         [|injection H as <- <-; split; [discriminate|intros _ _; tauto]].
    all: apply opt_nat_eqb_true in E as (n & E1 & E2); cbn [pyx_len pyy_len] in E1, E2.
    all: unfold data_update in H.
    all: try (destruct (g_euclid s) eqn:Eeu; cbn [g_euclid] in H;
              injection H as <- <-; split; [discriminate|intros _ _; rewrite <- ?Eeu in *; tauto]).
    all: destruct (g_euclid s) eqn:Eeu; try (injection H as <- <-; split; [discriminate|intros _ _; tauto]).
    all: destruct (g_noise s) as [no|] eqn:Eno; try (injection H as <- <-; split; [discriminate|intros _ _; tauto]).
    all: destruct ap.
    all: destruct (g_x s) as [gx|gx] eqn:Egx.
    all: try (destruct (proj1 W3 eq_refl) as (? & ?); discriminate).
    all: try (assert (false = true) by (apply (proj2 W3); eauto); discriminate).
    all: try (match type of H with context [match vstack ?a ?b with Some c => Some (SMat c) | None => None end] =>
                destruct (vstack a b) as [vx|] eqn:Evx end;
              [apply vstack_some in Evx as (Evx & _ & _)|
               injection H as <- <-; split; [discriminate|intros _ _; unfold wf, stored_x, stored_y in *; cbn in *;
                 repeat match goal with E : g_x ?z = _ |- _ => rewrite E in * | E : g_euclid ?z = _ |- _ => rewrite E in * end; cbn in *; repeat split; auto; eauto]]).
    all: try (match type of H with context [vstack ?p ?q] => destruct (vstack p q) as [vy|] eqn:Evy end;
              [apply vstack_some in Evy as (Evy & _ & _)|
               injection H as <- <-; split; [discriminate|discriminate]]).
    all: cbn [g_x g_y g_noise g_euclid g_n] in H;
         match type of H with (if ?c then _ else _) = _ => destruct c eqn:En end;
         injection H as <- <-; (split; [|discriminate]); try discriminate; intros _;
         unfold wf, stored_x, stored_y, op_xpts, op_yrows, op_noise_vals in *;
         cbn [g_x g_y g_noise g_euclid g_n xpts pyx_pts pyy_rows pyn_vals o_x o_y o_noise o_append] in *;
         repeat match goal with E : g_x ?z = _ |- _ => rewrite E in * end; rewrite ?xpts_len in *; cbn [xpts sx_len] in *.
    all: injection E1 as E1; injection E2 as E2;
         repeat match goal with E : rows ?a = _ ++ _ |- _ => rewrite E; clear E end; cbn [column rows];
         rewrite ?map_app, ?app_length, ?map_length in *;
         repeat match goal with E : g_euclid ?z = _ |- _ => rewrite E in * end; repeat split; eauto; try lia; try (intros; discriminate); try (intros (? & ?); discriminate).
  Qed.

  Lemma session_replay : forall ops s s' log,
    wf s -> session isnan s ops = (s', log) ->
    (forall o r, In (o, r) log -> dirty_error r = false) ->
    wf s' /\
    stored_x s' = replay op_xpts (stored_x s) (accepted log) /\
    stored_y s' = replay op_yrows (stored_y s) (accepted log) /\
    (forall l, g_noise s = Some l -> g_noise s' = Some (replay op_noise_vals l (accepted log))) /\
    (g_noise s = None -> g_noise s' = None).
  Proof.
    induction ops as [|o os IH]; intros s s' log W H D; cbn in H.
    - injection H as <- <-. cbn. tauto || (repeat split; auto; intros l Hl; exact Hl).
    - destruct (gp_update isnan s o) as [s1 r] eqn:E1.
      destruct (session isnan s1 os) as [s2 rs] eqn:E2. injection H as <- <-.
      destruct (gp_update_spec s o s1 r W E1) as [HOk HErr].
      assert (Dr : dirty_error r = false) by (apply (D o); now left).
      assert (Drs : forall o' r', In (o', r') rs -> dirty_error r' = false) by (intros; eapply D; right; eauto).
      destruct r as [[]|e].
      + destruct (HOk eq_refl) as (W1 & Hx & Hy & Hn & _).
        destruct (IH s1 s2 rs W1 E2 Drs) as (W2 & Hx2 & Hy2 & Hn2 & Hn3).
        unfold accepted in *. cbn [filter snd is_ok map fst]. unfold replay in *. cbn [fold_left].
        rewrite <- Hx, <- Hy. repeat split; auto.
        * apply W2. * apply W2. * apply W2. * apply W2.
        * intros l Hl. rewrite Hl in Hn. apply Hn2 in Hn. exact Hn.
        * intros Hl. rewrite Hl in Hn. auto.
      + destruct (HErr eq_refl Dr) as (W1 & Hx & Hy & Hn & _).
        destruct (IH s1 s2 rs W1 E2 Drs) as (W2 & Hx2 & Hy2 & Hn2 & Hn3).
        unfold accepted in *. cbn [filter snd is_ok map fst].
        unfold stored_x, stored_y in *. rewrite Hx, Hy, Hn in *. repeat split; auto.
        all: apply W2.
  Qed.
End DataP.

(** ** Statements used by Props/DataProps.v *)
Section DataMain.
  Context {V Obj : Type} (isnan : V -> bool).

  Lemma stored_data_history_l : forall (x : pyx V Obj) y nv s0 ops s log,
    data_init isnan x y nv = Ok s0 ->
    session isnan s0 ops = (s, log) ->
    (forall o r, In (o, r) log -> dirty_error r = false) ->
    length (stored_x s) = length (stored_y s) /\ g_n s = length (stored_x s) /\
    (forallb o_append (accepted log) = true ->
       stored_x s = pyx_pts x ++ concat (map op_xpts (accepted log)) /\
       stored_y s = pyy_rows y ++ concat (map op_yrows (accepted log))) /\
    (forall pre o apps, accepted log = pre ++ o :: apps -> o_append o = false -> forallb o_append apps = true ->
       stored_x s = op_xpts o ++ concat (map op_xpts apps) /\
       stored_y s = op_yrows o ++ concat (map op_yrows apps)).
  Proof.
    intros x y nv s0 ops s log Hi Hs Hd.
    destruct (init_wf isnan x y nv s0 Hi) as (W0 & Hx0 & Hy0 & _).
    destruct (session_replay isnan ops s0 s log W0 Hs Hd) as ((W1 & W2 & _) & Hx & Hy & _).
    split; [exact W1|]. split; [exact W2|]. split.
    - intros Ha. rewrite Hx, Hy, Hx0, Hy0. split; now apply replay_appends.
    - intros pre o apps Hacc Ho Ha. rewrite Hx, Hy, Hacc. split; now apply replay_overwrite.
  Qed.

  (** every accepted call supplied as many noise values as points *)
  Lemma concat_len {A B C} (f : C -> list A) (g : C -> list B) l :
    (forall o, In o l -> length (f o) = length (g o)) ->
    length (concat (map f l)) = length (concat (map g l)).
  Proof.
    induction l as [|o l IH]; cbn; intros H; [reflexivity|].
    rewrite !app_length, (H o) by now left. rewrite IH; auto.
  Qed.

  Lemma noise_alignment_l : forall (x : pyx V Obj) y l0 s0 ops s log,
    data_init isnan x y (NVec l0) = Ok s0 ->
    session isnan s0 ops = (s, log) ->
    (forall o r, In (o, r) log -> dirty_error r = false) ->
    (forall o, In o (accepted log) -> length (op_noise_vals o) = length (op_xpts o)) ->
    exists l, g_noise s = Some l /\ length l = length (stored_x s) /\
      (forallb o_append (accepted log) = true -> l = l0 ++ concat (map op_noise_vals (accepted log))) /\
      (forall pre o apps, accepted log = pre ++ o :: apps -> o_append o = false -> forallb o_append apps = true ->
         l = op_noise_vals o ++ concat (map op_noise_vals apps)).
  Proof.
    intros x y l0 s0 ops s log Hi Hs Hd Hg.
    destruct (init_wf isnan x y _ s0 Hi) as (W0 & Hx0 & Hy0 & Hn0 & Hlen).
    destruct (session_replay isnan ops s0 s log W0 Hs Hd) as (_ & Hx & _ & Hn & _).
    exists (replay op_noise_vals l0 (accepted log)). split; [auto|]. split; [|split].
    - rewrite Hx. unfold replay. clear Hx Hn Hs Hd.
      revert Hg Hlen. generalize (stored_x s0) l0. generalize (accepted log).
      intros acc. induction acc as [|o acc IH]; cbn; intros sx0 l1 Hg Hl; [exact Hl|].
      apply IH; [intros; apply Hg; now right|].
      destruct (o_append o); [rewrite !app_length, Hl, (Hg o); [reflexivity|now left]|apply Hg; now left].
    - intros Ha. now apply replay_appends.
    - intros pre o apps Hacc Ho Ha. rewrite Hacc. now apply replay_overwrite.
  Qed.

  Lemma rejected_update_unchanged_l : forall (s s' : gdata V Obj) o e,
    wf s -> gp_update isnan s o = (s', Err e) -> e <> EVstackY -> e <> ENaN -> stored s' = stored s.
  Proof.
    intros s s' o e W H N1 N2.
    destruct (gp_update_spec isnan s o s' _ W H) as [_ HErr].
    assert (D : dirty_error (Err e) = false) by (destruct e; cbn; congruence).
    destruct (HErr eq_refl D) as (_ & A & B & C & E). unfold stored. now rewrite A, B, C, E.
  Qed.

  (** a GP reached by the constructor and any session without dirty errors is well formed *)
  Lemma session_wf : forall (x : pyx V Obj) y nv s0 ops s log,
    data_init isnan x y nv = Ok s0 -> session isnan s0 ops = (s, log) ->
    (forall o r, In (o, r) log -> dirty_error r = false) -> wf s.
  Proof.
    intros x y nv s0 ops s log Hi Hs Hd.
    destruct (init_wf isnan x y nv s0 Hi) as (W0 & _).
    now destruct (session_replay isnan ops s0 s log W0 Hs Hd).
  Qed.

  Lemma rejected_update_session_l : forall (x : pyx V Obj) y nv s0 ops s log o s' e,
    data_init isnan x y nv = Ok s0 -> session isnan s0 ops = (s, log) ->
    (forall o r, In (o, r) log -> dirty_error r = false) ->
    gp_update isnan s o = (s', Err e) -> e <> EVstackY -> e <> ENaN -> stored s' = stored s.
  Proof.
    intros. eapply rejected_update_unchanged_l; eauto. eapply session_wf; eauto.
  Qed.

  Lemma no_nan (m : mat V) : mat_has_nan isnan m = false -> forall r v, In r (rows m) -> In v r -> isnan v = false.
  Proof.
    unfold mat_has_nan. intros H r v Hr Hv. destruct (isnan v) eqn:E; [|reflexivity].
    assert (Hx : existsb (existsb isnan) (rows m) = true).
    { apply existsb_exists. exists r. split; [exact Hr|]. apply existsb_exists. now exists v. }
    congruence.
  Qed.
  Lemma nan_check (s : gdata V Obj) : g_euclid s = true -> nan_found isnan (g_euclid s) (g_x s) (g_y s) = false -> nan_free isnan s.
  Proof.
    intros He. unfold nan_found. rewrite He. cbn [andb]. intros H. apply orb_false_iff in H as [H1 H2]. split.
    - unfold stored_x. destruct (g_x s) as [m|l]; cbn [xpts]; intros r v Hr Hv.
      + apply in_map_iff in Hr as (r' & [= <-] & Hr'). exact (no_nan m H1 r' v Hr' Hv).
      + apply in_map_iff in Hr as (r' & E & _). discriminate.
    - exact (no_nan _ H2).
  Qed.
  Lemma init_checked x y nv (s : gdata V Obj) : data_init isnan x y nv = Ok s ->
    nan_found isnan (g_euclid s) (g_x s) (g_y s) = false /\ (forall m, x = XMat m -> g_euclid s = true).
  Proof.
    unfold data_init.
    destruct x as [m| |l|]; try discriminate;
    destruct y as [yl|ym| |]; try discriminate;
    destruct nv as [|nl| |]; try discriminate;
    (destruct (negb _); [discriminate|]);
    try (destruct (negb _); [discriminate|]); try discriminate;
    try (destruct (rows m) as [|r rs]; [discriminate|]);
    match goal with |- context [nan_found ?a ?b ?c ?d] => destruct (nan_found a b c d) eqn:En end; try discriminate;
    intros [= <-]; cbn [g_euclid g_x g_y]; (split; [exact En|]); intros m' Em; try discriminate; reflexivity.
  Qed.
  Lemma update_checked (s s' : gdata V Obj) o r : gp_update isnan s o = (s', r) ->
    g_euclid s' = g_euclid s /\ (r = Ok tt -> nan_found isnan (g_euclid s') (g_x s') (g_y s') = false).
  Proof.
    unfold gp_update. intros H. destruct o as [x y nv ap]; cbn [o_x o_y o_noise o_append] in *.
    destruct x as [m| |l|]; try (injection H as <- <-; split; [reflexivity|discriminate]);
    destruct y as [yl|ym|yn|]; try (injection H as <- <-; split; [reflexivity|discriminate]);
    destruct nv as [|nl| |]; try (injection H as <- <-; split; [reflexivity|discriminate]).
    all: match type of H with (if ?b then _ else _) = _ => destruct b end; [injection H as <- <-; split; [reflexivity|discriminate]|].
    all: unfold data_update in H.
    all: destruct (g_euclid s) eqn:Eeu; try (injection H as <- <-; split; [first [exact Eeu|reflexivity]|discriminate]).
    all: destruct (g_noise s) as [no|] eqn:Eno; try (injection H as <- <-; split; [first [exact Eeu|reflexivity]|discriminate]).
    all: destruct ap.
    all: try match type of H with context [match g_x ?z with _ => _ end] => destruct (g_x z) as [gx|gx] end.
    all: try (injection H as <- <-; split; [first [exact Eeu|reflexivity]|discriminate]).
    all: try (match type of H with context [match vstack ?a ?b with Some c => Some (SMat c) | None => None end] =>
                destruct (vstack a b) as [vx|] end; [|injection H as <- <-; split; [first [exact Eeu|reflexivity]|discriminate]]).
    all: try (match type of H with context [vstack ?p ?q] => destruct (vstack p q) as [vy|] end;
              [|injection H as <- <-; split; [first [exact Eeu|reflexivity]|discriminate]]).
    all: cbn [g_x g_y g_noise g_euclid g_n] in H;
         match type of H with (if ?c then _ else _) = _ => destruct c eqn:En end;
         injection H as <- <-; cbn [g_euclid g_x g_y]; (split; [first [exact Eeu|reflexivity]|]); try discriminate; intros _; exact En.
  Qed.
  Lemma nan_session x y nv (s0 : gdata V Obj) : data_init isnan (XMat x) y nv = Ok s0 ->
    nan_free isnan s0 /\
    forall ops s log, session isnan s0 ops = (s, log) -> forall o s', gp_update isnan s o = (s', Ok tt) -> nan_free isnan s'.
  Proof.
    intros E. destruct (init_checked _ _ _ _ E) as [Hn He]. specialize (He x eq_refl). split; [exact (nan_check s0 He Hn)|].
    intros ops. clear E Hn. revert s0 He. induction ops as [|o ops IH]; intros s0 He s log; cbn [session].
    - intros [= <- _] o s' E'. apply update_checked in E' as [H1 H2]. apply nan_check; [congruence|auto].
    - destruct (gp_update isnan s0 o) as [s1 r] eqn:E1. destruct (session isnan s1 ops) as [s2 rs] eqn:E2. intros [= <- _].
      refine (IH s1 _ _ _ E2). apply update_checked in E1 as [E1 _]. congruence.
  Qed.
End DataMain.
