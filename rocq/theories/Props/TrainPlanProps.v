(** What a call of train() does: C123-C126, C133. *)
From Coq Require Import Reals Lra Lia List Bool.
From Coquelicot Require Import Coquelicot.
From Verif Require Import Model.Prelude Model.Ext Model.Training Model.TrainPlan Spec.TrainPlanSpec Proofs.TrainPlanP.
Import ListNotations.
Local Open Scope R_scope.

Section Dispatch.
Variables F Gr He : Type.
Variables (ll nll : F) (dnll : Gr) (hnll : He).
Notation train := (TrainPlan.train F Gr He ll nll dnll hnll).

(** the method that runs *)
Definition runs (gp2 : bool) (m : meth) : meth := if gp2 && negb (gp2Scale_method m) then MMcmc else m.

Lemma train_inv : forall gp2 own dflt r p h, train gp2 own dflt r = Ok (p, h) ->
  p_method F Gr He p = runs gp2 (r_method F Gr He r) /\
  p_async F Gr He p = r_async F Gr He r && negb gp2 && is_async_method (runs gp2 (r_method F Gr He r)) /\
  (p_async F Gr He p = true -> r_client F Gr He r = true \/ own = true) /\
  p_obj F Gr He p = match runs gp2 (r_method F Gr He r) with MMcmc => ll | _ => or_else (r_obj F Gr He r) nll end /\
  p_grad F Gr He p = or_else (r_grad F Gr He r) dnll /\ p_hess F Gr He p = or_else (r_hess F Gr He r) hnll /\
  p_guarded F Gr He p = r_accept F Gr He r && negb (p_async F Gr He p) && negb (given (r_obj F Gr He r)) &&
    match p_method F Gr He p with MCall | MLocal | MHgdl | MAdam => true | _ => false end /\
  p_estimator_noise F Gr He p = match p_method F Gr He p with MBo => negb (given (r_obj F Gr He r)) && negb (r_noise F Gr He r) | _ => false end /\
  (r_obj F Gr He r <> None -> r_grad F Gr He r = None ->
     runs gp2 (r_method F Gr He r) <> MLocal /\ runs gp2 (r_method F Gr He r) <> MHgdl) /\
  run_plan F Gr He p = Ok h.
Proof.
  intros gp2 own dflt [m a c b o g he acc no] p h. unfold TrainPlan.train, make_plan. cbn [r_method r_async r_client r_bounds r_obj r_grad r_hess r_accept r_noise].
  fold (runs gp2 m). set (k := runs gp2 m).
  destruct (a && negb gp2 && is_async_method k && negb c && negb own) eqn:E1; [discriminate|].
  destruct (negb b && negb dflt); [discriminate|].
  destruct (given o && negb (given g) && match k with MLocal | MHgdl => true | _ => false end) eqn:E2; [discriminate|].
  match goal with |- context [run_plan F Gr He ?q] => destruct (run_plan F Gr He q) eqn:E3; [|discriminate] end.
  intro H. injection H as <- <-. cbn [p_method p_async p_obj p_grad p_hess p_guarded p_estimator_noise].
  repeat split; try exact E3.
  - intro A. rewrite A in E1. destruct c; [left; reflexivity|]. destruct own; [right; reflexivity | discriminate].
  - intro K. rewrite K in E2. destruct o; [|contradiction]. subst. discriminate.
  - intro K. rewrite K in E2. destruct o; [|contradiction]. subst. discriminate.
Qed.

Definition c_client gp2 own (r : request F Gr He) :=
  r_async F Gr He r && negb gp2 && is_async_method (r_method F Gr He r) && negb (r_client F Gr He r) && negb own.
Definition c_bounds dflt (r : request F Gr He) := negb (r_bounds F Gr He r) && negb dflt.
Definition c_grad (gp2 : bool) (r : request F Gr He) :=
  negb gp2 && match r_method F Gr He r with MLocal | MHgdl => true | _ => false end && given (r_obj F Gr He r) && negb (given (r_grad F Gr He r)).
Definition c_meth (gp2 : bool) (r : request F Gr He) := negb gp2 && match r_method F Gr He r with MOther => true | _ => false end.
Lemma train_cases : forall gp2 own dflt r,
  if c_client gp2 own r then train gp2 own dflt r = Err PNoClient
  else if c_bounds dflt r then train gp2 own dflt r = Err PNoBounds
  else if c_grad gp2 r then train gp2 own dflt r = Err PNeedGradient
  else if c_meth gp2 r then train gp2 own dflt r = Err PNoMethod
  else exists ph, train gp2 own dflt r = Ok ph.
Proof.
  intros gp2 own dflt [m a c b o g he acc no]. unfold c_client, c_bounds, c_grad, c_meth, TrainPlan.train, make_plan.
  cbn [r_method r_async r_client r_bounds r_obj r_grad r_hess r_accept r_noise]. fold (runs gp2 m).
  assert (X : a && negb gp2 && is_async_method (runs gp2 m) = a && negb gp2 && is_async_method m) by (destruct gp2, a; reflexivity).
  rewrite X. destruct (a && negb gp2 && is_async_method m && negb c && negb own); [reflexivity|].
  destruct (negb b && negb dflt); [reflexivity|].
  assert (Y : given o && negb (given g) && match runs gp2 m with MLocal | MHgdl => true | _ => false end =
              negb gp2 && match m with MLocal | MHgdl => true | _ => false end && given o && negb (given g)).
  { destruct gp2, m, (given o), (given g); reflexivity. }
  rewrite Y. destruct (negb gp2 && match m with MLocal | MHgdl => true | _ => false end && given o && negb (given g)); [reflexivity|].
  unfold run_plan, run_async, run_sync. cbn [p_method p_async]. clear X Y.
  destruct gp2, m, a; simpl; try reflexivity; eexists; reflexivity.
Qed.
Lemma c_client_iff : forall gp2 own r, c_client gp2 own r = true <->
  r_async F Gr He r = true /\ gp2 = false /\ In (r_method F Gr He r) [MHgdl; MMcmc; MAdam; MBo] /\ r_client F Gr He r = false /\ own = false.
Proof.
  intros gp2 own r. unfold c_client. rewrite !andb_true_iff, !negb_true_iff.
  assert (X : is_async_method (r_method F Gr He r) = true <-> In (r_method F Gr He r) [MHgdl; MMcmc; MAdam; MBo]).
  { destruct (r_method F Gr He r); simpl; intuition discriminate. }
  tauto.
Qed.
Lemma c_bounds_iff : forall dflt r, c_bounds dflt r = true <-> r_bounds F Gr He r = false /\ dflt = false.
Proof. intros. unfold c_bounds. rewrite !andb_true_iff, !negb_true_iff. tauto. Qed.
Lemma c_grad_iff : forall gp2 r, c_grad gp2 r = true <->
  gp2 = false /\ In (r_method F Gr He r) [MLocal; MHgdl] /\ r_obj F Gr He r <> None /\ r_grad F Gr He r = None.
Proof.
  intros gp2 r. unfold c_grad. rewrite !andb_true_iff, !negb_true_iff.
  assert (X : match r_method F Gr He r with MLocal | MHgdl => true | _ => false end = true <-> In (r_method F Gr He r) [MLocal; MHgdl]).
  { destruct (r_method F Gr He r); simpl; intuition discriminate. }
  assert (Y : given (r_obj F Gr He r) = true <-> r_obj F Gr He r <> None) by (destruct (r_obj F Gr He r); simpl; intuition discriminate).
  assert (Z : given (r_grad F Gr He r) = false <-> r_grad F Gr He r = None) by (destruct (r_grad F Gr He r); simpl; intuition discriminate).
  tauto.
Qed.
Lemma c_meth_iff : forall gp2 r, c_meth gp2 r = true <-> gp2 = false /\ r_method F Gr He r = MOther.
Proof.
  intros gp2 r. unfold c_meth. rewrite andb_true_iff, negb_true_iff.
  assert (X : match r_method F Gr He r with MOther => true | _ => false end = true <-> r_method F Gr He r = MOther).
  { destruct (r_method F Gr He r); intuition discriminate. }
  tauto.
Qed.

(** C124 *)
Theorem train_dispatch : forall gp2 own dflt r,
  (forall p h, train gp2 own dflt r = Ok (p, h) ->
     (gp2 = true -> p_async F Gr He p = false /\ (r_method F Gr He r = MBo -> p_method F Gr He p = MBo) /\
        (r_method F Gr He r <> MBo -> p_method F Gr He p = MMcmc)) /\
     (gp2 = false -> p_method F Gr He p = r_method F Gr He r) /\
     (p_async F Gr He p = true <-> r_async F Gr He r = true /\ gp2 = false /\ In (r_method F Gr He r) [MHgdl; MMcmc; MAdam; MBo]) /\
     (p_async F Gr He p = true -> r_client F Gr He r = true \/ own = true) /\
     (p_method F Gr He p = MMcmc -> h_obj F Gr He h = Some ll) /\
     (p_method F Gr He p <> MMcmc -> p_method F Gr He p <> MCall ->
        h_obj F Gr He h = Some (match r_obj F Gr He r with Some f => f | None => nll end)) /\
     (p_guarded F Gr He p = true <-> r_accept F Gr He r = true /\ p_async F Gr He p = false /\ r_obj F Gr He r = None /\
        In (p_method F Gr He p) [MCall; MLocal; MHgdl; MAdam]) /\
     (p_estimator_noise F Gr He p = true <-> p_method F Gr He p = MBo /\ r_obj F Gr He r = None /\ r_noise F Gr He r = false)) /\
  (train gp2 own dflt r = Err PNoClient <->
     r_async F Gr He r = true /\ gp2 = false /\ In (r_method F Gr He r) [MHgdl; MMcmc; MAdam; MBo] /\ r_client F Gr He r = false /\ own = false) /\
  (train gp2 own dflt r = Err PNoBounds <->
     train gp2 own dflt r <> Err PNoClient /\ r_bounds F Gr He r = false /\ dflt = false) /\
  (train gp2 own dflt r = Err PNeedGradient <->
     train gp2 own dflt r <> Err PNoClient /\ train gp2 own dflt r <> Err PNoBounds /\
     gp2 = false /\ In (r_method F Gr He r) [MLocal; MHgdl] /\ r_obj F Gr He r <> None /\ r_grad F Gr He r = None) /\
  (train gp2 own dflt r = Err PNoMethod <->
     train gp2 own dflt r <> Err PNoBounds /\ gp2 = false /\ r_method F Gr He r = MOther).
Proof.
  intros gp2 own dflt r. split.
  - intros p h H. destruct (train_inv _ _ _ _ _ _ H) as [M [A [C [O [_ [_ [G [NO [_ R]]]]]]]]].
    assert (RP : forall K : p_method F Gr He p <> MCall, h_obj F Gr He h = Some (p_obj F Gr He p)).
    { intro K. unfold run_plan, run_async, run_sync in R. destruct (p_async F Gr He p), (p_method F Gr He p); try discriminate; try contradiction; injection R as <-; reflexivity. }
    split; [|split; [|split; [|split; [|split; [|split; [|split]]]]]].
    + intros ->. rewrite A, M. split; [destruct (r_async F Gr He r); reflexivity|]. unfold runs. destruct (r_method F Gr He r); simpl; split; congruence.
    + intros ->. exact M.
    + rewrite A. destruct gp2, (r_async F Gr He r), (r_method F Gr He r); simpl; split; try discriminate; try tauto; intros [X [Y Z]]; try discriminate; intuition discriminate.
    + exact C.
    + intro K. rewrite RP by (rewrite K; discriminate). rewrite O, <- M, K. reflexivity.
    + intros K1 K2. rewrite RP by exact K2. rewrite O, <- M. destruct (p_method F Gr He p); try contradiction; reflexivity.
    + rewrite G. clear. destruct (r_accept F Gr He r), (p_async F Gr He p), (r_obj F Gr He r), (p_method F Gr He p); simpl; intuition discriminate.
    + rewrite NO. clear. destruct (r_noise F Gr He r), (r_obj F Gr He r), (p_method F Gr He p); simpl; intuition discriminate.
  - assert (T := train_cases gp2 own dflt r). rewrite <- c_client_iff, <- c_bounds_iff, <- c_grad_iff, <- c_meth_iff.
    assert (D1 : c_meth gp2 r = true -> c_client gp2 own r = false).
    { rewrite c_meth_iff. intros [_ K]. unfold c_client. rewrite K. simpl. rewrite andb_false_r. reflexivity. }
    assert (D2 : c_meth gp2 r = true -> c_grad gp2 r = false).
    { rewrite c_meth_iff. intros [_ K]. unfold c_grad. rewrite K. rewrite andb_false_r. reflexivity. }
    destruct (c_client gp2 own r), (c_bounds dflt r), (c_grad gp2 r), (c_meth gp2 r);
      try (discriminate (D1 eq_refl)); try (discriminate (D2 eq_refl)); try (match type of T with ex _ => destruct T as [ph T] end); rewrite T; intuition discriminate.
Qed.

(** C123: the derivatives belong to the objective when they are given for the same function or not used *)
Theorem derivatives_belong_partial : forall (grad_of : F -> Gr -> Prop) (hess_of : F -> He -> Prop) gp2 own dflt r p h,
  grad_of nll dnll -> hess_of nll hnll ->
  belong grad_of hess_of (r_obj F Gr He r) (r_grad F Gr He r) (r_hess F Gr He r) ->
  train gp2 own dflt r = Ok (p, h) ->
  (In (p_method F Gr He p) [MGlobal; MMcmc; MBo; MCall] -> h_grad F Gr He h = None /\ h_hess F Gr He h = None) /\
  (r_obj F Gr He r = None -> r_grad F Gr He r = None -> (p_method F Gr He p = MAdam \/ r_hess F Gr He r = None) ->
     belong grad_of hess_of (h_obj F Gr He h) (h_grad F Gr He h) (h_hess F Gr He h)) /\
  (r_obj F Gr He r <> None -> r_grad F Gr He r <> None -> (p_method F Gr He p = MAdam \/ r_hess F Gr He r <> None) ->
     belong grad_of hess_of (h_obj F Gr He h) (h_grad F Gr He h) (h_hess F Gr He h)).
Proof.
  intros grad_of hess_of gp2 own dflt r p h N1 N2 U H. destruct (train_inv _ _ _ _ _ _ H) as [M [_ [_ [O [G [HE [_ [_ [_ R]]]]]]]]].
  rewrite <- M in O. unfold run_plan, run_async, run_sync in R. split; [|split].
  - intro I. destruct (p_async F Gr He p), (p_method F Gr He p); try discriminate; simpl in I; try (injection R as <-; split; reflexivity);
      intuition discriminate.
  - intros E1 E2 E3 f Hf. rewrite E1 in O. rewrite E2 in G.
    destruct (p_async F Gr He p), (p_method F Gr He p); try discriminate; injection R as <-; simpl in *; try discriminate Hf; injection Hf as <-; split; intros d Hd; try discriminate;
      injection Hd as <-; rewrite O; try (rewrite G; exact N1); destruct E3 as [E3|E3]; try discriminate; rewrite HE, E3; exact N2.
  - intros E1 E2 E3 f Hf. destruct (r_obj F Gr He r) as [o|] eqn:EO; [|contradiction]. destruct (r_grad F Gr He r) as [g|] eqn:EG; [|contradiction].
    destruct (U o eq_refl) as [U1 U2]. simpl in O, G.
    destruct (p_async F Gr He p), (p_method F Gr He p); try discriminate; injection R as <-; simpl in *; try discriminate Hf; injection Hf as <-; split; intros d Hd; try discriminate;
      injection Hd as <-; rewrite O; try (rewrite G; exact (U1 g eq_refl)); destruct E3 as [E3|E3]; try discriminate;
      destruct (r_hess F Gr He r) as [k|] eqn:EH; try contradiction; rewrite HE; exact (U2 k eq_refl).
Qed.
End Dispatch.
Print Assumptions train_dispatch.
Print Assumptions derivatives_belong_partial.

(** a plain adam run of a GP with default objective, and an asynchronous run with a client *)
Example dispatch_example :
  let F := R -> R in let nll := (fun x : R => x ^ 2) in let ll := (fun x : R => - x ^ 2) in
  let g := (fun x : R => 2 * x) in let h := (fun _ : R => 2) in
  let r m a c := Req F F F m a c true None None None true false in
  (exists p, TrainPlan.train F F F ll nll g h false false false (r MAdam false false) = Ok (p, Handed F F F (Some nll) (Some g) None) /\
     p_guarded F F F p = true) /\
  (exists p, TrainPlan.train F F F ll nll g h true false false (r MLocal true false) = Ok (p, Handed F F F (Some ll) None None) /\
     p_method F F F p = MMcmc /\ p_async F F F p = false) /\
  TrainPlan.train F F F ll nll g h false false false (r MBo true false) = Err PNoClient /\
  belong derivative_of second_derivative_of (Some nll) (Some g) (Some h).
Proof.
  cbv zeta. split; [|split; [|split]].
  - eexists. split; reflexivity.
  - eexists. split; [reflexivity | split; reflexivity].
  - reflexivity.
  - intros f E. injection E as <-. split; intros d E; injection E as <-.
    + intro x. auto_derive; [trivial | ring].
    + exists (fun x : R => 2 * x). split; intro x; auto_derive; try trivial; ring.
Qed.

(** the likelihood x^2, the user's objective (x - 1)^2: adam is handed (x - 1)^2 with the gradient 2 x, which points away from the
    minimum 1 on (0, 1); local is handed (x-1)^4 with its own gradient and the Hessian 2; and a gradient given alone comes with x^2 *)
Theorem derivatives_belong_refuted :
  let F := R -> R in let nll := (fun x : R => x ^ 2) in let ll := (fun x : R => - x ^ 2) in
  let g := (fun x : R => 2 * x) in let h := (fun _ : R => 2) in
  let u := (fun x : R => (x - 1) ^ 2) in let u4 := (fun x : R => (x - 1) ^ 4) in let g4 := (fun x : R => 4 * (x - 1) ^ 3) in
  let T := TrainPlan.train F F F ll nll g h false false false in
  derivative_of nll g /\ second_derivative_of nll h /\ derivative_of u4 g4 /\
  (exists p, T (Req F F F MAdam false false true (Some u) None None true false) = Ok (p, Handed F F F (Some u) (Some g) None)) /\
  ~ derivative_of u g /\
  (exists p, T (Req F F F MLocal false false true (Some u4) (Some g4) None true false) = Ok (p, Handed F F F (Some u4) (Some g4) (Some h))) /\
  ~ second_derivative_of u4 h /\
  (exists p, T (Req F F F MLocal false false true None (Some g4) None true false) = Ok (p, Handed F F F (Some nll) (Some g4) (Some h))) /\
  ~ derivative_of nll g4.
Proof.
  cbv zeta.
  assert (A : derivative_of (fun x : R => x ^ 2) (fun x : R => 2 * x)) by (intro x; auto_derive; [trivial | ring]).
  assert (B : derivative_of (fun x : R => (x - 1) ^ 4) (fun x : R => 4 * (x - 1) ^ 3)) by (intro x; auto_derive; [trivial | ring]).
  assert (U : forall (f a b : R -> R), derivative_of f a -> derivative_of f b -> forall x, a x = b x).
  { intros f a b Ha Hb x. rewrite <- (is_derive_unique _ _ _ (Ha x)), <- (is_derive_unique _ _ _ (Hb x)). reflexivity. }
  split; [exact A|]. split.
  { exists (fun x : R => 2 * x). split; [exact A|]. intro x. auto_derive; [trivial | ring]. }
  split; [exact B|]. split; [eexists; reflexivity|]. split.
  { intro K. assert (C : derivative_of (fun x : R => (x - 1) ^ 2) (fun x : R => 2 * (x - 1))) by (intro x; auto_derive; [trivial | ring]).
    assert (E := U _ _ _ K C 0). simpl in E. lra. }
  split; [eexists; reflexivity|]. split.
  { intros [d [D1 D2]]. assert (E := U _ _ _ D1 B).
    assert (D3 : derivative_of d (fun x : R => 12 * (x - 1) ^ 2)).
    { intro x. apply (is_derive_ext (fun x : R => 4 * (x - 1) ^ 3)); [intro t; symmetry; apply E|]. auto_derive; [trivial | ring]. }
    assert (E' := U _ _ _ D2 D3 1). simpl in E'. lra. }
  split; [eexists; reflexivity|].
  intro K. assert (E := U _ _ _ K A 0). simpl in E. lra.
Qed.
Print Assumptions derivatives_belong_refuted.

(** C125: the default bounds *)
Theorem default_bounds_partial : forall euclidean n y cols, y <> [] ->
  (forall b, default_bounds euclidean n y cols = Ok b ->
     length b = n /\ (forall p, In p b -> 0 <= fst p <= snd p) /\
     (positive_box b <-> varies y /\ forall c, In c cols -> varies c)) /\
  (euclidean = true -> n = (length cols + 1)%nat -> exists b, default_bounds euclidean n y cols = Ok b) /\
  (euclidean = false \/ n <> (length cols + 1)%nat -> forall b, default_bounds euclidean n y cols <> Ok b).
Proof.
  intros e n y cols Hy. unfold default_bounds. split; [|split].
  - intro b. destruct e; [|discriminate]. simpl. destruct (Nat.eqb_spec n (length cols + 1)); [|discriminate].
    simpl. intro H. injection H as <-. assert (V := var_nonneg y). split; [simpl; rewrite map_length; lia|]. split.
    + intros p [<-|Hp]; simpl; [lra|]. apply in_map_iff in Hp. destruct Hp as [c [<- _]]. simpl. assert (W := range_nonneg c). lra.
    + split.
      * intro P. split.
        -- apply (var_pos_iff y Hy). assert (Q := P _ (or_introl eq_refl)). simpl in Q. lra.
        -- intros c Hc. apply range_pos_iff.
           assert (Q := P (col_range c / 100, col_range c * 10) (or_intror (in_map (fun c => (col_range c / 100, col_range c * 10)) cols c Hc))). simpl in Q. lra.
      * intros [P Q] p [<-|Hp]; simpl.
        -- apply (var_pos_iff y Hy) in P. lra.
        -- apply in_map_iff in Hp. destruct Hp as [c [<- Hc]]. simpl. apply Q, range_pos_iff in Hc. lra.
  - intros -> ->. rewrite Nat.eqb_refl. simpl. eexists. reflexivity.
  - intros [->|N] b; simpl; [discriminate|]. destruct e; simpl; [|discriminate]. destruct (Nat.eqb_spec n (length cols + 1)); [contradiction | discriminate].
Qed.
Print Assumptions default_bounds_partial.

Example default_bounds_example : exists b, default_bounds true 2 [0; 2] [[1; 4]] = Ok b /\ b = [(1 / 100, 10); (3 / 100, 30)] /\ positive_box b.
Proof.
  exists [(1 / 100, 10); (3 / 100, 30)]. split; [|split; [reflexivity|]].
  - unfold default_bounds, np_var, np_mean, rsuml, col_range, rmax_list, rmin_list. simpl. rewrite Rmax_right, Rmin_left by lra.
    f_equal. f_equal; [f_equal; field|]. f_equal. f_equal; field.
  - intros p [<-|[<-|[]]]; simpl; lra.
Qed.

(** two points with the same second coordinate: whatever the random draws, training with default bounds starts from a zero length
    scale, although the hyperparameters in force were positive *)
Theorem default_bounds_refuted : exists b,
  default_bounds true 3 [0; 2] [[1; 4]; [5; 5]] = Ok b /\ ~ positive_box b /\
  forall us : nat -> R, (forall i, 0 <= us i < 1) ->
    exists a l, choose_init None [Fin 1; Fin 1; Fin 1] (map (fun p => (Fin (fst p), Fin (snd p))) b) us = Ok [a; l; Fin 0].
Proof.
  exists [(1 / 100, 10); (3 / 100, 30); (0, 0)]. split; [|split].
  - unfold default_bounds, np_var, np_mean, rsuml, col_range, rmax_list, rmin_list. simpl.
    rewrite (Rmax_right 1 4), (Rmin_left 1 4), (Rmax_left 5 5), (Rmin_left 5 5) by lra.
    f_equal. f_equal; [f_equal; field|]. f_equal; [f_equal; field|]. f_equal. f_equal; field.
  - intro P. assert (Q := P (0, 0) (or_intror (or_intror (or_introl eq_refl)))). simpl in Q. lra.
  - intros us _. unfold choose_init. simpl.
    repeat (match goal with |- context [Rlt_dec ?x ?y] => destruct (Rlt_dec x y); try lra end; simpl).
    eexists. eexists. f_equal. f_equal. f_equal. f_equal. f_equal. ring.
Qed.
Print Assumptions default_bounds_refuted.

(** C126: gradient callables; [f] is in the documented form when it is written for the ram_economy that was passed *)
Definition documented (u : setup) : Prop :=
  (forall f, u_kgrad u = Some f -> (f = Econ <-> u_ram u = true)) /\ (forall f, u_ngrad u = Some f -> (f = Econ <-> u_ram u = true)).
Theorem gradient_calls_partial : forall u, documented u ->
  kernel_form u = called u /\
  (noise_form u <> called u <-> u_ram u = true /\ u_kernel u = false /\ u_gp2 u = false /\ u_kgrad u = None /\ u_ngrad u <> None).
Proof.
  intros [ra k g kg no ng] [D1 D2]. unfold kernel_form, noise_form, called, ram_in_force in *. simpl in *.
  assert (E1 : forall f, kg = Some f -> f = if ra then Econ else Full).
  { intros f Hf. destruct (D1 f Hf) as [A B]. destruct ra, f; auto; try (discriminate (B eq_refl)); discriminate (A eq_refl). }
  assert (E2 : forall f, ng = Some f -> f = if ra then Econ else Full).
  { intros f Hf. destruct (D2 f Hf) as [A B]. destruct ra, f; auto; try (discriminate (B eq_refl)); discriminate (A eq_refl). }
  destruct kg as [f|]; [rewrite (E1 f eq_refl)|]; (destruct ng as [f'|]; [rewrite (E2 f' eq_refl)|]);
    destruct ra, k, g; simpl; split; try reflexivity; intuition (try discriminate; try congruence).
Qed.
Print Assumptions gradient_calls_partial.

(** default kernel, ram_economy=True and a noise gradient f(x, h, direction): it is called as f(x, h) *)
Theorem gradient_calls_refuted : let u := Setup true false false None true (Some Econ) in
  documented u /\ noise_form u = Econ /\ called u = Full.
Proof. split; [|split; reflexivity]. split; intros f E; [discriminate|]. injection E as <-. split; reflexivity. Qed.
Print Assumptions gradient_calls_refuted.

Example gradient_calls_example : let u := Setup true true false None true (Some Econ) in documented u /\ noise_form u = called u /\ called u = Econ.
Proof. split; [|split; reflexivity]. split; intros f E; [discriminate|]. injection E as <-. split; reflexivity. Qed.

(** C133: stopping and killing, for HGDL under the contract of its two methods *)
Theorem kill_client_partial : forall (cancel kill : running -> running),
  (forall s, cancel s = Running false (t_client_alive s)) -> (forall s, kill s = Running false false) ->
  forall m s, is_async_method m = true ->
  stop_training cancel (returned_by m) s = Running false (t_client_alive s) /\
  t_runs (kill_client kill (returned_by m) s) = false /\
  (t_client_alive (kill_client kill (returned_by m) s) = false <-> m = MHgdl \/ t_client_alive s = false).
Proof.
  intros cancel kill HC HK m s A. destruct m; try discriminate; simpl; rewrite ?HC, ?HK; simpl; intuition discriminate.
Qed.
Print Assumptions kill_client_partial.
Theorem kill_client_refuted : forall (kill : running -> running) m, In m [MMcmc; MAdam; MBo] ->
  kill_client kill (returned_by m) (Running true true) = Running false true.
Proof. intros kill m [<-|[<-|[<-|[]]]]; reflexivity. Qed.
Print Assumptions kill_client_refuted.
