(** C167, C168: which arrays may be changed without changing a GP. *)
From Coq Require Import QArith.
From Verif Require Import Model.Prelude Spec.SharingSpec Model.Sharing Spec.SharingRules Proofs.SharingP.
Close Scope Q_scope.

(** A program that never writes into an array it passed to the constructor, to an overwriting update or as hyperparameters, nor into
    one it got from the object (a property, get_prior_pdf, train), gets the predictions of the data it handed over.  Arrays passed to
    an appending update, prediction points and predictions may be written at any time. *)
Theorem sharing_args_partial : forall (A W : Type) (dummy : A) join kern kern_block mean mean_append factor refactor post,
  append_exact join kern kern_block mean mean_append factor refactor ->
  (forall p, runs (W := W) dummy join kern kern_block mean mean_append factor refactor post start p -> tame 0 [] p ->
    owns join (fresh_answer kern mean factor post) (events dummy join kern kern_block mean mean_append factor refactor post start p)) /\
  (** and once something has been appended, no variable of the program shares x, y or the variances with the object any more *)
  (forall p x y n rk o v,
    let r := run (W := W) dummy join kern kern_block mean mean_append factor refactor post in
    runs (W := W) dummy join kern kern_block mean mean_append factor refactor post start p ->
    gp (r start p) <> None -> v < length (env (r start p)) ->
    gp (r start (p ++ [Append x y n rk])) = Some o -> ~ In (loc (r start (p ++ [Append x y n rk])) v) [ox o; oy o; on o]).
Proof.
  intros A W dummy join kern kern_block mean mean_append factor refactor post (H1 & H2 & H3). split.
  - intros p Hr Ht. eapply tame_owns; eauto.
  - intros p x y n rk o v r Hr Hg Hv Ho Hi. subst r. unfold run in *. rewrite fold_left_app in Ho, Hi. cbn [fold_left] in Ho, Hi.
    eapply (append_detaches (A := A) (W := W)); [|exact Ho|exact Hg|exact Hv|cbn [In] in *; intuition eauto].
    eapply (wf_run (A := A) (W := W)); [apply wf_start|exact Hr].
Qed.
Print Assumptions sharing_args_partial.

(** More generally a write does no harm when the object does not hold the array at that moment. *)
Theorem sharing_results_partial : forall (A W : Type) (dummy : A) join kern kern_block mean mean_append factor refactor post,
  append_exact join kern kern_block mean mean_append factor refactor ->
  forall p, runs (W := W) dummy join kern kern_block mean mean_append factor refactor post start p ->
    safe (W := W) dummy join kern kern_block mean mean_append factor refactor post start p ->
    owns join (fresh_answer kern mean factor post) (events dummy join kern kern_block mean mean_append factor refactor post start p).
Proof.
  intros A W dummy join kern kern_block mean mean_append factor refactor post (H1 & H2 & H3) p Hr Hs. eapply safe_owns; eauto.
Qed.
Print Assumptions sharing_results_partial.

(** A small GP: k(s,t) = h s t for s = t and 0 otherwise, prior mean 0; K is kept as its diagonal. *)
Module Small.
  Local Open Scope Q_scope.
  Definition arr := list Q.
  Definition amp (h : arr) : Q := nth 0 h 0.
  Definition kern (x h : arr) : arr := map (fun t => amp h * t * t) x.
  Definition kern_block (K xo xn h : arr) : arr := K ++ kern xn h.
  Definition mean (x y h : arr) : arr := map (fun _ => 0) x.
  Definition mean_append (m xn x y h : arr) : arr := m ++ map (fun _ => 0) xn.
  Fixpoint factor (K m n y : arr) : arr :=
    match K, m, n, y with k :: K', c :: m', v :: n', z :: y' => (z - c) / (k + v) :: factor K' m' n' y' | _, _, _, _ => [] end.
  Definition refactor (w : arr) := factor.
  Definition post (x y h w q : arr) : arr :=
    map (fun t => Qred (fold_right (fun p a => if Qeq_bool (fst p) t then amp h * t * fst p * snd p + a else a) 0 (combine x w))) q.
  Definition log := events (W := arr) [] (@app Q) kern kern_block mean mean_append factor refactor post start.
  Definition answer := fresh_answer kern mean factor post.
  Lemma exact : append_exact (@app Q) kern kern_block mean mean_append factor refactor.
  Proof. repeat split; intros; unfold kern_block, kern, mean_append, mean; rewrite ?map_app; reflexivity. Qed.
End Small.
Import Small.
Arguments Write {A} x%nat v. Arguments Init {A} x%nat y%nat n%nat h%nat. Arguments Append {A} x%nat y%nat n%nat rank_n.
Arguments Predict {A} q%nat. Arguments tame {A} k%nat kept%list p%list.

Local Open Scope Q_scope.
(** x = [3], y = [10], variance 1, h = 1; the program then overwrites its own array x with [2] and asks for the posterior mean at 2 *)
Definition edits_x : list (@op arr) :=
  [New [3]; New [10]; New [1]; New [1]; New [2]; Init 0 1 2 3; Write 0 [2]; Predict 4].
(** the same with the hyperparameter array, asking at 3 *)
Definition edits_h : list (@op arr) :=
  [New [3]; New [10]; New [1]; New [1]; New [3]; Init 0 1 2 3; Write 3 [2]; Predict 4].

(** The prediction is neither that of the data handed over nor that of the array as it is now. *)
Theorem sharing_args_refuted :
  append_exact (@app Q) kern kern_block mean mean_append factor refactor /\
  (log edits_x = [CInit [3] [10] [1] [1]; CPredict [2] [4]] /\ answer [3] [10] [1] [1] [2] = [0] /\ answer [2] [10] [1] [1] [2] = [8]) /\
  (log edits_h = [CInit [3] [10] [1] [1]; CPredict [3] [18]] /\ answer [3] [10] [1] [1] [3] = [9] /\
    answer [3] [10] [1] [2] [3] = [180 # 19]) /\
  ~ owns (@app Q) answer (log edits_x) /\ ~ owns (@app Q) answer (log edits_h).
Proof.
  assert (E1 : log edits_x = [CInit [3] [10] [1] [1]; CPredict [2] [4]]) by (vm_compute; reflexivity).
  assert (E2 : log edits_h = [CInit [3] [10] [1] [1]; CPredict [3] [18]]) by (vm_compute; reflexivity).
  split; [exact Small.exact|].
  split; [split; [exact E1|split; vm_compute; reflexivity]|].
  split; [split; [exact E2|split; vm_compute; reflexivity]|].
  split; intros H.
  - destruct (H [CInit [3] [10] [1] [1]] [2] [4] [] E1) as (x&y&n&h&G&R). injection G as <- <- <- <-.
    vm_compute in R; discriminate.
  - destruct (H [CInit [3] [10] [1] [1]] [3] [18] [] E2) as (x&y&n&h&G&R). injection G as <- <- <- <-.
    vm_compute in R; discriminate.
Qed.
Print Assumptions sharing_args_refuted.

(** h = gp.hyperparameters; h[:] = 2 *)
Definition edits_property : list (@op arr) :=
  [New [3]; New [10]; New [1]; New [1]; New [3]; Init 0 1 2 3; GetH; Write 5 [2]; Predict 4].
(** h = gp.train(); h[:] = 2 *)
Definition edits_trained : list (@op arr) :=
  [New [3]; New [10]; New [1]; New [7]; New [3]; Init 0 1 2 3; Train [1]; Write 5 [2]; Predict 4].
(** K = gp.get_prior_pdf()[...]; K[:] = 0, then more data *)
Definition edits_prior : list (@op arr) :=
  [New [3]; New [10]; New [1]; New [1]; New [3]; New [5]; New [1]; New [1]; Init 0 1 2 3; GetK; Write 8 [0]; Append 5 6 7 true; Predict 4].
Theorem sharing_results_refuted :
  log edits_property = [CInit [3] [10] [1] [1]; CPredict [3] [18]] /\
  log edits_trained = [CInit [3] [10] [1] [7]; CSetHps [1]; CPredict [3] [18]] /\
  log edits_prior = [CInit [3] [10] [1] [1]; CAppend [5] [1] [1]; CPredict [3] [90]] /\
  answer [3] [10] [1] [1] [3] = [9] /\ answer [3; 5] [10; 1] [1; 1] [1] [3] = [9] /\
  ~ owns (@app Q) answer (log edits_property) /\ ~ owns (@app Q) answer (log edits_trained) /\ ~ owns (@app Q) answer (log edits_prior).
Proof.
  assert (E1 : log edits_property = [CInit [3] [10] [1] [1]; CPredict [3] [18]]) by (vm_compute; reflexivity).
  assert (E2 : log edits_trained = [CInit [3] [10] [1] [7]; CSetHps [1]; CPredict [3] [18]]) by (vm_compute; reflexivity).
  assert (E3 : log edits_prior = [CInit [3] [10] [1] [1]; CAppend [5] [1] [1]; CPredict [3] [90]]) by (vm_compute; reflexivity).
  split; [exact E1|]. split; [exact E2|]. split; [exact E3|]. split; [vm_compute; reflexivity|]. split; [vm_compute; reflexivity|].
  split; [|split]; intros H.
  - destruct (H [CInit [3] [10] [1] [1]] [3] [18] [] E1) as (x&y&n&h&G&R). injection G as <- <- <- <-. vm_compute in R; discriminate.
  - destruct (H [CInit [3] [10] [1] [7]; CSetHps [1]] [3] [18] [] E2) as (x&y&n&h&G&R). injection G as <- <- <- <-. vm_compute in R; discriminate.
  - destruct (H [CInit [3] [10] [1] [1]; CAppend [5] [1] [1]] [3] [90] [] E3) as (x&y&n&h&G&R). injection G as <- <- <- <-.
    vm_compute in R; discriminate.
Qed.
Print Assumptions sharing_results_refuted.

(** A program that follows the rule: it writes into what it appended and into a prediction. *)
Definition careful : list (@op arr) :=
  [New [3]; New [10]; New [1]; New [1]; New [5]; Init 0 1 2 3; New [5]; New [26]; New [1]; Append 5 6 7 true;
   Write 5 [8]; Write 6 [0]; Write 4 [5]; Predict 4; Write 8 [0]; Predict 4].
Example sharing_ex : log careful = [CInit [3] [10] [1] [1]; CAppend [5] [26] [1]; CPredict [5] [25]; CPredict [5] [25]] /\ tame 0 [] careful /\
  runs (W := arr) [] (@app Q) kern kern_block mean mean_append factor refactor post start careful.
Proof.
  split; [vm_compute; reflexivity|]. split.
  - cbn; repeat match goal with |- _ /\ _ => split end; auto; intuition discriminate.
  - cbn -[factor kern mean post kern_block mean_append]; repeat match goal with |- _ /\ _ => split end; auto; try discriminate; lia.
Qed.
