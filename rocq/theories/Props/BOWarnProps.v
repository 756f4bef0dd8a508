(** Property C151: a BO run that cannot use its surrogate is announced. *)
From Coq Require Import Reals Lia.
From Verif Require Import Model.Prelude Model.Ext Model.BO Model.BOWarn Props.BOProps.
Local Open Scope nat_scope.

Section W.
Variables (c : bo_cfg) (tf : list dimt).
Variable objective : nat -> list R -> option ext.
Variable noise_function : option (nat -> list R -> option ext).
Variable fixed_noise : option R.
Variable early_stop : nat -> bool.
Variables (sobol : nat -> list R) (init : list R).
(** a run with a given surrogate: how it is fitted, what it proposes, what it predicts *)
Definition with_surrogate {G} (fit : list ev -> option G) acquire pm :=
  bayesian_optimize c tf objective noise_function fixed_noise early_stop G fit acquire pm sobol init.
Let warned := In WDesignOnly (bo_warnings (n_init_arg c) (Z.of_nat (length tf)) (max_iter c)).
Let n0 := design_size (n_init_arg c) (Z.of_nat (length tf)) (max_iter c).
Lemma warnedE : warned <-> (max_iter c <= n0)%Z.
Proof.
  unfold warned, bo_warnings, n0, design_size. set (n := Z.max 2 _). destruct (Z.leb_spec (max_iter c) n) as [L|L].
  - split; [intros _; exact L|intros _; left; reflexivity].
  - split; [|lia]. cbn [app]. destruct (Z.ltb 20 _); [intros [E|[]]; discriminate E|]. destruct (Z.ltb 10 _); [intros [E|[]]; discriminate E|intros []].
Qed.
Lemma design_length us : forall evs cbs polls evs' cbs' polls', design tf objective noise_function fixed_noise early_stop us evs cbs polls = Some (evs', cbs', polls', false) ->
  length evs' = length evs + length us.
Proof.
  induction us as [|u us IH]; intros evs cbs polls evs' cbs' polls' E; cbn [design] in E; [injection E as <- <- <-; simpl; lia|].
  destruct (early_stop polls); [discriminate|]. unfold evaluate in E. destruct (objective _ _) as [v|]; [|discriminate].
  apply IH in E. rewrite app_length in E. simpl in *. lia.
Qed.
Lemma us_length : length (to_unit tf init :: map sobol (seq 1 (Z.to_nat n0 - 1))) = Z.to_nat n0.
Proof. assert (2 <= n0)%Z by (unfold n0, design_size; lia). simpl. rewrite map_length, seq_length. lia. Qed.

(** C151: with the warning the result is the same whatever the surrogate does: the run is the space-filling design ... *)
Lemma warned_random : warned -> forall G G' (fit : list ev -> option G) acquire pm (fit' : list ev -> option G') acquire' pm',
  with_surrogate fit acquire pm = with_surrogate fit' acquire' pm'.
Proof.
  intros W. apply warnedE in W. intros. unfold with_surrogate, bayesian_optimize. fold n0. set (us := to_unit tf init :: _).
  destruct (design tf objective noise_function fixed_noise early_stop us [] [] 0) as [[[[evs cbs] polls] [|]]|] eqn:E; [|..|reflexivity].
  - destruct (Nat.eqb _ _); [reflexivity|]. unfold recommend. reflexivity.
  - apply design_length in E. unfold us in E. rewrite us_length in E. simpl in E.
    assert (2 <= n0)%Z by (unfold n0, design_size; lia).
    replace (Z.to_nat (max_iter c - Z.of_nat (length evs))) with 0 by lia. cbn [search]. reflexivity.
Qed.
(** ... and without it, unless stopped or interrupted by an error, the surrogate is consulted: if it fails, the run fails *)
Lemma unwarned_consults : ~ warned -> (forall i x, objective i x <> None) -> (forall k, early_stop k = false) ->
  forall G (g : G) pm, with_surrogate (fun _ => Some g) (fun _ _ => None) pm = Err ESurrogate.
Proof.
  intros W Ho Hs G g pm. rewrite warnedE in W. unfold with_surrogate, bayesian_optimize. fold n0. set (us := to_unit tf init :: _).
  assert (D : forall l evs cbs polls, exists evs' cbs' polls', design tf objective noise_function fixed_noise early_stop l evs cbs polls = Some (evs', cbs', polls', false)).
  { induction l as [|u l IH]; intros; cbn [design]; [eauto|]. rewrite Hs. unfold evaluate. destruct (objective _ _) as [v|] eqn:Ev; [apply IH|].
    exfalso. exact (Ho _ _ Ev). }
  destruct (D us [] [] 0) as (evs & cbs & polls & E). rewrite E. apply design_length in E. unfold us in E. rewrite us_length in E. simpl in E.
  assert (2 <= n0)%Z by (unfold n0, design_size; lia).
  destruct (Z.to_nat (max_iter c - Z.of_nat (length evs))) as [|left] eqn:L; [lia|]. cbn [search]. now rewrite Hs.
Qed.
End W.

Theorem bo_warning_exact : forall c tf objective noise_function fixed_noise early_stop sobol init,
  let run G := @with_surrogate c tf objective noise_function fixed_noise early_stop sobol init G in
  let warned := In WDesignOnly (bo_warnings (n_init_arg c) (Z.of_nat (length tf)) (max_iter c)) in
  (warned -> forall G G' fit acquire pm fit' acquire' pm', run G fit acquire pm = run G' fit' acquire' pm') /\
  (~ warned -> (forall i x, objective i x <> None) -> (forall k, early_stop k = false) ->
   forall G (g : G) pm, run G (fun _ => Some g) (fun _ _ => None) pm = Err ESurrogate).
Proof. intros. split; [apply warned_random|apply unwarned_consults]. Qed.
Print Assumptions bo_warning_exact.
(** default design in two dimensions: six points; a budget of 6 is warned about, one of 7 is not; 21 hyperparameters *)
Example bo_warning_example : bo_warnings None 2 6 = [WDesignOnly] /\ bo_warnings None 2 7 = [] /\
  bo_warnings (Some 50%Z) 21 40 = [WDesignOnly; WFarTooMany] /\ bo_warnings None 11 100 = [WMany].
Proof. repeat split. Qed.
