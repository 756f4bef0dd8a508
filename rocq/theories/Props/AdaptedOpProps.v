(** The operator of a preconditioner hands every column to the factor: C193. *)
From Coq Require Import Reals Lra List ZArith Lia.
From Flocq Require Import Core.
From Verif Require Import Model.Prelude Model.DeepKernel Model.AdaptedOp Spec.AdaptedOpSpec.
Import ListNotations.
Local Open Scope R_scope.

Lemma apply_float64 solve v : apply_vec solve Float64 v = solve v.
Proof. unfold apply_vec, cast. rewrite !map_id. reflexivity. Qed.

(** C193, the part that holds: whenever the factor is computed for float64 (always, except for ILU of a matrix of another type) the operator is the factor,
    several columns are treated one by one, and so it is self-adjoint and positive if the factor is.  Missing: other types. *)
Theorem operator_is_factor_partial : forall k kv solve, k <> ILU \/ kv = Float64 ->
  (forall v, operator k kv solve (Vec v) = Ok (Vec (solve v))) /\
  (forall c, c <> [] -> exists o, operator k kv solve (Cols c) = Ok (Cols o) /\ length o = length c /\ forall i v, nth_error c i = Some v -> nth_error o i = Some (solve v)) /\
  forall n, exists f, (forall v, operator k kv solve (Vec v) = Ok (Vec (f v))) /\ (self_adjoint n solve -> self_adjoint n f) /\ (positive n solve -> positive n f).
Proof.
intros k kv solve H. assert (E : match k with ILU => kv | _ => Float64 end = Float64) by (destruct k; [reflexivity|destruct H as [H|H]; [congruence|exact H]|reflexivity]).
unfold operator. rewrite E. split; [|split].
- intros v. cbn. now rewrite apply_float64.
- intros [|v c] N; [congruence|]. eexists. split; [reflexivity|]. split; [now rewrite map_length|]. intros i w I. rewrite nth_error_map, I. cbn. now rewrite apply_float64.
- intros n. exists solve. split; [intros v; cbn; now rewrite apply_float64|]. auto.
Qed.

Lemma trunc_half : Ztrunc (/ 2) = 0%Z.
Proof. rewrite Ztrunc_floor by lra. apply Zfloor_imp. simpl. lra. Qed.
Lemma trunc_one : Ztrunc 1 = 1%Z.
Proof. apply (Ztrunc_IZR 1). Qed.
(** C193 fails for ILU of an integer matrix: with the exact factor of the unit matrix, a residual of one half is mapped to zero, and the operator is not
    self-adjoint. *)
Theorem operator_is_factor_refuted : exists solve, self_adjoint 1 solve /\ positive 1 solve /\
  exists f, (forall v, operator ILU IntType solve (Vec v) = Ok (Vec (f v))) /\ f [/ 2] = [0] /\ ~ self_adjoint 1 f /\ ~ positive 1 f.
Proof.
exists (fun v => v). split; [intros a b _ _; reflexivity|]. split.
{ intros [|x [|y a]] L N; cbn in L; try lia. cbn. assert (x <> 0) by (intros ->; apply N; reflexivity). assert (0 < x * x) by (apply Rsqr_pos_lt; assumption). lra. }
exists (apply_vec (fun v => v) IntType). split; [reflexivity|]. assert (F : apply_vec (fun v => v) IntType [/ 2] = [0]) by (unfold apply_vec, cast; cbn; rewrite trunc_half; reflexivity).
assert (G : apply_vec (fun v => v) IntType [1] = [1]) by (unfold apply_vec, cast; cbn; rewrite trunc_one; reflexivity).
split; [exact F|]. split.
- intros S. specialize (S [/ 2] [1] eq_refl eq_refl). rewrite F, G in S. cbn in S. lra.
- intros P. specialize (P [/ 2] eq_refl). rewrite F in P. cbn in P. assert (0 < / 2 * 0 + 0); [|lra]. apply P. intros [= X]. lra.
Qed.
Print Assumptions operator_is_factor_partial. Print Assumptions operator_is_factor_refuted.

(** a factor that halves, applied to two columns at once; the same with integers *)
Example operator_ex : operator ILU Float64 (map (fun x => x / 2)) (Cols [[1; 4]; [3; 0]]) = Ok (Cols [[1 / 2; 4 / 2]; [3 / 2; 0 / 2]]) /\
  operator NativeIC IntType (map (fun x => x / 2)) (Vec [/ 2]) = Ok (Vec [/ 2 / 2]) /\ operator ILU IntType (map (fun x => x / 2)) (Vec [/ 2]) = Ok (Vec [0 / 2]) /\
  operator ILU Float64 (fun v => v) (Cols []) = Err AStack.
Proof. repeat split. cbn. unfold apply_vec, cast. cbn. now rewrite trunc_half. Qed.
