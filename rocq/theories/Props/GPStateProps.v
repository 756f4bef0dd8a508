(** Properties C04, C05: incremental updates agree with a GP built from scratch. *)
From Coq Require Import QArith Qabs.
From Verif Require Import Model.Prelude Model.GPState Spec.GPStateSpec Proofs.GPStateP.
Close Scope Q_scope.

(** concrete callables for the examples: points and hyperparameters are rationals *)
Definition exq_kernel (xs ys : list Q) (h : Q) : list (list Q) :=
  map (fun x => map (fun y => Qred (h * (1 / (1 + (x - y) * (x - y))))%Q) ys) xs.
Definition exq_mean (l : list Q) : Q := Qred (fold_right Qplus 0%Q l / inject_Z (Z.of_nat (length l)))%Q.
(** (mean|y| / 100)^2, gp_likelihood.py 103 *)
Definition exq_defnoise (y : list Q) : Q :=
  let a := (exq_mean (map Qabs y) / (100 # 1))%Q in Qred (a * a)%Q.
Definition exq_add (a b : Q) : Q := Qred (a + b)%Q.

Lemma exq_kernel_sym : symmetric_kernel exq_kernel.
Proof.
  exists (fun x y h => Qred (h * (1 / (1 + (x - y) * (x - y))))%Q). split; [|reflexivity].
  intros x y h. apply Qred_complete. assert (E : ((x - y) * (x - y) == (y - x) * (y - x))%Q) by ring.
  now rewrite E.
Qed.

(** C04 *)
Theorem incremental_prior : forall {P F H : Type} (f0 : F) (fadd : F -> F -> F)
    (kernel : list P -> list P -> H -> list (list F)) (user_mean : option (list P -> H -> list F))
    (favg defnoise : list F -> F) (noise : noise_model) (rank_mode : bool),
  symmetric_kernel kernel ->
  match user_mean with Some f => pointwise_mean f | None => True end ->
  forall x y nv h s0 os s d,
  build f0 fadd kernel user_mean favg defnoise noise rank_mode x y nv h = Some s0 ->
  gsteps f0 fadd kernel user_mean favg defnoise noise rank_mode s0 os = Some s ->
  history (DS x y nv h) os = d ->
  exists t, build f0 fadd kernel user_mean favg defnoise noise rank_mode (ds_x d) (ds_y d) (ds_nv d) (ds_h d) = Some t
            /\ pm t = pm s /\ pK t = pK s /\ pV t = pV s.
Proof. exact (@incremental_prior_l). Qed.
Print Assumptions incremental_prior.

(** a rank-n append, new hyperparameters and another append, with the default mean and noise *)
Example incremental_prior_ex :
  let b := build 0%Q exq_add exq_kernel None exq_mean exq_defnoise NoiseDefault true in
  let g := gsteps 0%Q exq_add exq_kernel None exq_mean exq_defnoise NoiseDefault true in
  exists s0 s, b [0%Q; 1%Q] [1%Q; 1%Q] [] 1%Q = Some s0 /\
    g s0 [GAppend true [2%Q] [5%Q] []; GSetHps 2%Q; GAppend false [3%Q; 4%Q] [0%Q; 1%Q] []] = Some s /\
    length (pK s) = 5 /\ nth 0 (pm s) 0%Q = (8#5)%Q.
Proof. cbv zeta. eexists. eexists. split; [vm_compute; reflexivity|]. split; [vm_compute; reflexivity|]. split; vm_compute; reflexivity. Qed.

(** C05: refuted for the default noise.  After a rank-n append the factorization is not that of K+V,
    because the default noise level of the old points has moved with the mean of |y|. *)
Theorem incremental_factor_refuted :
  let b := build 0%Q exq_add exq_kernel None exq_mean exq_defnoise NoiseDefault true in
  let g := gsteps 0%Q exq_add exq_kernel None exq_mean exq_defnoise NoiseDefault true in
  exists s0 s t, b [0%Q; 1%Q] [1%Q; 1%Q] [] 1%Q = Some s0 /\
    g s0 [GAppend true [2%Q] [5%Q] []] = Some s /\
    b [0%Q; 1%Q; 2%Q] [1%Q; 1%Q; 5%Q] [] 1%Q = Some t /\
    ~ (mget 0%Q (factored s) 0 0 == mget 0%Q (factored t) 0 0)%Q.
Proof.
  cbv zeta. eexists. eexists. eexists. split; [vm_compute; reflexivity|]. split; [vm_compute; reflexivity|].
  split; [vm_compute; reflexivity|]. vm_compute. discriminate.
Qed.
Print Assumptions incremental_factor_refuted.

(** C05, the part that holds: for measured noise variances (one per point) and for noise functions
    that act point by point (or pair by pair), every history of appends with and without rank-n
    updates, overwrites and hyperparameter changes ends in the state of a GP built from scratch, and
    the factored matrix is K+V.  Missing: the default noise model (refuted above). *)
Theorem incremental_factor_partial : forall {P F H : Type} (f0 : F) (fadd : F -> F -> F)
    (kernel : list P -> list P -> H -> list (list F)) (user_mean : option (list P -> H -> list F))
    (favg defnoise : list F -> F) (noise : noise_model) (rank_mode : bool),
  symmetric_kernel kernel ->
  match user_mean with Some f => pointwise_mean f | None => True end ->
  stable_noise noise ->
  forall x y nv h s0 os s d,
  build f0 fadd kernel user_mean favg defnoise noise rank_mode x y nv h = Some s0 ->
  length nv = length x -> (forall o, In o os -> aligned o) ->
  gsteps f0 fadd kernel user_mean favg defnoise noise rank_mode s0 os = Some s ->
  history (DS x y nv h) os = d ->
  build f0 fadd kernel user_mean favg defnoise noise rank_mode (ds_x d) (ds_y d) (ds_nv d) (ds_h d) = Some s
  /\ addKV f0 fadd (pK s) (pV s) = Some (factored s).
Proof. exact (@incremental_factor_l). Qed.
Print Assumptions incremental_factor_partial.

Example incremental_factor_ex :
  let b := build 0%Q exq_add exq_kernel None exq_mean exq_defnoise NoiseMeasured true in
  let g := gsteps 0%Q exq_add exq_kernel None exq_mean exq_defnoise NoiseMeasured true in
  symmetric_kernel exq_kernel /\
  exists s0 s, b [0%Q; 1%Q] [1%Q; 1%Q] [1#10; 1#5]%Q 1%Q = Some s0 /\
    g s0 [GAppend true [2%Q] [5%Q] [1#2]%Q; GSetHps 2%Q; GAppend true [3%Q; 4%Q] [0%Q; 1%Q] [1#3; 1#4]%Q] = Some s /\
    mget 0%Q (factored s) 0 0 = (21#10)%Q /\ mget 0%Q (factored s) 4 0 = (2#17)%Q.
Proof.
  cbv zeta. split; [exact exq_kernel_sym|].
  eexists. eexists. split; [vm_compute; reflexivity|]. split; [vm_compute; reflexivity|]. split; vm_compute; reflexivity.
Qed.
