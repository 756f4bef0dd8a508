(** Properties C141 and C142: which GPU is used. *)
From Coq Require Import String Lia.
From Verif Require Import Model.Prelude Model.LinalgCfg Model.GpuEngine.
Local Open Scope nat_scope.
Local Open Scope string_scope.

(** what the packages may answer: an available CUDA has a current device among those it counts *)
Definition sane (m : machine) : Prop := cuda_available m = true -> cuda_current m < cuda_count m.
(** the device is a GPU of the machine *)
Definition is_gpu (m : machine) (d : device) : Prop :=
  match d_kind d with
  | Cuda => cuda_available m = true /\ (forall i, d_index d = Some i -> (0 <= i < Z.of_nat (cuda_count m))%Z)
  | Mps => mps_backend m = true /\ mps_available m = true
  | Other => False
  end.
(** a call that was asked to run on the GPU does so, or computes on the CPU and says so in one warning *)
Definition honest (m : machine) (r : res gexn (place * list warning)) : Prop :=
  match r with
  | Ok (OnTorch d, w) => torch_found m = true /\ is_gpu m d /\ w = []
  | Ok (OnCupy, w) => cupy_found m = true /\ (exists n, cupy_count m = Some n /\ 0 < n) /\ w = []
  | Ok (OnCpu, w) => length w = 1
  | Err _ => False
  end.
(** what the user wrote names devices that exist, or kinds of GPU that are absent altogether *)
Definition sensible (m : machine) (a : gargs) : Prop :=
  match g_device a with
  | Some s => forall d, parse m s = Some d -> match d_kind d with
                | Cuda => cuda_available m = true -> is_gpu m d
                | Mps => True
                | Other => False end
  | None => cuda_available m = true -> forall i, g_index a = Some i -> (0 <= i < Z.of_nat (cuda_count m))%Z
  end.

Lemma torch_dev m a : sane m -> sensible m a ->
  match torch_gpu_device m a with
  | Ok (Some d) => torch_found m = true /\ is_gpu m d
  | Ok None => True
  | Err _ => False end.
Proof.
  intros S H. unfold torch_gpu_device, sensible in *. destruct (torch_found m) eqn:T; [|exact I].
  destruct (g_device a) as [s|].
  - destruct (parse m s) as [d|] eqn:P; [|exact I]. specialize (H d eq_refl). destruct (d_kind d) eqn:K.
    + destruct (cuda_available m); [|exact I]. split; auto.
    + destruct (mps_backend m && mps_available m) eqn:B; [|exact I]. apply andb_prop in B. unfold is_gpu. rewrite K. tauto.
    + destruct H.
  - destruct (cuda_available m) eqn:C.
    + set (i := match g_index a with Some i => i | None => _ end).
      assert (0 <= i < Z.of_nat (cuda_count m))%Z as B.
      { unfold i. destruct (g_index a) as [j|] eqn:G; [apply H; auto|].
        specialize (S C). destruct (Nat.ltb_spec 0 (cuda_count m)); lia. }
      destruct (Z.ltb_spec i 0); [lia|]. split; [reflexivity|]. simpl. split; [exact C|]. intros j [= <-]. exact B.
    + destruct (mps_backend m && mps_available m) eqn:B; [|exact I]. apply andb_prop in B. unfold is_gpu. simpl. tauto.
Qed.
Lemma cupy_dev m : cupy_gpu_available m = true -> cupy_found m = true /\ exists n, cupy_count m = Some n /\ 0 < n.
Proof.
  unfold cupy_gpu_available. destruct (cupy_found m); [|discriminate]. destruct (cupy_count m) as [n|]; [|discriminate].
  intros H. apply Nat.ltb_lt in H. eauto.
Qed.

(** C141 for devices that exist *)
Theorem gpu_request_partial : forall m a, sane m -> sensible m a -> honest m (place_of m a).
Proof.
  intros m a S H. pose proof (torch_dev m a S H) as T. pose proof (cupy_dev m) as C. unfold place_of, get_gpu_engine, unavailable_reason.
  destruct (g_engine a) as [s|].
  - destruct (engine_of s) as [[|]|] eqn:E; [| |reflexivity].
    + destruct (torch_found m) eqn:F; [|reflexivity].
      destruct (torch_gpu_device m a) as [[d|]|]; [|reflexivity|contradiction]. simpl. tauto.
    + destruct (cupy_found m) eqn:F; [|reflexivity]. destruct (cupy_gpu_available m); [|reflexivity].
      simpl. destruct (C eq_refl). auto.
  - destruct (torch_gpu_device m a) as [[d|]|]; [|destruct (cupy_gpu_available m)|contradiction]; simpl; [tauto| |reflexivity].
    destruct (C eq_refl). auto.
Qed.
Print Assumptions gpu_request_partial.

(** the engine that is used is the one asked for, in any spelling; and an engine is refused only if it has no device *)
Theorem gpu_engine_requested : forall m a s e w, g_engine a = Some s -> get_gpu_engine m a = Ok (e, w) ->
  match e with
  | Some Torch => In (lower s) ["torch"; "pytorch"] /\ exists d, torch_gpu_device m a = Ok (Some d)
  | Some Cupy => lower s = "cupy" /\ exists n, cupy_count m = Some (S n)
  | None => (In (lower s) ["torch"; "pytorch"] -> torch_gpu_device m a = Ok None) /\
            (lower s = "cupy" -> cupy_found m = true -> forall n, cupy_count m = Some n -> n = 0)
  end.
Proof.
  intros m a s e w G. unfold get_gpu_engine, unavailable_reason. rewrite G.
  assert (E : match engine_of s with Some Torch => In (lower s) ["torch"; "pytorch"] | Some Cupy => lower s = "cupy" /\ ~ In (lower s) ["torch"; "pytorch"]
              | None => lower s <> "cupy" /\ ~ In (lower s) ["torch"; "pytorch"] end).
  { unfold engine_of. destruct (String.eqb_spec (lower s) "torch") as [->|N1]; [simpl; auto|].
    destruct (String.eqb_spec (lower s) "pytorch") as [->|N2]; [simpl; auto|].
    destruct (String.eqb_spec (lower s) "cupy") as [->|N3].
    - split; [reflexivity|]. intros [H|[H|[]]]; discriminate H.
    - split; [exact N3|]. intros [H|[H|[]]]; congruence. }
  destruct (engine_of s) as [[|]|].
  - destruct (torch_found m) eqn:F.
    + destruct (torch_gpu_device m a) as [[d|]|] eqn:T; try discriminate; intros [= <- _]; simpl.
      * split; [exact E|eauto].
      * split; [auto|]. intros C. rewrite C in E. destruct E as [H|[H|[]]]; discriminate H.
    + intros [= <- _]. split; [intros _; unfold torch_gpu_device; now rewrite F|].
      intros C. rewrite C in E. destruct E as [H|[H|[]]]; discriminate H.
  - destruct E as [E N]. destruct (cupy_found m) eqn:F.
    + unfold cupy_gpu_available. rewrite F. destruct (cupy_count m) as [[|n]|]; simpl; intros [= <- _].
      * split; [intros H; elim N; exact H|]. intros _ _ n [= <-]. reflexivity.
      * split; [exact E|]. eauto.
      * split; [intros H; elim N; exact H|]. intros _ _ n [=].
    + intros [= <- _]. split; [intros H; elim N; exact H|discriminate].
  - intros [= <- _]. split; [intros H; destruct E as [_ N]; elim N; exact H|intros H; destruct E as [N _]; elim N; exact H].
Qed.
Print Assumptions gpu_engine_requested.

(** a machine with two CUDA devices, seen by torch and cupy *)
Definition parse0 (s : string) : option device :=
  if String.eqb s "cpu" then Some (Device Other None) else if String.eqb s "mps" then Some (Device Mps None) else
  if String.eqb s "cuda" then Some (Device Cuda None) else if String.eqb s "cuda:1" then Some (Device Cuda (Some 1%Z)) else
  if String.eqb s "cuda:7" then Some (Device Cuda (Some 7%Z)) else None.
Definition workstation := Machine true parse0 true 2 0 false false true (Some 2).
(** the same packages on a machine without GPU *)
Definition laptop := Machine true parse0 false 0 0 false false false None.
Example gpu_request_example : honest workstation (place_of workstation (GArgs (Some "PyTorch") (Some "cuda:1") None)) /\
  place_of workstation (GArgs (Some "PyTorch") (Some "cuda:1") None) = Ok (OnTorch (Device Cuda (Some 1%Z)), []) /\
  place_of laptop no_args = Ok (OnCpu, [WNoBackend]).
Proof.
  split; [|split; reflexivity]. apply gpu_request_partial; [intros _; apply Nat.lt_0_succ|].
  intros d [= <-]. intros _. split; [reflexivity|]. intros i [= <-]. simpl. lia.
Qed.

(** C141: GPU_device = "cpu" counts as a usable GPU, on every machine with torch: the work is done on the CPU without a
    warning.  A CUDA index that does not exist is taken, too. *)
Theorem gpu_request_refuted :
  (forall m a s, torch_found m = true -> g_device a = Some s -> parse m s = Some (Device Other None) -> g_engine a = None ->
     get_gpu_engine m a = Ok (Some Torch, []) /\ place_of m a = Ok (OnTorch (Device Other None), []) /\ ~ honest m (place_of m a)) /\
  sane laptop /\ ~ honest laptop (place_of laptop (GArgs None (Some "cpu") None)) /\
  sane workstation /\ ~ honest workstation (place_of workstation (GArgs None (Some "cuda:7") None)) /\
  place_of workstation (GArgs None None (Some (-1)%Z)) = Err BadDevice.
Proof.
  assert (G : forall m a s, torch_found m = true -> g_device a = Some s -> parse m s = Some (Device Other None) -> g_engine a = None ->
     get_gpu_engine m a = Ok (Some Torch, []) /\ place_of m a = Ok (OnTorch (Device Other None), []) /\ ~ honest m (place_of m a)).
  { intros m a s T D P E. assert (torch_gpu_device m a = Ok (Some (Device Other None))) as X by (unfold torch_gpu_device; now rewrite T, D, P).
    assert (get_gpu_engine m a = Ok (Some Torch, [])) as Y by (unfold get_gpu_engine; now rewrite E, X).
    unfold place_of. rewrite Y, X. split; [reflexivity|]. split; [reflexivity|]. intros (_ & H & _). exact H. }
  split; [exact G|]. split; [discriminate|]. split; [apply (G laptop _ "cpu"); reflexivity|].
  split; [intros _; apply Nat.lt_0_succ|]. split; [|reflexivity].
  intros (_ & H & _). destruct H as (_ & H). specialize (H 7%Z eq_refl). simpl in H. lia.
Qed.
Print Assumptions gpu_request_refuted.

(** C142: with the torch engine, the evaluations of the likelihood run on the device named in args. *)
Theorem gpu_device_obeyed_partial : forall m a s d p w, g_device a = Some s -> parse m s = Some d ->
  call_place m a Likelihood = Ok (p, w) -> p <> OnCupy -> p <> OnCpu -> p = OnTorch d.
Proof.
  intros m a s d p w G P. unfold call_place, call_args, place_of.
  destruct (get_gpu_engine m a) as [[[[|]|] w']|] eqn:E; try discriminate; try (intros [= <- _]; congruence).
  destruct (torch_gpu_device m a) as [[d'|]|] eqn:T; try discriminate; intros [= <- <-] _ _.
  - unfold torch_gpu_device in T. rewrite G, P in T. destruct (torch_found m); [|discriminate].
    destruct (d_kind d); [destruct (cuda_available m)|destruct (mps_backend m && mps_available m)|]; congruence.
  - exfalso. unfold get_gpu_engine, unavailable_reason in E. rewrite T in E. destruct (g_engine a) as [t|].
    + destruct (engine_of t) as [[|]|] eqn:Et; try discriminate.
      * destruct (torch_found m); discriminate.
      * destruct (cupy_found m); [|discriminate]. destruct (cupy_gpu_available m); discriminate.
    + destruct (cupy_gpu_available m); discriminate.
Qed.
Print Assumptions gpu_device_obeyed_partial.
Example gpu_device_obeyed_example : call_place workstation (GArgs None (Some "cuda:1") None) Likelihood = Ok (OnTorch (Device Cuda (Some 1%Z)), []).
Proof. reflexivity. Qed.

(** The gradient forgets the device, cupy ignores it, and an absent device is replaced silently by another engine's. *)
Theorem gpu_device_obeyed_refuted :
  call_place workstation (GArgs (Some "torch") (Some "cuda:1") None) Likelihood = Ok (OnTorch (Device Cuda (Some 1%Z)), []) /\
  call_place workstation (GArgs (Some "torch") (Some "cuda:1") None) Gradient = Ok (OnTorch (Device Cuda (Some 0%Z)), []) /\
  call_place workstation (GArgs (Some "cupy") (Some "cuda:1") None) Likelihood = Ok (OnCupy, []) /\
  call_place workstation (GArgs (Some "cupy") None None) Gradient = Ok (OnTorch (Device Cuda (Some 0%Z)), []) /\
  call_place workstation (GArgs None (Some "mps") None) Likelihood = Ok (OnCupy, []).
Proof. repeat split. Qed.
Print Assumptions gpu_device_obeyed_refuted.
