(** Properties C09-C12 and C58: distributed covariance. *)
From Verif Require Import Model.Prelude Model.Gp2Scale Spec.Gp2ScaleSpec Proofs.Gp2ScaleP Proofs.Gp2ScaleHistP.
Local Open Scope nat_scope.

(** C09 *)
Theorem ranges_partition : forall n b,
  chain 0 (ranges n b) n /\
  (forall r, In r (ranges n b) -> snd r - fst r <= Z.to_nat (Z.max 1 b)) /\
  (forall i, i < n -> exists r, In r (ranges n b) /\ fst r <= i < snd r /\
     forall q, In q (ranges n b) -> fst q <= i < snd q -> q = r).
Proof.
  intros n b. destruct (ranges_chain n b) as [Hc Hw]. split; [exact Hc|]. split; [exact Hw|].
  intros i Hi. destruct (chain_pick _ _ _ i Hc) as (l1 & r & l2 & E & Hr & Hn); [lia|].
  exists r. split; [rewrite E; apply in_or_app; cbn; auto|]. split; [lia|].
  intros q Hq Hin. rewrite E in Hq. apply in_app_or in Hq as [Hq|[Hq|Hq]]; [|auto|];
    exfalso; apply (Hn q); auto using in_or_app.
Qed.
Print Assumptions ranges_partition.
Example ranges_partition_ex : ranges 7 3 = [(0, 3); (3, 6); (6, 7)] /\ ranges 2 (-4) = [(0, 1); (1, 2)] /\ ranges 0 5 = [].
Proof. repeat split. Qed.

(** C10 *)
Theorem distributed_is_kernel_matrix : forall {P H F : Type} (f0 : F) fadd isz
  (kernel : list P -> list P -> H -> res cexn (@kout F)) (k : P -> P -> H -> F),
  (forall a b, fadd a b = fadd b a) -> (forall a b c, fadd a (fadd b c) = fadd (fadd a b) c) ->
  (forall a, fadd f0 a = a) -> (forall v, isz v = true <-> v = f0) -> kernel_is f0 fadd kernel k ->
  forall x1 x2 h batch sym d,
  (Z.of_nat (length x1) < 2 ^ 63)%Z -> (Z.of_nat (length x2) < 2 ^ 63)%Z ->
  (sym = true -> x1 = x2 /\ forall a b, k a b h = k b a h) ->
  (forall cl same ev K, lossy cl ->
     distributed_covariance isz kernel cl h x1 (length x1) x2 (length x2) same batch sym d = (ev, Ok K) ->
     is_matrix f0 fadd K (length x1) (length x2) (cov f0 k x1 x2 h)) /\
  (forall cl, faithful cl -> (forall xs ys, exists o, kernel xs ys h = Ok o) -> x1 <> [] -> x2 <> [] ->
     exists ev K, distributed_covariance isz kernel cl h x1 (length x1) x2 (length x2) true batch sym d = (ev, Ok K)).
Proof.
  intros P H F f0 fadd isz kernel k Hc Ha H0 Hz Hk x1 x2 h batch sym d B1 B2 Hs. split.
  - intros cl same ev K Hl E. eapply (distributed_sound f0 fadd isz kernel Hc Ha H0 Hz k Hk); eauto.
  - intros cl Hf Ht N1 N2. eapply (distributed_total f0 fadd isz kernel Hc Ha H0 Hz k Hk); eauto;
      [destruct x1|destruct x2]; cbn; (congruence || lia).
Qed.
Print Assumptions distributed_is_kernel_matrix.

(** integer points, the compactly supported kernel max(0, h - |a-b|), dense blocks *)
Definition exk (a b h : Z) : Z := Z.max 0 (h - Z.abs (a - b)).
Definition exkernel (xs ys : list Z) (h : Z) : res cexn (@kout Z) :=
  Ok (KDense (length ys) (map (fun a => map (fun b => exk a b h) ys) xs)).
Lemma exkernel_is : kernel_is 0%Z Z.add exkernel exk.
Proof.
  intros xs ys h o [= <-]. rewrite map_length. repeat split.
  - intros r Hr. apply in_map_iff in Hr as (a & <- & _). now rewrite map_length.
  - intros i j Hi Hj. unfold cov. destruct (nth_error xs i) as [a|] eqn:Ea; [|apply nth_error_None in Ea; lia].
    destruct (nth_error ys j) as [b|] eqn:Eb; [|apply nth_error_None in Eb; lia].
    rewrite (nth_indep _ [] (map (fun b => exk a b h) ys)) by (now rewrite map_length).
    rewrite (map_nth (fun a => map (fun b => exk a b h) ys)).
    rewrite (nth_error_nth _ _ _ Ea), (nth_indep _ 0%Z (exk a b h)) by (now rewrite map_length).
    rewrite (map_nth (fun b => exk a b h)). now rewrite (nth_error_nth _ _ _ Eb).
Qed.
Lemma exk_sym a b h : exk a b h = exk b a h. Proof. unfold exk. lia. Qed.
Definition isz (v : Z) := Z.eqb v 0.
Definition backwards {A} (l : list A) := rev l.
Lemma backwards_faithful {A} : faithful (@backwards A).
Proof. intros l. apply Permutation_sym, Permutation_rev. Qed.
(** five points in batches of two, tasks completing last to first: six tasks, the right matrix *)
Example distributed_ex : match snd (distributed_covariance isz exkernel backwards 3%Z [0; 1; 4; 5; 9]%Z 5 [0; 1; 4; 5; 9]%Z 5 true 2 true Blockwise) with
  | Ok K => map (fun i => map (fun j => get 0%Z Z.add (ents K) i j) (seq 0 5)) (seq 0 5)
  | Err _ => [] end = [[3; 2; 0; 0; 0]; [2; 3; 0; 0; 0]; [0; 0; 3; 2; 0]; [0; 0; 2; 3; 0]; [0; 0; 0; 0; 3]]%Z.
Proof. vm_compute. reflexivity. Qed.

(** C11 *)
Theorem augmented_covariance : forall {P H F : Type} (f0 : F) fadd isz
  (kernel : list P -> list P -> H -> res cexn (@kout F)) (k : P -> P -> H -> F) batch d,
  (forall a b, fadd a b = fadd b a) -> (forall a b c, fadd a (fadd b c) = fadd (fadd a b) c) ->
  (forall a, fadd f0 a = a) -> (forall v, isz v = true <-> v = f0) -> kernel_is f0 fadd kernel k ->
  (forall a b h, k a b h = k b a h) ->
  forall cl x0 h0 s0 os s rs, few x0 os -> lossy cl -> (forall o, In o os -> on_cluster o) ->
  pinit isz kernel batch d cl x0 h0 = (s0, Ok tt) -> psteps isz kernel batch d s0 os = (s, rs) -> accepted rs ->
  px s = supplied x0 os /\ ph s = chosen h0 os /\
  let x := supplied x0 os in is_matrix f0 fadd (pcov s) (length x) (length x) (cov f0 k x x (chosen h0 os)).
Proof.
  intros P H F f0 fadd isz kernel k batch d Hc Ha H0 Hz Hk Hsym cl x0 h0 s0 os s rs Hf Hl Ho Ei Es Hr.
  assert (G0 : good f0 fadd k s0 x0 h0).
  { eapply (init_good f0 fadd isz kernel Hc Ha H0 Hz k Hk Hsym batch d); eauto. unfold few in Hf. lia. }
  destruct (steps_good f0 fadd isz kernel Hc Ha H0 Hz k Hk Hsym batch d os _ _ _ _ _ G0 Hf Ho Es Hr) as (G1 & G2 & _ & G4).
  auto.
Qed.
Print Assumptions augmented_covariance.

Definition exsession : list (@pop Z Z Z) :=
  [PAppend [6; 7; 8]%Z backwards backwards; PSetHps 4%Z backwards; PAppend [2]%Z backwards backwards].
Example augmented_ex :
  let '(s0, r0) := pinit isz exkernel 2 Blockwise backwards [0; 1; 3]%Z 2%Z in
  let '(s, rs) := psteps isz exkernel 2 Blockwise s0 exsession in
  r0 = Ok tt /\ rs = [Ok tt; Ok tt; Ok tt] /\ px s = [0; 1; 3; 6; 7; 8; 2]%Z /\
  map (fun j => get 0%Z Z.add (ents (pcov s)) 6 j) (seq 0 7) = [2; 3; 3; 0; 0; 0; 4]%Z.
Proof. vm_compute. auto. Qed.

(** C12 *)
Theorem distributed_resources : forall {P H F : Type} (isz : F -> bool)
  (kernel : list P -> list P -> H -> res cexn (@kout F)) batch d,
  (forall n1 n2 sym t, In t (snd (plan n1 n2 batch sym d)) -> (sym = true -> n1 = n2) ->
     let b := Z.to_nat (Z.max 1 batch) in
     let budget := match d with Blockwise => b * b | Rowwise => n1 * b end in
     task_entries n1 n2 t <= (if sym then budget else Nat.max budget (Nat.max n1 n2))) /\
  (forall cl h x1 n1 x2 n2 same sym ev K, lossy cl ->
     distributed_covariance isz kernel cl h x1 n1 x2 n2 same batch sym d = (ev, Ok K) ->
     forall i, occ (EvSubmit i) ev = occ (EvTaskRelease i) ev /\ occ (EvTaskRelease i) ev <= 1) /\
  (forall cl next x1 x2 h sym f1 f2 n ev r, (sym = true -> length x1 = length x2) ->
     gp2scale_cov isz kernel batch d cl next x1 x2 h sym f1 f2 = (n, (ev, r)) ->
     forall i, occ (EvScatter i) ev = occ (EvRelease i) ev /\ (i < next -> occ (EvRelease i) ev = 0) /\ occ (EvRelease i) ev <= 1) /\
  (forall s xn cB cD s' r, pappend isz kernel batch d s xn cB cD = (s', r) -> exists ev, plog s' = plog s ++ ev /\
     forall i, occ (EvScatter i) ev = occ (EvRelease i) ev + (if is_ok r && (fid (pfut s') =? i) then 1 else 0)).
Proof.
  intros P H F isz kernel batch d. split; [|split; [|split]].
  - intros n1 n2 sym t Hin Hn. exact (plan_budget n1 n2 batch sym d t Hin Hn).
  - intros. eapply task_events; eauto.
  - intros cl next x1 x2 h sym f1 f2 n ev r Hs E i. pose proof (scatter_events isz kernel batch d cl next x1 x2 h sym f1 f2 i Hs) as [Q1 Q2].
    rewrite E in Q1, Q2. cbn [fst snd] in *. split; [exact Q1|]. destruct (Nat.leb_spec next i), (Nat.ltb_spec i n); cbn [andb] in Q2; split; lia.
  - intros s xn cB cD s' r E. assert (forall i, exists ev, plog s' = plog s ++ ev /\ occ (EvScatter i) ev = occ (EvRelease i) ev + (if is_ok r && (fid (pfut s') =? i) then 1 else 0)) as Q.
    { intros i. pose proof (append_events isz kernel batch d s xn cB cD i) as Q. now rewrite E in Q. }
    destruct (Q 0) as (ev & E0 & _). exists ev. split; [exact E0|]. intros i. destruct (Q i) as (ev' & E1 & Q1).
    rewrite E0 in E1. apply app_inv_head in E1. now subst ev'.
Qed.
Print Assumptions distributed_resources.

(** an append of three points to three in batches of two distributes the cross block as strips; a
    worker that loses every task leaves the same scatters released *)
Definition broken {A : Type} : list (nat * res cexn A) -> list (nat * res cexn A) := map (fun p => (fst p, Err ECluster)).
Lemma broken_lossy {F} : lossy (@broken (@wres F)).
Proof.
  intros l. exists (broken l). split; [apply Permutation_refl|]. induction l as [|p l IH]; constructor; [|exact IH].
  split; [reflexivity|]. right. now exists ECluster.
Qed.
Example distributed_resources_ex :
  let '(s0, _) := pinit isz exkernel 2 Blockwise backwards [0; 1; 3]%Z 2%Z in
  let '(s1, r1) := pappend isz exkernel 2 Blockwise s0 [5; 6; 7]%Z backwards backwards in
  let '(s2, r2) := pappend isz exkernel 2 Blockwise s0 [5; 6; 7]%Z broken backwards in
  snd (plan 3 3 2 false Blockwise) = [TCol (0, 1); TCol (1, 2); TCol (2, 3)] /\
  r1 = Ok tt /\ r2 = Err ECluster /\
  map (fun i => (occ (EvScatter i) (plog s1), occ (EvRelease i) (plog s1))) [0; 1; 2] = [(1, 0); (1, 1); (1, 0)] /\
  map (fun i => (occ (EvScatter i) (plog s2), occ (EvRelease i) (plog s2))) [0; 1; 2] = [(1, 0); (1, 1); (0, 0)].
Proof. vm_compute. repeat split. Qed.

(** C58: with failed operations in the session, the covariance after an accepted operation need not be
    the one of the stored data and hyperparameters.  Two witnesses: an append lost by the cluster,
    then an accepted set_hyperparameters; a set_hyperparameters lost by the cluster, then an accepted
    append. *)
Definition honest {P H F} (f0 : F) fadd (k : P -> P -> H -> F) (s : @pstate P H F) : Prop :=
  is_matrix f0 fadd (pcov s) (length (px s)) (length (px s)) (cov f0 k (px s) (px s) (ph s)).
Theorem recovered_covariance_refuted :
  exists (kernel : list Z -> list Z -> Z -> res cexn (@kout Z)) k batch d,
  kernel_is 0%Z Z.add kernel k /\ (forall a b h, k a b h = k b a h) /\ (forall xs ys h, is_ok (kernel xs ys h) = true) /\
  exists cl x0 h0 s0, lossy cl /\ pinit isz kernel batch d cl x0 h0 = (s0, Ok tt) /\
  (exists xn cB cD h c s1 r1, on_cluster (PAppend (H:=Z) xn cB cD) /\ lossy c /\
     psteps isz kernel batch d s0 [PAppend xn cB cD; PSetHps h c] = (s1, [r1; Ok tt]) /\ r1 <> Ok tt /\
     ~ honest 0%Z Z.add k s1) /\
  (exists xn cB cD h c s1 r1, on_cluster (PAppend (H:=Z) xn cB cD) /\ lossy c /\
     psteps isz kernel batch d s0 [PSetHps h c; PAppend xn cB cD] = (s1, [r1; Ok tt]) /\ r1 <> Ok tt /\
     ~ honest 0%Z Z.add k s1).
Proof.
  assert (Hb : forall A, lossy (F:=A) backwards).
  { intros A l. exists l. split; [apply backwards_faithful|]. induction l; constructor; auto. }
  exists exkernel, exk, 2%Z, Blockwise. split; [exact exkernel_is|]. split; [exact exk_sym|]. split; [reflexivity|].
  exists backwards, [0; 1; 3]%Z, 2%Z. eexists. split; [apply Hb|]. split; [vm_compute; reflexivity|]. split.
  - exists [5; 6; 7]%Z, broken, backwards, 2%Z, backwards. do 2 eexists. split; [split; [apply broken_lossy|apply Hb]|].
    split; [apply Hb|]. split; [vm_compute; reflexivity|]. split; [discriminate|].
    intros (_ & _ & _ & G). specialize (G 3 3). vm_compute in G. lia.
  - exists [5; 6; 7]%Z, backwards, backwards, 3%Z, broken. do 2 eexists. split; [split; apply Hb|].
    split; [apply broken_lossy|]. split; [vm_compute; reflexivity|]. split; [discriminate|].
    intros (_ & _ & _ & G). specialize (G 0 0). vm_compute in G. lia.
Qed.
Print Assumptions recovered_covariance_refuted.

(** what holds: replacing the data successfully repairs the state whatever happened before, and it
    stays right while operations are accepted *)
Theorem recovered_covariance_partial : forall {P H F : Type} (f0 : F) fadd isz
  (kernel : list P -> list P -> H -> res cexn (@kout F)) (k : P -> P -> H -> F) batch d,
  (forall a b, fadd a b = fadd b a) -> (forall a b c, fadd a (fadd b c) = fadd (fadd a b) c) ->
  (forall a, fadd f0 a = a) -> (forall v, isz v = true <-> v = f0) -> kernel_is f0 fadd kernel k ->
  (forall a b h, k a b h = k b a h) ->
  forall s0 x c os s rs, few x os -> lossy c -> (forall o, In o os -> on_cluster o) ->
  psteps isz kernel batch d s0 (POverwrite x c :: os) = (s, rs) -> accepted rs ->
  px s = supplied x os /\ ph s = chosen (ph s0) os /\ honest f0 fadd k s.
Proof.
  intros P H F f0 fadd isz kernel k batch d Hc Ha H0 Hz Hk Hsym s0 x c os s rs Hf Hl Ho E Hr. cbn [psteps pstep] in E.
  destruct (poverwrite isz kernel batch d s0 x c) as [s1 r1] eqn:E1.
  destruct (psteps isz kernel batch d s1 os) as [s2 rs2] eqn:E2. injection E as <- <-.
  rewrite (Hr r1 (or_introl eq_refl)) in E1.
  assert (G1 : good f0 fadd k s1 x (ph s0)).
  { eapply (overwrite_good f0 fadd isz kernel Hc Ha H0 Hz k Hk Hsym batch d); eauto. unfold few in Hf. lia. }
  destruct (steps_good f0 fadd isz kernel Hc Ha H0 Hz k Hk Hsym batch d os _ _ _ _ _ G1 Hf Ho E2 (fun r Hq => Hr r (or_intror Hq))) as (Q1 & Q2 & _ & Q4).
  split; [exact Q1|]. split; [exact Q2|]. unfold honest. now rewrite Q1, Q2.
Qed.
Print Assumptions recovered_covariance_partial.
Example recovered_ex :
  let '(s0, _) := pinit isz exkernel 2 Blockwise backwards [0; 1; 3]%Z 2%Z in
  let '(s, rs) := psteps isz exkernel 2 Blockwise s0
     [PAppend [5; 6; 7]%Z broken backwards; POverwrite [0; 1; 3; 5]%Z backwards; PAppend [4]%Z backwards backwards] in
  rs = [Err ECluster; Ok tt; Ok tt] /\ map (fun j => get 0%Z Z.add (ents (pcov s)) 4 j) (seq 0 5) = [0; 0; 1; 1; 2]%Z.
Proof. vm_compute. auto. Qed.
