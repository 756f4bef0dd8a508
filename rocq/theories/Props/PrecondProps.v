(** Properties C17 and C18: preconditioner blocks and shift retries. *)
From Coq Require Import QArith Sorted Permutation.
From Verif Require Import Model.Prelude Model.Precond Spec.PrecondSpec Proofs.PrecondP.
Local Open Scope nat_scope.

(** C17: the blocks partition the indices, respect the size limit, are connected, are only smaller
    than the limit when everything reachable is taken, and an overlap is a distance ball. *)
Theorem graph_blocks_partition : forall n nbrs block_size, in_range n nbrs ->
  let bs := Z.to_nat (Z.max block_size 1) in
  (exists blocks, graph_blocks n nbrs block_size = Some blocks /\ Permutation (concat blocks) (seq 0 n) /\
     forall front b back, blocks = front ++ b :: back ->
       b <> [] /\ length b <= bs /\
       (forall pre v post, b = pre ++ v :: post -> pre = [] \/ exists u, In u pre /\ In v (nbrs u)) /\
       (length b < bs -> forall u v, In u b -> In v (nbrs u) -> In v b \/ In v (concat front))) /\
  (forall order, (forall l v, In v (order l) <-> In v l) -> forall b overlap,
     StronglySorted lt (expand_overlap nbrs order b overlap) /\
     forall v, In v (expand_overlap nbrs order b overlap) <->
       exists u j, In u b /\ (Z.of_nat j <= Z.max overlap 0)%Z /\ walk nbrs j u v).
Proof.
  intros n nbrs block_size Hr bs. split; [exact (graph_blocks_l n nbrs Hr block_size)|].
  intros order Ho b overlap. destruct (overlap_l n nbrs order Ho b overlap) as [H1 H2]. split; [exact H1|].
  intros v. rewrite H2. split; intros (u & j & Hu & Hj & W); exists u, j; (split; [exact Hu|]; split; [lia|exact W]).
Qed.
Print Assumptions graph_blocks_partition.

(** a path 0-1-2-3-4-5 with blocks of two, and the neighbourhood of the second block *)
Example graph_blocks_ex :
  let path u := match u with 0 => [0; 1] | 5 => [4; 5] | S p => [p; S p; S (S p)] end in
  graph_blocks 6 path 2 = Some [[0; 1]; [2; 3]; [4; 5]] /\ graph_blocks 6 path 4 = Some [[0; 1; 2; 3]; [4; 5]] /\
  expand_overlap path (@rev nat) [2; 3] 1 = [1; 2; 3; 4] /\ expand_overlap path (fun l => l) [2; 3] (-1) = [2; 3].
Proof. vm_compute. auto. Qed.

(** C18: for both retry rules *)
Theorem shifted_retries : forall {F : Type} (fac : Q -> option F) base growth attempts retry_ r tried,
  retry_ = dense_retry fac \/ retry_ = ilupp_retry fac ->
  retry_ base growth attempts = (r, tried) ->
  1 <= length tried /\ (Z.of_nat (length tried) <= Z.max attempts 1)%Z /\ hd_error tried = Some base /\
  ((0 <= base)%Q -> (1 < growth)%Q -> StronglySorted Qlt tried) /\
  (forall f s, r = Some (f, s) <-> exists failures, tried = failures ++ [s] /\ fac s = Some f /\ forall t, In t failures -> fac t = None) /\
  (r = None <-> Z.of_nat (length tried) = Z.max attempts 1 /\ forall t, In t tried -> fac t = None).
Proof.
  intros F fac base growth attempts retry_ r tried Hre E.
  assert (H : exists next, retry fac next (Z.to_nat (Z.max attempts 1)) base = (r, tried) /\
    ((1 < growth)%Q -> forall s, (0 <= s)%Q -> (s < next s)%Q)).
  { destruct Hre as [-> | ->]; [exists (dense_next growth)|exists (ilupp_next growth)]; (split; [exact E|]); intros; [now apply dense_grows|now apply ilupp_grows]. }
  destruct H as (next & R & G). pose proof (retry_increasing fac next) as Hinc. destruct (retry_spec fac next _ _ _ _ R) as (I1 & I2 & I3 & I4).
  assert (Hfail : forall pre t post, tried = pre ++ t :: post -> post <> [] -> fac t = None).
  { intros pre t post Et Hp. destruct post as [|b post]; [contradiction|]. now apply (I3 pre t b post). }
  assert (Hh : hd_error tried = Some base) by (apply I2; lia).
  split; [destruct tried; [discriminate|cbn; lia]|]. split; [lia|]. split; [exact Hh|].
  split; [intros Hb Hg; eapply Hinc; [exact (G Hg)|exact R|exact Hb]|]. split.
  - intros f s. split.
    + intros ->. destruct I4 as (pre & Et & Hf). exists pre. split; [exact Et|]. split; [exact Hf|]. intros t Ht.
      apply in_split in Ht as (a & b & ->). rewrite <- app_assoc in Et. cbn in Et. apply (Hfail _ _ _ Et). now destruct b.
    + intros (pre & Et & Hf & Hn). destruct r as [[f' s']|].
      * destruct I4 as (pre' & Et' & Hf'). rewrite Et in Et'. apply app_inj_tail in Et' as [_ <-]. congruence.
      * destruct I4 as [_ I4]. specialize (I4 s). rewrite Et in I4. rewrite I4 in Hf; [discriminate|]. apply in_or_app. right. now left.
  - split.
    + intros ->. destruct I4 as [L Hn]. split; [lia|exact Hn].
    + intros [L Hn]. destruct r as [[f s]|]; [|reflexivity]. destruct I4 as (pre & -> & Hf).
      rewrite Hn in Hf; [discriminate|]. apply in_or_app. right. now left.
Qed.
Print Assumptions shifted_retries.

(** a matrix whose factorization succeeds with a shift of at least 1/1000 *)
Example shifted_retries_ex :
  let fac s := if Qle_bool (1 # 1000) s then Some tt else None in
  dense_retry fac 0 1000 5 = (Some (tt, (1 # 10000000000) * 1000 * 1000 * 1000)%Q,
     [0; 1 # 10000000000; (1 # 10000000000) * 1000; (1 # 10000000000) * 1000 * 1000; (1 # 10000000000) * 1000 * 1000 * 1000]%Q) /\
  fst (dense_retry fac 0 10 (-3)) = None /\ snd (ilupp_retry fac 0 10 3) = [0; 1 # 1000000000000; (1 # 1000000000000) * 10]%Q.
Proof. vm_compute. auto. Qed.
