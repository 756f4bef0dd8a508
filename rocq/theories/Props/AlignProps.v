(** C53, C92: alignment of local mixtures. *)
From Coq Require Import Reals Lra Permutation Relations.
From Verif Require Import Model.Prelude Spec.Sums Model.Align Spec.AlignSpec Proofs.AlignP Proofs.AlignOrderP.

Section C53.
Context {M V : Type} (w2 : M * V -> M * V -> R) (lsa : nat -> (nat -> nat -> R) -> list nat) (mst : nat -> (nat -> nat -> R) -> nat -> nat -> R).
Hypotheses (LC : lsa_contract lsa) (MC : mst_contract mst).
(** C53, the part that holds: if there is one input or two inputs differ, the search ends, visits every input once, each after its parent, which is another
    point; every input gets a permutation of its own components that fits those of the parent best.  Missing: two or more inputs that all coincide. *)
Theorem tree_alignment_partial : forall d n x K (gs : list (@gmm M V)) root fuel, length gs = n -> Forall (shaped K) gs -> n <= fuel ->
  (n = 1 \/ exists a b, a < n /\ b < n /\ ~ same_input d x a b) -> (match root with None => True | Some r => (0 <= r < Z.of_nat n)%Z end) ->
  exists t al pl, align_mst w2 lsa mst d fuel n x true root gs = Some (Ok (t, al, pl)) /\
    (match root with Some r => Z.of_nat (t_root t) = r | None => True end) /\
    traversal n (t_root t) (fun u v => t_adj t u v = dist d x u v /\ ~ same_input d x u v) (t_order t) (t_parents t) /\
    (forall c, c < n -> c <> t_root t -> exists p, t_parents t c = Par p /\ In (p, c, dist d x p c) (t_edges t)) /\
    forall i g, nth_error gs i = Some g -> exists a perm, al i = Some a /\ pl i = Some perm /\ relabelled K perm g a /\
      ((i = t_root t /\ a = g) \/ exists p ref, t_parents t i = Par p /\ al p = Some ref /\ best_match w2 K ref a).
Proof.
intros d n x K gs root fuel L F FU D R.
assert (SG : forall i, i < length gs -> shaped K (nth i gs empty_gmm)) by (intros i Hi; rewrite Forall_forall in F; apply F, nth_In, Hi).
assert (N0 : 0 < n). { destruct D as [->|(a & b & A & _)]; lia. }
assert (NT : forall i g, nth_error gs i = Some g -> i < n /\ g = nth i gs empty_gmm). { intros i g E. split; [rewrite <- L; apply nth_error_Some; congruence|symmetry; apply nth_error_nth; exact E]. }
assert (T : exists t, build_mst mst d fuel n x root = Some (Ok t) /\ (match root with Some r => Z.of_nat (t_root t) = r | None => True end) /\ t_root t < n /\
  traversal n (t_root t) (fun u v => t_adj t u v = dist d x u v /\ ~ same_input d x u v) (t_order t) (t_parents t)).
{ destruct (Nat.eq_dec n 1) as [E1|N1].
  - subst n. rewrite E1 in *. unfold build_mst. cbn [Nat.eqb]. set (r := match root with None => _ | Some r => r end). assert (r = 0%Z) as ->. { unfold r. destruct root; [lia|]. assert (H := root_in_range d 1 x ltac:(lia)). lia. }
    cbn. eexists. split; [reflexivity|]. cbn. split; [destruct root; [lia|exact I]|]. split; [lia|]. constructor; cbn; [reflexivity|auto|intros v; lia].
  - destruct D as [D|(a & b & A & B & D)]; [contradiction|]. destruct (build_spec d n x mst fuel root) as (t & E & RT & LT & EA & I); [lia|exact FU|exact R|]. exists t. split; [exact E|]. split; [destruct root; [rewrite RT; apply Z2Nat.id; apply R|exact Logic.I]|]. split; [exact LT|].
    assert (TR := inv_traversal _ _ _ _ _ I (all_reached d n x mst MC _ _ _ a b I LT A B D)). destruct TR as [T1 T2 T3]. constructor; [exact T1|exact T2|]. intros v Lv Nv. destruct (T3 v Lv Nv) as (u & P1 & P2 & P3). exists u. split; [exact P1|]. split; [exact P2|].
    assert (Lu : u < n). { apply before_in in P2 as [P2 _]. apply (Permutation_in _ T1) in P2. apply in_seq in P2. lia. }
    rewrite EA. unfold positive in P3. destruct (Rlt_dec 0 _) as [Q|]; [|discriminate]. destruct (adj_cases d n x mst MC u v Lu Lv) as [Z|Z]; [lra|]. split; [exact Z|]. intros S. apply dist_zero in S. lra. }
destruct T as (t & E & RT & LT & TR). assert (TR' := TR). destruct TR' as [T1 [T2 T2'] T3].
unfold align_mst. rewrite L, Nat.eqb_refl. destruct (Nat.eqb_spec n 0); [lia|]. cbn [negb]. rewrite E.
destruct (t_order t) as [|r0 rest] eqn:EO; [discriminate|]. cbn in T2. injection T2 as ->. cbn [tl].
assert (LM : length (means (nth (t_root t) gs empty_gmm)) = K) by (apply SG; lia). rewrite LM. unfold arange.
assert (ND : NoDup (t_root t :: rest)) by (apply (Permutation_NoDup (Permutation_sym T1)), seq_NoDup).
destruct (propagate_spec w2 lsa K gs (t_root t) (t_parents t) LC SG rest [t_root t] (assign (fun _ => None) (t_root t) (nth (t_root t) gs empty_gmm)) (assign (fun _ => None) (t_root t) (seq 0 K))) as (al & pl & EP & G).
- exact ND.
- intros c Ic. assert (Lc : c < n) by (apply (in_cons (t_root t)), (Permutation_in _ T1), in_seq in Ic; lia). split; [lia|]. inversion ND; subst. destruct (T3 c Lc) as (p & P1 & P2 & _); [congruence|]. exists p. auto.
- constructor.
  + intros i [<-|[]]. exists (nth (t_root t) gs empty_gmm), (seq 0 K). unfold assign. rewrite Nat.eqb_refl. split; [reflexivity|]. split; [reflexivity|]. split; [apply relabelled_id, SG; lia|left; auto].
  + intros i H. unfold assign. destruct (Nat.eqb_spec i (t_root t)) as [->|]; [exfalso; apply H; left; reflexivity|auto].
- rewrite EP. exists t, al, pl. split; [reflexivity|]. split; [exact RT|]. split; [rewrite EO in *; exact TR|]. split.
  + intros c Lc Nc. destruct (T3 c Lc Nc) as (p & P1 & P2 & P3 & _). exists p. split; [exact P1|]. unfold t_edges. rewrite EO. cbn [tl]. apply in_map_iff. exists c. rewrite P1, P3. split; [reflexivity|]. apply before_in in P2 as [_ [P2|P2]]; [congruence|exact P2].
  + intros i g EG. destruct (NT i g EG) as [Li ->]. destruct (g_in _ _ _ _ _ _ _ _ G i) as (a & perm & A1 & A2 & A3 & A4).
    { cbn [app]. apply (Permutation_in _ (Permutation_sym T1)), in_seq. lia. }
    exists a, perm. split; [exact A1|]. split; [exact A2|]. split; [exact A3|]. destruct A4 as [(-> & -> & _)|A4]; [left; auto|right; exact A4].
Qed.
(** C53: the order of the visits.  Inputs with the same parent come by increasing distance from it, the first index first among equal ones; and the
    children of an input come before those of any input visited later. *)
Theorem visiting_order : forall d n x metric_ok root (gs : list (@gmm M V)) fuel t al pl, align_mst w2 lsa mst d fuel n x metric_ok root gs = Some (Ok (t, al, pl)) ->
  (forall u v w, t_parents t v = Par u -> t_parents t w = Par u -> before (t_order t) v w -> (dist d x u v < dist d x u w \/ dist d x u v = dist d x u w /\ (v < w)%nat)%R) /\
  (forall u v u' v', t_parents t v = Par u -> t_parents t v' = Par u' -> before (t_order t) u u' -> before (t_order t) v v').
Proof.
intros d n x metric_ok root gs fuel t al pl. unfold align_mst. destruct (length gs =? 0); [discriminate|]. destruct (n =? length gs); cbn [negb]; [|discriminate].
destruct (build_mst mst d fuel n x root) as [[t'|e]|] eqn:E; [|discriminate|discriminate]. intros H.
assert (t' = t) as -> by (repeat match type of H with context [match ?a with _ => _ end] => destruct a; try discriminate end; injection H as H _ _; exact H).
exact (build_ordered mst d fuel n x root t MC E).
Qed.
(** C53 is false when two or more inputs all coincide: a distance of zero is no edge, only the root is visited, and the others come back as None *)
Theorem coincident_refuted : forall d n x K (gs : list (@gmm M V)) root fuel, length gs = n -> Forall (shaped K) gs -> n <= fuel -> 1 < n ->
  (forall i j, i < n -> j < n -> same_input d x i j) -> (match root with None => True | Some r => (0 <= r < Z.of_nat n)%Z end) ->
  exists t al pl, align_mst w2 lsa mst d fuel n x true root gs = Some (Ok (t, al, pl)) /\ t_order t = [t_root t] /\ forall i, i < n -> i <> t_root t -> al i = None /\ pl i = None.
Proof.
intros d n x K gs root fuel L F FU N S R. destruct (build_spec d n x mst fuel root) as (t & E & RT & LT & EA & I); [lia|exact FU|exact R|].
assert (O := none_reached d n x mst MC _ _ _ I S). unfold align_mst. rewrite L, Nat.eqb_refl. destruct (Nat.eqb_spec n 0); [lia|]. cbn [negb]. rewrite E, O. cbn [tl propagate].
do 3 eexists. split; [reflexivity|]. split; [exact O|]. intros i Li Ni. unfold assign. destruct (Nat.eqb_spec i (t_root t)); [contradiction|auto].
Qed.
(** C92: aligning along the sequence permutes the components of every mixture, each permutation fitting the previous result (or the first mixture) best; the first mixture is unchanged *)
Theorem sequence_alignment : forall K r (l : list (@gmm M V)), l <> [] -> r <> NoReference -> Forall (shaped K) l ->
  exists al pl, align_sequence w2 lsa true r l = Ok (al, pl) /\ length al = length l /\ length pl = length l /\
  forall i g, nth_error l i = Some g -> exists a perm, nth_error al i = Some a /\ nth_error pl i = Some perm /\ relabelled K perm g a /\
    ((i = 0 /\ a = g) \/ exists ref, nth_error al (match r with Previous => i - 1 | _ => 0 end) = Some ref /\ 0 < i /\ best_match w2 K ref a).
Proof.
intros K r [|g l] NE NR F; [congruence|]. inversion F as [|? ? SG F']; subst. unfold align_sequence.
destruct (rest_spec w2 lsa K (match r with Previous => true | _ => false end) LC l g SG F') as (al & pl & E & L1 & L2 & H). rewrite E.
assert (LM : length (means g) = K) by apply SG. exists (g :: al), (arange (length (means g)) :: pl). split; [destruct r; [reflexivity|reflexivity|congruence]|]. split; [cbn; congruence|]. split; [cbn; congruence|].
intros [|i] g' G; cbn in G.
- injection G as <-. exists g, (seq 0 K). split; [reflexivity|]. split; [cbn; unfold arange; congruence|]. split; [apply relabelled_id; exact SG|left; auto].
- destruct (H i g' G) as (a & perm & rf & H1 & H2 & H3 & H4 & H5). exists a, perm. split; [exact H1|]. split; [exact H2|]. split; [exact H3|]. right. exists rf. split; [|split; [lia|exact H4]].
  destruct r; [cbn; rewrite Nat.sub_0_r; exact H5| |congruence]. cbn. apply nth_error_In in H5. apply repeat_spec in H5. congruence.
Qed.
(** C92: mixtures of different numbers of components are rejected *)
Theorem sequence_rejects : forall (g h : @gmm M V) r l, length (means g) <> length (means h) -> r <> NoReference -> align_sequence w2 lsa true r (g :: h :: l) = Err AShape.
Proof. intros g h r l N NR. unfold align_sequence, align_rest, align1, hungarian. destruct (Nat.eqb_spec (length (means g)) (length (means h))); [contradiction|]. destruct r; [reflexivity|reflexivity|congruence]. Qed.
End C53.
Print Assumptions tree_alignment_partial. Print Assumptions visiting_order. Print Assumptions coincident_refuted. Print Assumptions sequence_alignment. Print Assumptions sequence_rejects.

(** the search on the path 0 - 2 - 1 - 3 from 1 *)
Example search_path : exists ps, search_from 4 (fun u v => match u, v with 0, 2 | 2, 0 | 2, 1 | 1, 2 | 1, 3 | 3, 1 => true | _, _ => false end) (fun _ v w => v <=? w) 4 1 = Some ([1; 2; 3; 0], ps) /\ map ps [0; 1; 2; 3] = [Par 2; Root; Par 1; Par 1].
Proof. eexists. split; reflexivity. Qed.
(** the contracts can be met, so the theorems apply: inputs 0, 0 and 1 on the line, two of which coincide *)
Example three_inputs : exists t al pl, align_mst (fun a b : R * unit => ((fst a - fst b) * (fst a - fst b))%R) lsa_any mst_any 1 3 3 (fun i _ => if i =? 2 then 1%R else 0%R) true (Some 0%Z)
    (repeat {| weights := [1%R; 2%R]; means := [3%R; 4%R]; covs := [tt; tt] |} 3) = Some (Ok (t, al, pl)) /\ Permutation (t_order t) [0; 1; 2] /\ t_parents t 2 = Par 0 /\ t_parents t 1 = Par 2.
Proof.
edestruct (tree_alignment_partial (fun a b : R * unit => ((fst a - fst b) * (fst a - fst b))%R) lsa_any mst_any lsa_any_contract mst_any_contract 1 3 (fun i _ => if i =? 2 then 1%R else 0%R) 2
  (repeat {| weights := [1%R; 2%R]; means := [3%R; 4%R]; covs := [tt; tt] |} 3) (Some 0%Z) 3) as (t & al & pl & E & RT & TR & _).
- reflexivity.
- repeat constructor.
- lia.
- right. exists 0, 2. split; [lia|]. split; [lia|]. intros S. specialize (S 0 ltac:(lia)). cbn in S. lra.
- lia.
- exists t, al, pl. split; [exact E|]. assert (t_root t = 0) as R0 by lia. rewrite R0 in TR. destruct TR as [T1 _ T3]. split; [exact T1|].
  assert (P : forall v, v < 3 -> v <> 0 -> exists u, t_parents t v = Par u /\ u < 3 /\ (u = 2 <-> v <> 2)).
  { intros v L N. destruct (T3 v L N) as (u & P1 & P2 & _ & P3). exists u. split; [exact P1|]. apply before_in in P2 as [P2 _]. apply (Permutation_in _ T1), in_seq in P2. split; [lia|].
    destruct (Nat.eq_dec u 2), (Nat.eq_dec v 2); try tauto; exfalso; apply P3; intros k _; subst; try reflexivity. destruct (Nat.eqb_spec u 2), (Nat.eqb_spec v 2); try contradiction; reflexivity. }
  destruct (P 1) as (u1 & A1 & A2 & A3); [lia|lia|]. destruct (P 2) as (u2 & B1 & B2 & B3); [lia|lia|].
  assert (u1 = 2) as -> by (apply A3; lia). split; [|exact A1].
  (* 1 comes after 2, so the parent of 2 cannot be 1 *)
  rewrite B1. f_equal. assert (u2 <> 2) by tauto. assert (u2 <> 1); [|lia]. intros ->.
  destruct (T3 1 ltac:(lia) ltac:(lia)) as (u & Q1 & Q2 & _). assert (u = 2) as -> by congruence. destruct (T3 2 ltac:(lia) ltac:(lia)) as (u & Q3 & Q4 & _). assert (u = 1) as -> by congruence.
  assert (ND : NoDup (t_order t)) by (apply (Permutation_NoDup (Permutation_sym T1)), seq_NoDup). revert ND Q2 Q4. clear. generalize (t_order t) as l. induction l as [|a l IH]; [easy|].
  intros ND. inversion ND; subst. intros [[-> A]|A] [[B1 B2]|B]; try discriminate; [apply before_in in B; tauto|apply before_in in A; intuition congruence|auto].
Qed.
(** components that come in the opposite order are swapped *)
Example swapped : forall lsa, lsa_contract lsa -> align1 (fun a b : R * unit => ((fst a - fst b) * (fst a - fst b))%R) lsa true
    {| weights := [3%R; 7%R]; means := [0%R; 10%R]; covs := [tt; tt] |} {| weights := [6%R; 4%R]; means := [9%R; 1%R]; covs := [tt; tt] |}
  = Ok ({| weights := [4%R; 6%R]; means := [1%R; 9%R]; covs := [tt; tt] |}, [1; 0]).
Proof.
intros lsa C. unfold align1, hungarian. cbn [length means covs Nat.eqb negb Nat.ltb Nat.leb]. set (f := fun i j : nat => _). destruct (C 2 f) as [P MIN]. specialize (MIN [1; 0] ltac:(apply perm_swap)).
apply perms_complete in P. cbn in P. destruct P as [P|[P|[]]]; rewrite <- P in *; [|reflexivity]. exfalso. unfold total_cost, f in MIN. cbn in MIN. lra.
Qed.
