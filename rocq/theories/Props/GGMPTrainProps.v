(** C94-C98: building and training the component GPs of a GGMP. *)
From Coq Require Import Reals Ascii String Lra Permutation.
From Verif Require Import Model.Prelude Model.GGMPTrain Spec.GGMPTrainSpec Proofs.GGMPTrainP.
Local Open Scope R_scope.

(** ** C94 *)
Section C94.
Context (torch cupy : option Z) (eng : engine) (id : option Z) (s : devices).
(** the library that is switched: torch first, cupy next; only those the engine allows, that are installed and know the device *)
Definition on_torch : bool := match id, eng with Some d, (Torch | Auto) => usable torch d | _, _ => false end.
Definition on_cupy : bool := negb on_torch && match id, eng with Some d, (Cupy | Auto) => usable cupy d | _, _ => false end.
(** C94, the part that holds: the body runs once, on the requested device; if it leaves the devices alone they are afterwards what they were before, whatever it raises; if it raises
    nothing, or something that is no Exception, or no library was switched, the statement ends as the body did.  Missing: exceptions while a library is switched. *)
Theorem gpu_device_partial : forall body, (forall x, fst (body x) = x) ->
  exists seen, let '(s', out, ran) := with_stmt (gpu_device torch cupy eng id s) body in
    ran = Some seen /\ s' = s /\
    (forall d, id = Some d -> on_torch = true -> torch_dev seen = d) /\ (forall d, id = Some d -> on_cupy = true -> cupy_dev seen = d) /\
    (on_torch = false -> torch_dev seen = torch_dev s) /\ (on_cupy = false -> cupy_dev seen = cupy_dev s) /\
    ((snd (body seen) = None \/ (exists e, snd (body seen) = Some e /\ caught e = false) \/ (on_torch = false /\ on_cupy = false)) -> out = snd (body seen)).
Proof.
intros body B. unfold gpu_device, on_cupy, on_torch, try_block, last_yield. destruct s as [td cd].
assert (C : forall x, caught x = true \/ caught x = false) by (intros x; destruct (caught x); auto).
destruct id as [d|]; [destruct eng; try destruct (usable torch d) eqn:UT; try destruct (usable cupy d) eqn:UC|];
 cbn [with_stmt negb andb set_torch set_cupy torch_dev cupy_dev];
 match goal with |- context [body ?x] => exists x; destruct (body x) as [s1 [e|]] eqn:R; pose proof (B x) as Bx; rewrite R in Bx; cbn [fst] in Bx; subst s1 end;
 try (destruct (caught e) eqn:CE); cbn [with_stmt close snd caught];
 (split; [reflexivity|]); (split; [reflexivity|]);
 (split; [intros dd Q T; try discriminate; injection Q as <-; reflexivity|]); (split; [intros dd Q T; try discriminate; injection Q as <-; reflexivity|]);
 (split; [intros T; try discriminate; reflexivity|]); (split; [intros T; try discriminate; reflexivity|]);
 intros [Q|[(e' & Q & Q')|[Q Q']]]; try discriminate; try reflexivity; try (injection Q as <-; congruence).
Qed.
(** C94 fails: while a library is switched, every Exception of the body is replaced by the RuntimeError of contextlib *)
Theorem gpu_device_masks : forall body e, on_torch = true \/ on_cupy = true -> (forall x, fst (body x) = x) -> (forall x, snd (body x) = Some e) -> caught e = true ->
  snd (fst (with_stmt (gpu_device torch cupy eng id s) body)) = Some DidNotStopAfterThrow.
Proof.
intros body e H B R C. unfold on_torch, on_cupy, on_torch in H. unfold gpu_device, try_block, last_yield. destruct id as [d|]; [|cbn in H; destruct H; discriminate].
destruct eng; try destruct (usable torch d) eqn:UT; try destruct (usable cupy d) eqn:UC; cbn in H; try (destruct H; discriminate); cbn [with_stmt];
 match goal with |- context [body ?x] => destruct (body x) as [s1 r] eqn:Q; pose proof (R x) as Rx; rewrite Q in Rx; cbn [snd] in Rx; subst r end; rewrite C; reflexivity.
Qed.
End C94.
Theorem gpu_device_refuted : ~ (forall torch cupy eng id s body e, (forall x, fst (body x) = x) -> (forall x, snd (body x) = Some e) -> snd (fst (with_stmt (gpu_device torch cupy eng id s) body)) = Some e).
Proof.
intros H. specialize (H (Some 2%Z) None Torch (Some 1%Z) {| torch_dev := 0; cupy_dev := 0 |} (fun x => (x, Some (Exc 7))) (Exc 7) (fun _ => eq_refl) (fun _ => eq_refl)).
rewrite gpu_device_masks with (e := Exc 7) in H; [discriminate|left; reflexivity|reflexivity|reflexivity|reflexivity].
Qed.
Print Assumptions gpu_device_partial. Print Assumptions gpu_device_masks. Print Assumptions gpu_device_refuted.
(** two cards; the body runs on card 1 and interrupts, or returns *)
Example gpu_device_ex : let s := {| torch_dev := 0; cupy_dev := 3 |} in
  with_stmt (gpu_device (Some 2%Z) (Some 4%Z) Auto (Some 1%Z) s) (fun x => (x, Some (Base 2))) = (s, Some (Base 2), Some {| torch_dev := 1; cupy_dev := 3 |}) /\
  with_stmt (gpu_device (Some 2%Z) (Some 4%Z) Auto (Some 2%Z) s) (fun x => (x, None)) = (s, None, Some {| torch_dev := 0; cupy_dev := 2 |}) /\
  with_stmt (gpu_device None None Auto (Some 2%Z) s) (fun x => (x, Some (Exc 4))) = (s, Some (Exc 4), Some s).
Proof. vm_compute. auto. Qed.

(** ** C95: training in batches until the hyperparameters settle.  The sizes are those after the replacement of non-positive ones. *)
Section C95.
Context (train : nat -> vec -> option vec) (chunk max_total patience : Z) (tol : R) (init : vec).
Let c := Z.to_nat (Z.max chunk 1).
Let m := Z.to_nat (Z.max max_total (Z.max chunk 1)).
Let p := Z.to_nat (Z.max patience 1).
Theorem until_converged_good : forall fuel, (m < fuel)%nat -> good train c m p tol init (until_converged train chunk max_total patience tol fuel init).
Proof.
intros fuel F. unfold until_converged. cbv zeta. replace (Z.max chunk 1) with (Z.of_nat c) at 1 by (unfold c; lia). replace (Z.max max_total (Z.max chunk 1)) with (Z.of_nat m) by (unfold m; lia).
replace (Z.max patience 1) with (Z.of_nat p) by (unfold p; lia). apply loop_good; [unfold c; lia|unfold p; lia|apply inv_start; unfold p; lia|cbn; lia].
Qed.
(** the loop ends; what it returns is the outcome of the last batch; no batch before the last ends it, and it ends by the rule or because the budget is used up *)
Theorem until_converged_rule : forall fuel, (m < fuel)%nat ->
  match until_converged train chunk max_total patience tol fuel init with
  | Done hps hist => hist <> [] /\ batches train c init hist /\ no_earlier_stop c m p tol hist /\ (exists h, nth_error hist (length hist - 1) = Some h /\ hps = h_hps h) /\
      (converged_at p tol hist (length hist - 1) \/ (m <= c * length hist)%nat)
  | Failed hist => batches train c init hist /\ train (length hist) (before init hist (length hist)) = None
  | OutOfFuel => False
  end.
Proof.
intros fuel F. pose proof (until_converged_good fuel F) as G. destruct (until_converged train chunk max_total patience tol fuel init) as [hps hist|hist|]; cbn [good] in G; [|tauto|exact G].
destruct G as (B & N & L & E). assert (NE : hist <> []). { intros ->. destruct E as [(i & Q & _)|E]; [discriminate|]. unfold m in E. cbn in E. lia. }
split; [exact NE|]. split; [exact B|]. split; [exact N|]. destruct hist as [|h0 hist]; [congruence|]. cbn [length] in *. replace (S (length hist) - 1)%nat with (length hist) by lia. split.
- destruct (nth_error (h0 :: hist) (length hist)) as [h|] eqn:Q; [|apply nth_error_None in Q; cbn in Q; lia]. exists h. split; [reflexivity|]. rewrite L. cbn [before]. rewrite Q. reflexivity.
- destruct E as [(i & Q & C)|E]; [left; injection Q as <-; exact C|right; exact E].
Qed.
(** C95, the part of the bound that holds: fewer than max_total + chunk iterations in all, and never more than max_total if that is a multiple of the batch size.  Missing: max_total itself. *)
Theorem until_converged_budget_partial : forall fuel hps hist, (m < fuel)%nat -> until_converged train chunk max_total patience tol fuel init = Done hps hist ->
  (c * length hist < m + c)%nat /\ ((exists q, m = c * q)%nat -> (c * length hist <= m)%nat).
Proof.
intros fuel hps hist F E. pose proof (until_converged_rule fuel F) as G. rewrite E in G. destruct G as (NE & _ & N & _). destruct hist as [|h0 hist]; [congruence|]. cbn [length] in *.
destruct (length hist) as [|n] eqn:L.
- assert (c <= m)%nat by (unfold c, m; lia). split; [lia|]. intros _. lia.
- pose proof (proj2 (N n ltac:(cbn [length]; lia))) as B. clearbody c m. split; [rewrite Nat.mul_succ_r; lia|]. intros [q ->]. apply Nat.mul_le_mono_l.
  destruct (Nat.le_gt_cases (S (S n)) q) as [|G]; [assumption|exfalso]. pose proof (Nat.mul_le_mono_l q (S n) c ltac:(lia)). lia.
Qed.
End C95.
(** C95 fails: batches of 100 with a budget of 150 run 200 iterations *)
Theorem until_converged_budget_refuted : ~ (forall train chunk max_total patience tol fuel init hps hist, (0 < chunk <= max_total)%Z -> until_converged train chunk max_total patience tol fuel init = Done hps hist ->
  (chunk * Z.of_nat (length hist) <= max_total)%Z).
Proof.
intros H. set (tr := fun (i : nat) (v : vec) => Some v : option vec).
assert (E : exists hps hist, until_converged tr 100 150 3 (-1) 3 [] = Done hps hist /\ length hist = 2%nat).
{ unfold until_converged. cbn [Z.max Z.compare Pos.compare Pos.compare_cont mcmc_loop Z.ltb tr length].
  assert (R : rel_change [] [] = 0). { unfold rel_change, vsub, norm. cbn [combine map sumsq]. rewrite sqrt_0. unfold Rdiv. ring. }
  rewrite R. destruct (Rlt_dec 0 (-1)) as [Q|Q]; [lra|]. cbn [Z.leb Z.add Z.compare Pos.compare Pos.compare_cont Pos.add mcmc_loop Z.ltb tr length app].
  cbn. eauto. }
destruct E as (hps & hist & E & L). specialize (H tr 100%Z 150%Z 3%Z (-1) 3%nat [] hps hist ltac:(lia) E). rewrite L in H. cbn in H. lia.
Qed.
Print Assumptions until_converged_good. Print Assumptions until_converged_rule. Print Assumptions until_converged_budget_partial. Print Assumptions until_converged_budget_refuted.
(** a chain that stands still: two batches with patience two *)
Example until_converged_ex : forall f, exists hist, until_converged (fun _ v => Some v) 50 1000 2 (1 / 1000) (S (S f)) [3; 4] = Done [3; 4] hist /\ map h_iters hist = [50; 100]%Z.
Proof.
intros f. assert (R : rel_change [3; 4] [3; 4] = 0).
{ unfold rel_change, vsub, norm. cbn [combine map sumsq fst snd]. replace ((3 - 3) * (3 - 3) + ((4 - 4) * (4 - 4) + 0)) with 0 by ring. rewrite sqrt_0. unfold Rdiv. ring. }
unfold until_converged. cbn [Z.max Z.compare Pos.compare Pos.compare_cont mcmc_loop Z.ltb length app]. rewrite R. destruct (Rlt_dec 0 (1 / 1000)) as [Q|Q]; [|lra].
cbn [Z.leb Z.add Z.compare Pos.compare Pos.compare_cont Pos.add mcmc_loop Z.ltb length app]. eexists. split; reflexivity.
Qed.

(** ** C96: training the components in parallel *)
Section C96.
Context {E V : Type} (one : nat -> res E V) (K : nat).
(** whatever the order of completion: the call returns iff all trainings do, and then their results in the order of the components, as without threads; if it raises, one of them raised that *)
Theorem parallel_training : forall parallel done, Permutation done (seq 0 K) ->
  (forall r, train_components one parallel K done = Ok r <-> exists vs, r = Some vs /\ map one (seq 0 K) = map Ok vs) /\
  (forall e, train_components one parallel K done = Err e -> exists k, (k < K)%nat /\ one k = Err e).
Proof.
intros par done P. assert (IN : forall k, In k done <-> In k (seq 0 K)) by (intros k; split; intros I; [eapply Permutation_in; eassumption|eapply Permutation_in; [apply Permutation_sym|]; eassumption]).
unfold train_components. destruct (par && (1 <? K)%nat).
- split.
  + intros r. destruct (gather one done []) as [res|e] eqn:G.
    * assert (A : forall k, In k (seq 0 K) -> exists v, one k = Ok v).
      { intros k I. destruct (one k) as [v|e] eqn:O; [eauto|]. apply IN in I. destruct (gather_fails one done [] k e I O) as [e' Q]. congruence. }
      destruct (all_ok_list one (seq 0 K) A) as [vs M]. destruct (gather_ok one done []) as (res' & G' & L & _); [intros k I; apply A, IN, I|]. assert (res' = res) by congruence. subst res'.
      rewrite (read_all_ok one res (seq 0 K) vs M) by (intros k v I; apply L, IN, I). split.
      -- intros Q. injection Q as <-. eauto.
      -- intros (ws & -> & M'). f_equal. f_equal. rewrite M in M'. clear - M'. revert ws M'. induction vs as [|v vs IH]; intros [|w ws] M'; cbn in M'; try discriminate; [reflexivity|].
         injection M' as -> M'. rewrite (IH ws M'). reflexivity.
    * split; [discriminate|]. intros (vs & _ & M). destruct (gather_err one done [] e G) as (k & I & O). destruct (map_ok_all one _ _ M k (proj1 (IN k) I)) as [v Q]. congruence.
  + intros e. destruct (gather one done []) as [res|e'] eqn:G; [discriminate|]. intros Q. injection Q as <-. destruct (gather_err one done [] e' G) as (k & I & O). exists k. split; [|exact O].
    apply IN, in_seq in I. lia.
- split.
  + intros r. destruct (train_in_order one (seq 0 K)) as [vs|e] eqn:T.
    * apply order_ok in T. split; [intros Q; injection Q as <-; eauto|]. intros (ws & -> & M). apply order_ok in T. apply order_ok in M. congruence.
    * split; [discriminate|]. intros (ws & _ & M). apply order_ok in M. congruence.
  + intros e. destruct (train_in_order one (seq 0 K)) as [vs|e'] eqn:T; [discriminate|]. intros Q. injection Q as <-. destruct (order_err one _ _ T) as (k & I & O). exists k. split; [|exact O].
    apply in_seq in I. lia.
Qed.
(** the size of the thread pool is legal and at most the number of components *)
Theorem pool_size : forall w, (0 < K)%nat -> (1 <= workers w (Z.of_nat K) <= Z.of_nat K)%Z.
Proof. intros w H. unfold workers. destruct w; lia. Qed.
(** the components go round the devices *)
Theorem round_robin : forall devs k, devs <> [] -> exists d, device_of (Some devs) k = Some d /\ nth_error devs (k mod length devs) = Some d.
Proof.
intros [|d0 r] k NE; [congruence|]. unfold device_of. destruct (nth_error (d0 :: r) (k mod length (d0 :: r))) as [d|] eqn:Q.
- exists d. split; [|reflexivity]. rewrite (nth_error_nth _ _ 0%Z Q). reflexivity.
- apply nth_error_None in Q. pose proof (Nat.mod_upper_bound k (length (d0 :: r)) ltac:(discriminate)). lia.
Qed.
End C96.
Print Assumptions parallel_training. Print Assumptions pool_size. Print Assumptions round_robin.
Example parallel_ex : train_components (fun k => Ok (10 * k) : res nat nat)%nat true 3 [2; 0; 1]%nat = Ok (Some [0; 10; 20]%nat) /\
  train_components (fun k => if (k =? 1)%nat then Err 5 else Ok k : res nat nat)%nat true 3 [2; 1; 0]%nat = Err 5%nat /\ device_of (Some [4; 6]%Z) 3 = Some 6%Z.
Proof. vm_compute. auto. Qed.

(** ** C97: devices *)
Lemma normalize_args : forall k key, get key (kw_args (normalize_kwargs k)) =
  match get key (kw_args k) with Some v => Some v | None => if existsb (String.eqb key) device_keys then kw_device k else None end.
Proof.
intros [dev args] key. unfold normalize_kwargs. cbn [kw_device kw_args]. destruct dev as [dev|].
- cbn [kw_args]. unfold device_keys. cbn [fold_left]. rewrite !get_setdefault. cbn [existsb]. rewrite !(String.eqb_sym key). destruct (get key args); [reflexivity|].
  destruct (String.eqb "random_logdet_lanczos_compute_device" key); [reflexivity|]. destruct (String.eqb "Chol_factor_compute_device" key); [reflexivity|].
  destruct (String.eqb "update_Chol_factor_compute_device" key); [reflexivity|]. destruct (String.eqb "Chol_solve_compute_device" key); [reflexivity|]. destruct (String.eqb "Chol_logdet_compute_device" key); reflexivity.
- cbn [kw_args]. destruct (get key args); [reflexivity|]. destruct (existsb _ _); reflexivity.
Qed.
Lemma cpu_fold : forall keys a key, get key (fold_left (fun a key => if is_gpu (get key a) then put key "cpu"%string a else a) keys a) =
  if existsb (String.eqb key) keys && is_gpu (get key a) then Some "cpu"%string else get key a.
Proof.
induction keys as [|j keys IH]; intros a key; cbn [fold_left existsb andb]; [reflexivity|]. rewrite IH. destruct (String.eqb key j) eqn:Q; cbn [orb].
- apply String.eqb_eq in Q. subst j. destruct (is_gpu (get key a)) eqn:G; [|rewrite G; destruct (existsb _ keys); reflexivity]. rewrite get_put, String.eqb_refl. cbn. destruct (existsb _ keys); reflexivity.
- destruct (is_gpu (get j a)); [|reflexivity]. rewrite get_put. rewrite String.eqb_sym in Q. rewrite Q. reflexivity.
Qed.
Lemma lower_is : forall c l, In l [("g", "G"); ("p", "P"); ("u", "U")]%char -> (Ascii.eqb (lower_char c) (fst l) = (Ascii.eqb c (fst l) || Ascii.eqb c (snd l))%bool).
Proof. intros c l H. destruct H as [<-|[<-|[<-|[]]]]; destruct c as [[] [] [] [] [] [] [] []]; vm_compute; reflexivity. Qed.
Lemma is_gpu_spec : forall o, is_gpu o = asks_gpu o.
Proof.
intros [s|]; [|reflexivity]. unfold is_gpu, asks_gpu. destruct s as [|a [|b [|c [|d r]]]]; cbn [lower existsb String.eqb]; try reflexivity;
  try (repeat match goal with |- context [Ascii.eqb ?x ?y] => destruct (Ascii.eqb x y) end; reflexivity).
pose proof (lower_is a ("g", "G")%char ltac:(cbn; auto)) as Ha. pose proof (lower_is b ("p", "P")%char ltac:(cbn; auto)) as Hb. pose proof (lower_is c ("u", "U")%char ltac:(cbn; auto)) as Hc.
cbn [fst snd] in Ha, Hb, Hc. rewrite Ha, Hb, Hc.
destruct (Ascii.eqb a "g"), (Ascii.eqb a "G"), (Ascii.eqb b "p"), (Ascii.eqb b "P"), (Ascii.eqb c "u"), (Ascii.eqb c "U"); reflexivity.
Qed.
Lemma devices_l : forall k req n, let '(k', ids) := choose_devices k req n in
  (* the devices exist, and all existing ones that were asked for are used *)
  match ids with
  | Some l => l <> [] /\ (forall i, In i l -> (0 <= i < n)%Z) /\
      match req with Ids asked => forall i, In i asked -> (0 <= i < n)%Z -> In i l | AutoIds => forall i, (0 <= i < n)%Z -> In i l | NoRequest => l = [0%Z] end
  | None => forall key, In key device_keys -> is_gpu (get key (kw_args k')) = false                  (* nothing is left on the GPU *)
  end /\
  (* entries for other purposes are handed on; entries of the caller take precedence over compute_device; only gpu without a GPU is changed *)
  (forall key, ~ In key device_keys -> get key (kw_args k') = get key (kw_args k)) /\
  (forall key, In key device_keys -> get key (kw_args k') = (let asked := match get key (kw_args k) with Some v => Some v | None => kw_device k end in
     if is_gpu asked && (n <=? 0)%Z then Some "cpu"%string else asked)) /\
  (kw_device k' = kw_device k \/ (kw_device k' = Some "cpu"%string /\ (n <= 0)%Z)) /\
  ((exists key, In key device_keys /\ is_gpu (match get key (kw_args k) with Some v => Some v | None => kw_device k end) = true) -> (n <= 0)%Z -> kw_device k' = Some "cpu"%string).
Proof.
intros k req n. unfold choose_devices. cbv zeta. assert (KD : kw_device (normalize_kwargs k) = kw_device k) by (destruct k as [[d|] a]; reflexivity).
assert (DK : forall key, In key device_keys -> get key (kw_args (normalize_kwargs k)) = match get key (kw_args k) with Some v => Some v | None => kw_device k end).
{ intros key I. rewrite normalize_args. apply existsb_eqb in I. rewrite I. reflexivity. }
assert (OK : forall key, ~ In key device_keys -> get key (kw_args (normalize_kwargs k)) = get key (kw_args k)).
{ intros key I. rewrite normalize_args. destruct (get key (kw_args k)); [reflexivity|]. destruct (existsb (String.eqb key) device_keys) eqn:Q; [apply existsb_eqb in Q; contradiction|reflexivity]. }
destruct (existsb (fun key => is_gpu (get key (kw_args (normalize_kwargs k)))) device_keys) eqn:EX.
- destruct (0 <? n)%Z eqn:NP.
  + apply Z.ltb_lt in NP. replace (n <=? 0)%Z with false by (symmetry; apply Z.leb_gt; lia). split.
    * destruct req as [| |l].
      -- split; [discriminate|]. split; [intros i [<-|[]]; lia|reflexivity].
      -- assert (Z1 : forall i, In i (zrange n) <-> (0 <= i < n)%Z).
         { intros i. unfold zrange. rewrite in_map_iff. split; [intros (x & <- & I); apply in_seq in I; lia|]. intros H. exists (Z.to_nat i). split; [lia|]. apply in_seq. lia. }
         split; [|split; [intros i I; apply Z1, I|intros i H; apply Z1, H]]. intros Q. pose proof (proj2 (Z1 0%Z) ltac:(lia)) as I. rewrite Q in I. destruct I.
      -- destruct (filter _ l) as [|a f] eqn:F.
         ++ split; [discriminate|]. split; [intros i [<-|[]]; lia|]. intros i I H. exfalso. assert (IF : In i (filter (fun i => (0 <=? i)%Z && (i <? n)%Z) l)).
            { apply filter_In. split; [exact I|]. apply andb_true_iff. split; [apply Z.leb_le|apply Z.ltb_lt]; lia. } rewrite F in IF. destruct IF.
         ++ rewrite <- F. split; [rewrite F; discriminate|]. split.
            ** intros i I. apply filter_In in I. destruct I as [_ I]. apply andb_true_iff in I. destruct I as [I1 I2]. apply Z.leb_le in I1. apply Z.ltb_lt in I2. lia.
            ** intros i I H. apply filter_In. split; [exact I|]. apply andb_true_iff. split; [apply Z.leb_le|apply Z.ltb_lt]; lia.
    * split; [exact OK|]. split; [intros key I; rewrite (DK key I), andb_false_r; reflexivity|]. split; [left; exact KD|]. intros _ H. lia.
  + apply Z.ltb_ge in NP. replace (n <=? 0)%Z with true by (symmetry; apply Z.leb_le; lia). cbn [kw_args kw_device]. split; [|split; [|split; [|split]]].
    * intros key I. rewrite cpu_fold. pose proof (proj2 (existsb_eqb key device_keys) I) as Q. rewrite Q. cbn [andb]. destruct (is_gpu (get key (kw_args (normalize_kwargs k)))) eqn:G; [reflexivity|exact G].
    * intros key I. rewrite cpu_fold. destruct (existsb (String.eqb key) device_keys) eqn:Q; [apply existsb_eqb in Q; contradiction|]. apply OK, I.
    * intros key I. rewrite cpu_fold, (proj2 (existsb_eqb key device_keys) I), (DK key I), andb_true_r. reflexivity.
    * right. split; [reflexivity|lia].
    * reflexivity.
- assert (NG : forall key, In key device_keys -> is_gpu (get key (kw_args (normalize_kwargs k))) = false).
  { intros key I. destruct (is_gpu (get key (kw_args (normalize_kwargs k)))) eqn:G; [|reflexivity]. assert (X : existsb (fun key => is_gpu (get key (kw_args (normalize_kwargs k)))) device_keys = true) by (apply existsb_exists; eauto). congruence. }
  split; [exact NG|]. split; [exact OK|]. split; [|split; [left; exact KD|]].
  + intros key I. pose proof (NG key I) as G. rewrite (DK key I) in *. rewrite G. reflexivity.
  + intros (key & I & G). rewrite <- (DK key I), (NG key I) in G. discriminate.
Qed.
(** C97, the part that holds.  [k']: what the GPs are built with.  Missing: compute_device stays at gpu without a GPU if all five entries of args name another device. *)
Theorem devices_partial : forall k req n, let '(k', ids) := choose_devices k req n in
  (* the devices exist, and all existing ones that were asked for are used *)
  match ids with
  | Some l => l <> [] /\ (forall i, In i l -> (0 <= i < n)%Z) /\
      match req with Ids asked => forall i, In i asked -> (0 <= i < n)%Z -> In i l | AutoIds => forall i, (0 <= i < n)%Z -> In i l | NoRequest => l = [0%Z] end
  | None => forall key, In key operation_devices -> asks_gpu (get key (kw_args k')) = false                  (* nothing is left on the GPU *)
  end /\
  (* entries for other purposes are handed on; entries of the caller take precedence over compute_device; only gpu without a GPU is changed *)
  (forall key, ~ In key operation_devices -> get key (kw_args k') = get key (kw_args k)) /\
  (forall key, In key operation_devices -> get key (kw_args k') = (let asked := match get key (kw_args k) with Some v => Some v | None => kw_device k end in
     if asks_gpu asked && (n <=? 0)%Z then Some "cpu"%string else asked)) /\
  (kw_device k' = kw_device k \/ (kw_device k' = Some "cpu"%string /\ (n <= 0)%Z)) /\
  ((exists key, In key operation_devices /\ asks_gpu (match get key (kw_args k) with Some v => Some v | None => kw_device k end) = true) -> (n <= 0)%Z -> kw_device k' = Some "cpu"%string).
Proof.
intros k req n. pose proof (devices_l k req n) as H. destruct (choose_devices k req n) as [k' ids]. destruct H as (H1 & H2 & H3 & H4 & H5).
assert (OD : forall key, In key operation_devices <-> In key device_keys) by (intros key; cbn; tauto). split; [|split; [intros key I; apply H2; rewrite <- OD; exact I|split; [|split; [exact H4|]]]].
- destruct ids; [exact H1|]. intros key I. rewrite <- is_gpu_spec. apply H1, OD, I.
- intros key I. cbv zeta. rewrite <- is_gpu_spec. apply H3, OD, I.
- intros (key & I & G). apply H5. exists key. rewrite is_gpu_spec, <- OD. auto.
Qed.
(** C97 fails: without any GPU the GPs are built for the GPU *)
Theorem devices_refuted : ~ (forall k req n, (n <= 0)%Z -> asks_gpu (kw_device (fst (choose_devices k req n))) = false).
Proof.
intros H. specialize (H {| kw_device := Some "gpu"; kw_args := map (fun k => (k, "cpu")) operation_devices |}%string NoRequest 0%Z ltac:(lia)). vm_compute in H. discriminate.
Qed.
Print Assumptions devices_partial. Print Assumptions devices_refuted.
Example devices_ex : let k := {| kw_device := Some "gpu"; kw_args := [("GPU_engine", "torch"); ("Chol_solve_compute_device", "cpu")] |}%string in
  snd (choose_devices k (Ids [5; 1; 0; -1]%Z) 2) = Some [1; 0]%Z /\ snd (choose_devices k AutoIds 3) = Some [0; 1; 2]%Z /\
  get "Chol_solve_compute_device" (kw_args (fst (choose_devices k AutoIds 3))) = Some "cpu"%string /\ get "Chol_factor_compute_device" (kw_args (fst (choose_devices k AutoIds 3))) = Some "gpu"%string /\
  get "Chol_factor_compute_device" (kw_args (fst (choose_devices k AutoIds 0))) = Some "cpu"%string /\ get "GPU_engine" (kw_args (fst (choose_devices k AutoIds 0))) = Some "torch"%string.
Proof. vm_compute. repeat split. Qed.

(** ** C98: the constructor calls *)
Section C98.
Context {V G X : Type} (construct : dict V -> ctor G X) (noise : V) (kernel mean : option V) (gp_kwargs : dict V).
(** the retries end, whatever the constructor does *)
Theorem component_terminates : forall signature, make_component construct signature noise kernel mean gp_kwargs <> BuildFuel.
Proof. intros sg. apply first_built_fuel. Qed.
Hypotheses (ND : NoDup (map fst gp_kwargs)) (OWN : forall key, In key ("noise_variances"%string :: kernel_keys ++ mean_keys) -> ~ In key (map fst gp_kwargs)).
(** C98: with a constructor that has the three names used in this repository and does not complain about names it has, no alias is tried and nothing is dropped: the GP is built with the
    variances, the kernel and the mean of the component and with all keyword arguments the constructor knows, or its exception is passed on *)
Theorem component_arguments : forall s, In "noise_variances"%string s -> In "kernel_function"%string s -> In "prior_mean_function"%string s ->
  (forall kw bad, construct kw = Unexpected bad -> ~ In bad s) ->
  match make_component construct (Some s) noise kernel mean gp_kwargs with
  | Gp g kw removed => removed = [] /\ construct kw = Built g /\ get "noise_variances" kw = Some noise /\ get "kernel_function" kw = kernel /\ get "prior_mean_function" kw = mean /\
      forall key, ~ In key ["noise_variances"; "kernel_function"; "prior_mean_function"]%string -> get key kw = if existsb (String.eqb key) s then get key gp_kwargs else None
  | BuildErr _ => True
  | _ => False
  end.
Proof. exact (component_known construct noise kernel mean gp_kwargs ND OWN). Qed.
(** C98: whatever the constructor accepts, the kernel of a component is given up only after all its names have been rejected *)
Theorem kernel_kept : forall signature f g kw removed, kernel = Some f -> make_component construct signature noise kernel mean gp_kwargs = Gp g kw removed ->
  construct kw = Built g /\ ((exists key, In key kernel_keys /\ get key kw = Some f) \/ (forall key, In key kernel_keys -> exists kw', construct kw' = Unexpected key)).
Proof. exact (component_kernel construct noise kernel mean gp_kwargs ND OWN). Qed.
End C98.
Print Assumptions component_terminates. Print Assumptions component_arguments. Print Assumptions kernel_kept.
(** an older constructor: calls the kernel gp_kernel_function, has no ram_economy *)
Definition old_ctor (kw : dict nat) : ctor (dict nat) unit :=
  match filter (fun p => negb (existsb (String.eqb (fst p)) ["noise_variances"; "gp_kernel_function"; "prior_mean_function"]%string)) kw with [] => Built kw | p :: _ => Unexpected (fst p) end.
Example component_ex : make_component old_ctor None 1%nat (Some 2%nat) (Some 3%nat) [("ram_economy"%string, 4%nat)] =
  Gp [("noise_variances", 1); ("gp_kernel_function", 2); ("prior_mean_function", 3)]%string%nat [("noise_variances", 1); ("gp_kernel_function", 2); ("prior_mean_function", 3)]%string%nat ["ram_economy"]%string.
Proof. vm_compute. reflexivity. Qed.
