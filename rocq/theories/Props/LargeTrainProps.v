(** A GP under gp2Scale through updates and trainings in any order: C214. *)
From Coq Require Import Reals Lra List ZArith Lia.
From mathcomp Require Import all_ssreflect all_algebra.
From Verif Require Import Model.Prelude Model.GPState Model.Likelihood Model.Solvers Model.Posterior Model.Gp2Scale Model.LifeCycle Model.LargeGP Model.LargeTrain.
From Verif Require Import Proofs.RealMx Spec.CholSpec Spec.SolversSpec Spec.GPStateSpec Spec.Gp2ScaleSpec Spec.LifeCycleSpec Spec.LargeGPSpec Spec.KernelSpec Spec.LikelihoodSpec Spec.PosteriorSpec.
From Verif Require Import Proofs.GPStateP Proofs.LifeEntryP Proofs.CholP Proofs.PosDef Proofs.SolversP Proofs.PosteriorP Proofs.Gp2ScaleHistP Proofs.LifeCycleP Proofs.LargeListP Proofs.LargeGPP.
From Verif Require Import Props.SolversProps Props.PosteriorProps Props.LifeCycleProps Props.LargeGPProps Props.TrainBOProps Props.TrainSessionProps.
Set Implicit Arguments.
Unset Strict Implicit.
Unset Printing Implicit Defensive.
Import Order.TTheory GRing.Theory Num.Theory.
Local Open Scope ring_scope.

Section Large.
Variables P H : Type.
Variables (p0 : P) (k : P -> P -> H -> R) (kernel : list P -> list P -> H -> res cexn (@kout R)).
Variables (batch : Z) (dist : distribution) (isz : R -> bool).
Variables (mu : option (P -> H -> R)) (nz : noise_choice P H) (favg defnoise : list R -> R).
Variable cho_factor np_inv : forall n, 'M[R]_n -> option 'M[R]_n.
Variable LUt : nat -> Type.
Variable splu : forall n, 'M[R]_n -> option (LUt n).
Variable lu_solve : forall n k, LUt n -> 'M[R]_(n, k) -> 'M[R]_(n, k).
Variable lu_diag : forall n, LUt n -> 'rV[R]_n.
Variable iterate : smode -> forall n k, 'M[R]_n -> 'M[R]_(n, k) -> 'M[R]_(n, k).
Variable estimate : nat -> forall n, 'M[R]_n -> R * option R.
Variable Obj : nat -> Type.
Variable c_factor : forall n, 'M[R]_n -> Obj n.
Variable c_solve : forall n k, Obj n -> 'M[R]_(n, k) -> 'M[R]_(n, k).
Variable c_logdet : forall n, Obj n -> R.
Variable mode : smode.
Hypothesis CC : @chol_contract R_rcfType cho_factor.
Hypothesis CI : @inv_contract R_rcfType np_inv.
Hypothesis CL : @lu_contract R_rcfType LUt splu lu_solve lu_diag.
Hypothesis CU : @custom_contract R_rcfType R_zmodType lnabs Obj c_factor c_solve c_logdet.
Hypothesis NS : symmetric_noise nz.
Hypothesis Hz : forall v, isz v = true <-> v = R0.
Hypothesis Hk : kernel_is R0 Rplus kernel k.
Hypothesis VK : forall h, valid_covariance (fun a b => k a b h).

Notation gstart := (g_start kernel batch dist isz mu nz favg defnoise cho_factor np_inv splu lu_solve lu_diag iterate estimate c_factor c_solve c_logdet mode).
Notation gnext := (g_next kernel batch dist isz mu nz favg defnoise cho_factor np_inv splu lu_solve lu_diag iterate estimate c_factor c_solve c_logdet mode).
Notation grun := (g_run kernel batch dist isz mu nz favg defnoise cho_factor np_inv splu lu_solve lu_diag iterate estimate c_factor c_solve c_logdet mode).
Notation ltstep := (lt_step kernel batch dist isz mu nz favg defnoise cho_factor np_inv splu lu_solve lu_diag iterate estimate c_factor c_solve c_logdet mode).
Notation ltsess := (lt_session kernel batch dist isz mu nz favg defnoise cho_factor np_inv splu lu_solve lu_diag iterate estimate c_factor c_solve c_logdet mode).
Notation gmean := (g_mean kernel batch dist isz mu favg).
Notation gcov := (g_cov kernel batch dist isz lu_solve iterate c_solve mode).
Notation noisemx := (obs_noise p0 nz defnoise).
Notation obscov := (obs_cov p0 k nz defnoise).
Notation larget := (large P H LUt Obj).
Notation pts xp := (fun i : 'I_(length xp) => List.nth i xp p0).

(** the updates among the calls of a session, as the user asks for them *)
Definition asked (os : list (ltop P H)) : list (lop P H) := List.flat_map (fun o => if o is LTUpdate o' then [:: o'] else [::]) os.
Definition clusters_ok (o : ltop P H) : Prop := match o with LTUpdate o' => any_cluster o' | LTTrain _ c c' => lossy c /\ lossy c' end.
Definition equal_data (d d' : @dataset P R H) : Prop := ds_x d = ds_x d' /\ ds_y d = ds_y d' /\ ds_nv d = ds_nv d'.
Definition log_density (d : @dataset P R H) : R :=
  log_gauss (targets d) (mean_vec (prior_mean favg mu d) (Spec.LifeCycleSpec.points p0 (d:=d))) (obscov d).

Let just_hps (os : list (lop P H)) : Prop := forall o, In o os -> exists h c, o = LSetHps P h c /\ lossy c.

Lemma grun_app os os' : forall t t' t'', grun t os = Some t' -> grun t' os' = Some t'' -> grun t (os ++ os')%list = Some t''.
Proof. by elim: os => [|a l IH] t t' t'' /=; [move=> [->]|case: (gnext t a) => // s; exact: IH]. Qed.
Lemma training_sets t r c c' t' : lossy c -> lossy c' -> ltstep t (LTTrain P r c c') = Some t' -> exists os, just_hps os /\ grun t os = Some t'.
Proof.
move=> L L'; case: r => [h|] //=; case E : (gnext t _) => [t1|] //; case: Rle_dec => [Le [<-]|nLe /= E2].
- by exists [:: LSetHps P h c]; rewrite /= E; split=> // o [<-|[]]; exists h, c.
by exists [:: LSetHps P h c; LSetHps P (hp (l_gp (g_life t))) c']; rewrite /= E E2; split=> // o [<-|[<-|[]]]; do 2 eexists.
Qed.
(** the history with trainings, by equal data: hyperparameters do not touch them *)
Lemma step_equal (d d' : @dataset P R H) o : equal_data d d' -> equal_data (ds_step d o) (ds_step d' o).
Proof. by move=> [A [B C]]; case: o => *; rewrite /equal_data /ds_step /= ?A ?B ?C. Qed.
Lemma history_equal os : forall d d', equal_data d d' -> equal_data (history d os) (history d' os).
Proof. by elim: os => [|o os IH] d d' E //=; apply: IH; exact: step_equal. Qed.
Lemma sets_equal os (d : @dataset P R H) : just_hps os -> equal_data (history d (List.map request os)) d.
Proof.
elim: os d => [|o os IH] d J //=; have [|h [c [-> _]]] := J o; first by left.
have /IH : just_hps os by move=> a Ia; apply: J; right.
by move=> /(_ (ds_step d (GSetHps h))) [A [B C]]; rewrite /equal_data A B C.
Qed.
Lemma session_runs os : forall t t', (forall o, In o os -> clusters_ok o) -> ltsess t os = Some t' ->
  exists ms, [/\ grun t ms = Some t', (forall o, In o ms -> any_cluster o),
    (forall o, In o ms -> In o (asked os) \/ exists h c, o = LSetHps P h c),
    list_sum (List.map new_points ms) = list_sum (List.map new_points (asked os)) &
    forall d, equal_data (history d (List.map request ms)) (history d (List.map request (asked os)))].
Proof.
elim: os => [|o os IH] t t' Ok /=; first by move=> [<-]; exists [::]; split=> // ? [].
case E : (ltstep t o) => [t1|] // S; have [|ms [R A B N D]] := IH _ _ _ S; first by move=> a Ia; apply: Ok; right.
have Oo := Ok o (or_introl erefl); case: o E Oo {Ok} => [o|r c c'] E Oo.
- exists (o :: ms); split.
  + by move: E; rewrite /= => ->.
  + by move=> a [<-|/A].
  + by move=> a [<-|/B [I|I]]; [left; left|left; right|right].
  + by rewrite /= N.
  + by move=> d; exact: D.
case: Oo => L L'; have [hs [J Hs]] := training_sets L L' E; exists (hs ++ ms)%list; split.
- exact: grun_app Hs R.
- by move=> a /in_app_iff [/J [h [c2 [-> Hl]]]|/A].
- by move=> a /in_app_iff [/J [h [c2 [-> _]]]|/B //]; right; exists h, c2.
- rewrite /= -/(asked os) -N List.map_app list_sum_app; suff -> : list_sum (List.map new_points hs) = O by [].
  by elim: (hs) J => [|a l IHl] //= J; have [|h [c2 [-> _]]] := J a; [left|rewrite /= IHl // => b Ib; apply: J; right].
- move=> d; rewrite List.map_app /history List.fold_left_app -/(history d (List.map request hs)).
  have [x [y z]] := D (history d (List.map request hs)).
  have [x' [y' z']] := history_equal (List.map request (asked os)) (sets_equal d J).
  by rewrite /equal_data -x' -y' -z'.
Qed.

(** C214: however updates and guarded trainings were mixed, on clusters that complete tasks in any order and may lose some, for
    every batch size and distribution and in every exact solver mode: the data are those of the updates; log_likelihood() and
    the predictions are those of the Gaussian process of these data at the hyperparameters in force; and a further training
    keeps the data, does not lower the likelihood, returns only if its optimizer did, and installs the result of the optimizer exactly
    if its density is at least that of the hyperparameters before *)
Theorem large_session : forall c x y nv h t0 os t,
  lossy c -> (forall o, In o os -> clusters_ok o) -> countable x (asked os) ->
  gstart c x y nv h = Some t0 -> ltsess t0 os = Some t ->
  (nz = @Measured P H -> length nv = length x /\ forall o, In o (asked os) -> aligned (request o)) ->
  (forall o, In o (asked os) -> ~ moving_noise nz (request o)) -> exact_mode mode ->
  let d := stored (g_life t) in
  equal_data d (history (DS x y nv h) (List.map request (asked os))) /\
  (posdef (noisemx d) ->
   let kh := fun a b => k a b (ds_h d) in let x := Spec.LifeCycleSpec.points p0 (d:=d) in
   let m := prior_mean favg mu d in let A := obscov d in
   g_loglik t = log_density d /\
   (forall (xp : list P) (garbage : 'M[R]_(length xp)) c', lossy c' -> (Z.of_nat (length xp) < 2 ^ 63)%Z ->
     let S := gram kh (pts xp) (pts xp) - gram kh (pts xp) x *m invmx A *m gram kh x (pts xp) in
     (forall r, gmean t c' xp = Some r -> r = mean_vec m (pts xp) + gram kh (pts xp) x *m invmx A *m (targets d - mean_vec m x)) /\
     (forall vo r, gcov t c' garbage vo = Some r -> r.1 = \col_i S i i /\ (forall S', r.2 = Some S' -> S' = S) /\ (vo = false -> r.2 = Some S))) /\
   (forall r c1 c2 t', lossy c1 -> lossy c2 -> ltstep t (LTTrain P r c1 c2) = Some t' ->
      equal_data (stored (g_life t')) d /\ (g_loglik t <= g_loglik t')%coqR /\
      (posdef (noisemx (stored (g_life t'))) -> (log_density d <= log_density (stored (g_life t')))%coqR) /\
      exists h', r = Some h' /\
        let d' := DS (ds_x d) (ds_y d) (ds_nv d) h' in
        (posdef (noisemx d') -> stored (g_life t') = if Rle_dec (log_density d) (log_density d') then d' else d))) /\
  ((forall h', posdef (noisemx (DS (ds_x d) (ds_y d) (ds_nv d) h'))) -> (forall xs ys h, exists o, kernel xs ys h = Ok o) ->
   forall h' c1 c2, faithful c1 -> faithful c2 -> exists t', ltstep t (LTTrain P (Some h') c1 c2) = Some t').
Proof.
move=> c x y nv h t0 os t Hl Ho Hc E0 Es Al Mv EM d.
have [ms [Rn Ac In' N D]] := session_runs Ho Es.
(* what C191 says after these calls and further settings of hyperparameters *)
have Gen ms' t1 : (forall o, In o ms' -> exists h c, o = LSetHps P h c /\ lossy c) -> grun t ms' = Some t1 ->
    stored (g_life t1) = history d (List.map request ms') /\
    (posdef (noisemx (stored (g_life t1))) -> g_loglik t1 = log_density (stored (g_life t1)) /\
     forall (xp : list P) (garbage : 'M[R]_(length xp)) c', lossy c' -> (Z.of_nat (length xp) < 2 ^ 63)%Z ->
       let d := stored (g_life t1) in let kh := fun a b => k a b (ds_h d) in let x := Spec.LifeCycleSpec.points p0 (d:=d) in
       let m := prior_mean favg mu d in let A := obscov d in
       let S := gram kh (pts xp) (pts xp) - gram kh (pts xp) x *m invmx A *m gram kh x (pts xp) in
       (forall r, gmean t1 c' xp = Some r -> r = mean_vec m (pts xp) + gram kh (pts xp) x *m invmx A *m (targets d - mean_vec m x)) /\
       (forall vo r, gcov t1 c' garbage vo = Some r -> r.1 = \col_i S i i /\ (forall S', r.2 = Some S' -> S' = S) /\ (vo = false -> r.2 = Some S))).
  move=> J R1; have R' := grun_app Rn R1.
  have Ac' o : In o (ms ++ ms')%list -> any_cluster o by move=> /in_app_iff [/Ac|/J [h1 [c1 [-> ?]]]].
  have N' : list_sum (List.map new_points ms') = O.
    by elim: (ms') J => [|a l IHl] //= J; have [|h1 [c1 [-> _]]] := J a; [left|rewrite /= IHl // => b Ib; apply: J; right].
  have Hc' : countable x (ms ++ ms')%list by rewrite /countable List.map_app list_sum_app N' Nat.add_0_r N.
  have Hcm : countable x ms by rewrite /countable N.
  have Alo o : In o (ms ++ ms')%list -> In o (asked os) \/ exists h c, o = LSetHps P h c.
    by move=> /in_app_iff [/In'|/J [h1 [c1 [-> _]]]] //; right; exists h1, c1.
  have Al' : nz = @Measured P H -> length nv = length x /\ forall o, In o (ms ++ ms')%list -> aligned (request o).
    by move=> e; have [a b] := Al e; split=> // o /Alo [/b|[h1 [c1 ->]]].
  have Mv' o : In o (ms ++ ms')%list -> ~ moving_noise nz (request o).
    by move=> /Alo [Io|[h1 [c1 ->]]]; [exact: Mv|rewrite /moving_noise /=; case: (nz) => *; tauto].
  have Alm : nz = @Measured P H -> length nv = length x /\ forall o, In o ms -> aligned (request o).
    by move=> e; have [a b] := Al' e; split=> // o Io; apply: b; apply/in_app_iff; left.
  have Mvm o : In o ms -> ~ moving_noise nz (request o) by move=> Io; apply: Mv'; apply/in_app_iff; left.
  have [Dm _] := large_end_to_end p0 CC CI CL CU NS Hz Hk VK Hl Ac Hcm E0 Rn Alm Mvm EM.
  have [D1 Q] := large_end_to_end p0 CC CI CL CU NS Hz Hk VK Hl Ac' Hc' E0 R' Al' Mv' EM.
  split; first by rewrite D1 List.map_app /history List.fold_left_app -/(history _ (List.map request ms)) /d Dm.
  move=> PN; have [L Q'] := Q PN; split=> // xp garbage c' Hl' Bp; have [M1 M2 _ _] := Q' xp garbage c' Hl' Bp.
  by split.
have Suc ms' t1 h2 c2 : (forall o, In o ms' -> exists h c, o = LSetHps P h c /\ lossy c) -> grun t ms' = Some t1 ->
    (forall h', posdef (noisemx (DS (ds_x d) (ds_y d) (ds_nv d) h'))) -> (forall xs ys h, exists o, kernel xs ys h = Ok o) -> faithful c2 ->
    exists t2, gnext t1 (LSetHps P h2 c2) = Some t2.
  move=> J R1 PN Kt Fc; have [D1 _] := Gen _ _ J R1; have [ex [ey en]] := sets_equal d J.
  have [_ T] := @large_updates_succeed P H p0 k kernel batch dist isz mu nz favg defnoise _ _ _ _ _ _ iterate estimate Obj c_factor c_solve c_logdet mode CC CI CL NS Hz Hk VK Kt.
  have N' : list_sum (List.map new_points ms') = O.
    by elim: (ms') J => [|a l IHl] //= J; have [|h1 [c1 [-> _]]] := J a; [left|rewrite /= IHl // => b Ib; apply: J; right].
  have Alo o : In o (ms ++ ms')%list -> In o (asked os) \/ exists h c, o = LSetHps P h c.
    by move=> /in_app_iff [/In'|/J [h1 [c1 [-> _]]]] //; right; exists h1, c1.
  have NMh h1 : ~ moving_noise nz (GSetHps h1) by rewrite /moving_noise /=; case: (nz) => *; tauto.
  apply: (T c x y nv h t0 (ms ++ ms')%list t1 (LSetHps P h2 c2) Hl) => //.
  - by move=> o /in_app_iff [/Ac|/J [h1 [c1 [-> ?]]]].
  - by move: Hc; rewrite /countable !List.map_app !list_sum_app N' N /=; lia.
  - exact: grun_app Rn R1.
  - by move=> e; have [a b] := Al e; split=> // o /Alo [/b|[h1 [c1 ->]]].
  - by move=> o /Alo [Io|[h1 [c1 ->]]]; [exact: Mv|exact: NMh].
  - exact: NMh.
  - by rewrite D1; move: (PN h2); rewrite -ex -ey -en.
have [D0 Q0] := Gen [::] t (fun _ (I : False) => match I with end) erefl.
split.
  have := D (DS x y nv h); suff -> : history (DS x y nv h) (List.map request ms) = d by [].
  have Hcm : countable x ms by rewrite /countable N.
  have Alm : nz = @Measured P H -> length nv = length x /\ forall o, In o ms -> aligned (request o).
    by move=> e; have [a b] := Al e; split=> // o /In' [/b|[h1 [c1 ->]]].
  have Mvm o : In o ms -> ~ moving_noise nz (request o) by move=> /In' [Io|[h1 [c1 ->]]]; [exact: Mv|rewrite /moving_noise /=; case: (nz) => *; tauto].
  by have [Dd _] := large_end_to_end p0 CC CI CL CU NS Hz Hk VK Hl Ac Hcm E0 Rn Alm Mvm EM; rewrite /d Dd.
split; last first.
  move=> PN Kt h' c1 c2 F1 F2 /=.
  have [t1 E1] := Suc [::] t h' c1 (fun _ (I : False) => match I with end) erefl PN Kt F1; rewrite E1; case: Rle_dec => [Le|nLe] /=; first by exists t1.
  apply: (Suc [:: LSetHps P h' c1] t1 _ c2 _ _ PN Kt F2); last by rewrite /= E1.
  by move=> o [<-|[]]; exists h', c1; split=> //; exact: faithful_lossy.
move=> PN kh x' m A; have [L Q] := Q0 PN; split=> //; split; first by move=> xp garbage c' Hl' Bp; exact: Q.
move=> r c1 c2 t' L1 L2 E.
have [hs [J Hs]] := training_sets L1 L2 E; have [Dt Qt] := Gen _ _ J Hs.
have Ed : equal_data (stored (g_life t')) d by rewrite Dt; exact: sets_equal.
have Ch : exists h', r = Some h' /\ let d' := DS (ds_x d) (ds_y d) (ds_nv d) h' in
    (posdef (noisemx d') -> stored (g_life t') = if Rle_dec (log_density d) (log_density d') then d' else d).
  case: r E => [h1|] //= E; exists h1; split=> // PN1; move: E; case E1 : (gnext t _) => [t1|] // E.
  have J1 o : In o [:: LSetHps P h1 c1] -> exists h c, o = LSetHps P h c /\ lossy c by move=> [<-|[]]; do 2 eexists.
  have R1 : grun t [:: LSetHps P h1 c1] = Some t1 by rewrite /= E1.
  have [D1 Q1] := Gen _ _ J1 R1.
  have {}D1 : stored (g_life t1) = DS (ds_x d) (ds_y d) (ds_nv d) h1 by rewrite D1.
  have [|L1' _] := Q1; first by rewrite D1.
  move: E; rewrite L L1' D1; case: Rle_dec => [Le [<-] //|nLe /= E2].
  have J2 o : In o [:: LSetHps P h1 c1; LSetHps P (hp (l_gp (g_life t))) c2] -> exists h c, o = LSetHps P h c /\ lossy c.
    by move=> [<-|[<-|[]]]; do 2 eexists.
  have R2 : grun t [:: LSetHps P h1 c1; LSetHps P (hp (l_gp (g_life t))) c2] = Some t' by rewrite /= E1 E2.
  by have [-> _] := Gen _ _ J2 R2.
suff Le : (g_loglik t <= g_loglik t')%coqR by split=> //; split=> //; split=> // PN'; have [<- _] := Qt PN'; rewrite -L.
case: r E {Ch} => [h1|] //=; case E1 : (gnext t _) => [t1|] //; case: Rle_dec => [Le [<-] //|nLe /= E2].
have J2 o : In o [:: LSetHps P h1 c1; LSetHps P (hp (l_gp (g_life t))) c2] -> exists h c, o = LSetHps P h c /\ lossy c.
  by move=> [<-|[<-|[]]]; do 2 eexists.
have R2 : grun t [:: LSetHps P h1 c1; LSetHps P (hp (l_gp (g_life t))) c2] = Some t' by rewrite /= E1 E2.
have [D2 Q2] := Gen _ _ J2 R2.
have {}D2 : stored (g_life t') = d by rewrite D2.
have [|L' _] := Q2; first by rewrite D2.
by rewrite L L' D2; exact: Rle_refl.
Qed.
End Large.
Print Assumptions large_session.

(** example: the observation 2 at 1 with variance 1; the kernel is the product of the points times the squared scale, which is 1; tasks
    are completed last to first.  An optimizer that returns the scale 0 is turned down, one that returns 2 is not *)
Definition scalekernel (xs ys : list R) (h : list R) : res cexn (@kout R) := Ok (KDense (length ys) (kernel_call lins xs ys h)).
Lemma scalekernel_is : kernel_is R0 Rplus scalekernel lins.
Proof.
move=> xs ys h o [<-]; split=> //; rewrite /kernel_call map_length; split=> //; split.
  by move=> r /in_map_iff [a [<- _]]; rewrite map_length.
move=> i j Hi Hj; rewrite (cov_at _ _ _ _ _ _ R0) //; exact: (mget_ent R0 (fun a b => lins a b h) xs ys i j R0).
Qed.
Notation with_lt f mode it est := (f scalekernel 1%Z Blockwise zeroR (Some (fun _ _ => R0)) (@Measured R (list R)) (fun _ => R0) (fun _ => R0)
  (@my_cho R_rcfType) (@my_inv R_rcfType) (fun n => 'M[R]_n) (@my_lu R_rcfType) idR_sol (@my_diag R_rcfType) it est
  (fun n => 'M[R]_n) (fun n A => A) idR_sol (@my_logdet R_rcfType R_zmodType lnabs) mode).
Example large_session_ex mode it est : exact_mode mode ->
  exists t0 t1 t2, with_lt (@g_start R (list R)) mode it est lastfirst [:: 1%coqR] [:: 2%coqR] [:: 1%coqR] [:: 1%coqR] = Some t0 /\
    (with_lt (@lt_step R (list R)) mode it est t0 (LTTrain R (Some [:: 0%coqR]) lastfirst lastfirst) = Some t1 /\ ds_h (stored (g_life t1)) = [:: 1%coqR]) /\
    (with_lt (@lt_step R (list R)) mode it est t0 (LTTrain R (Some [:: 2%coqR]) lastfirst lastfirst) = Some t2 /\ ds_h (stored (g_life t2)) = [:: 2%coqR]).
Proof.
move=> EM; have [CC [CI [CL CU]]] := contracts_possible (lnabs : R_rcfType -> R_zmodType).
have NS : symmetric_noise (@Measured R (list R)) by [].
have Kt (xs ys : list R) (h : list R) : exists o, scalekernel xs ys h = Ok o by eexists.
have PD h : posdef (obs_noise R0 (@Measured R (list R)) (fun _ => R0) (DS [:: 1%coqR] [:: 2%coqR] [:: 1%coqR] h)).
  have -> : obs_noise R0 (@Measured R (list R)) (fun _ => R0) (DS [:: 1%coqR] [:: 2%coqR] [:: 1%coqR] h) = 1%:M.
    by apply/matrixP=> i j; rewrite !mxE /noise_entry !ord1 /=.
  by move=> x x0; rewrite mulmx1; exact: quad_gt0.
have [B _] := @large_updates_succeed R (list R) R0 lins scalekernel 1%Z Blockwise zeroR (Some (fun _ _ => R0)) (@Measured R (list R)) (fun _ => R0) (fun _ => R0)
  _ _ _ _ _ _ it est (fun n => 'M[R]_n) (fun n A => A) idR_sol (@my_logdet R_rcfType R_zmodType lnabs) mode CC CI CL NS zeroR_iff scalekernel_is lins_valid Kt.
pose proof (@large_end_to_end R (list R) R0 lins scalekernel 1%Z Blockwise zeroR (Some (fun _ _ => R0)) (@Measured R (list R)) (fun _ => R0) (fun _ => R0)
  _ _ _ _ _ _ it est _ _ _ _ mode CC CI CL CU NS zeroR_iff scalekernel_is lins_valid) as EE.
pose proof (@large_session R (list R) R0 lins scalekernel 1%Z Blockwise zeroR (Some (fun _ _ => R0)) (@Measured R (list R)) (fun _ => R0) (fun _ => R0)
  _ _ _ _ _ _ it est _ _ _ _ mode CC CI CL CU NS zeroR_iff scalekernel_is lins_valid) as SS.
have Fl : faithful (lastfirst : @cluster_t R) by exact: lastfirst_faithful.
have Ll := @faithful_lossy lastfirst Fl.
have C0 : countable (H:=list R) [:: 1%coqR] [::] by rewrite /countable; cbn; lia.
have [t0 E0] := B lastfirst [:: 1%coqR] [:: 2%coqR] [:: 1%coqR] [:: 1%coqR] Fl C0 (fun=> erefl) (PD _).
have [_ [_ T]] := SS lastfirst _ _ _ _ t0 [::] t0 Ll ltac:(by []) C0 E0 erefl ltac:(by []) ltac:(by []) EM.
have St (hs : list (list R)) t : with_lt (@g_run R (list R)) mode it est t0 (List.map (fun h => LSetHps R h lastfirst) hs) = Some t ->
    stored (g_life t) = DS [:: 1%coqR] [:: 2%coqR] [:: 1%coqR] (List.last hs [:: 1%coqR]) /\
    g_loglik t = (let s := List.nth 0 (List.last hs [:: 1%coqR]) R0 in - / 2 * (4 / (s * s + 1) + ln (s * s + 1) + ln (2 * PI)))%coqR.
  move=> Er; have Any o : In o (List.map (fun h => LSetHps R h (lastfirst : @cluster_t R)) hs) -> any_cluster o by move=> /in_map_iff [h [<- _]].
  have Cn : countable [:: 1%coqR] (List.map (fun h => LSetHps R h (lastfirst : @cluster_t R)) hs).
    by rewrite /countable; suff -> : list_sum (List.map new_points (List.map (fun h => LSetHps R h (lastfirst : @cluster_t R)) hs)) = O by []; elim: (hs).
  have Al : @Measured R (list R) = @Measured R (list R) -> length [:: 1%coqR] = length [:: 1%coqR] /\
      forall o, In o (List.map (fun h => LSetHps R h (lastfirst : @cluster_t R)) hs) -> aligned (request o).
    by move=> _; split=> // o /in_map_iff [h [<- _]].
  have [D Q] := EE lastfirst _ _ _ _ t0 _ t Ll Any Cn E0 Er Al (fun o _ F => F) EM.
  have Hd : forall h0 : list R, history (DS [:: 1%coqR] [:: 2%coqR] [:: 1%coqR] h0) (List.map request (List.map (fun h => LSetHps R h (lastfirst : @cluster_t R)) hs))
      = DS [:: 1%coqR] [:: 2%coqR] [:: 1%coqR] (List.last hs h0).
    elim: (hs) => [|a [|b l] IH] h0 //; apply: (etrans (IH a)); congr DS.
    by elim: l b {IH} => [|c l IH] b //; exact: IH.
  rewrite Hd in D; split=> //; have [|L _] := Q; first by rewrite D; exact: PD.
  rewrite L D; exact: one_evidence.
have PN h' : posdef (obs_noise R0 (@Measured R (list R)) (fun _ => R0) (DS (ds_x (stored (g_life t0))) (ds_y (stored (g_life t0))) (ds_nv (stored (g_life t0))) h')).
  by have [-> _] := St [::] t0 erefl; exact: PD.
have [D0 L0] := St [::] t0 erefl.
have [t1 E1] := T PN Kt [:: 0%coqR] lastfirst lastfirst Fl Fl; have [t2 E2] := T PN Kt [:: 2%coqR] lastfirst lastfirst Fl Fl.
exists t0, t1, t2; split=> //; split.
- split=> //; move: E1; rewrite /lt_step; case Es : (g_next _ _ _ _ _ _ _ _ _ _ _ _ _ _ _ _ _ _ _ t0 _) => [s|] //.
  have [_ Ls] := St [:: [:: 0%coqR]] s ltac:(by rewrite /= Es).
  case: Rle_dec => [Le|nLe] /= Ef; first by exfalso; move: Le lower_at_zero; rewrite L0 Ls /=; lra.
  have [D1 _] := St [:: [:: 0%coqR]; hp (l_gp (g_life t0))] t1 ltac:(by rewrite /= Es Ef).
  exact: (etrans (f_equal ds_h D1) (f_equal ds_h D0)).
split=> //; move: E2; rewrite /lt_step; case Es : (g_next _ _ _ _ _ _ _ _ _ _ _ _ _ _ _ _ _ _ _ t0 _) => [s|] //.
have [Ds Ls] := St [:: [:: 2%coqR]] s ltac:(by rewrite /= Es).
case: Rle_dec => [Ly|Le]; last by exfalso; apply: Le; rewrite L0 Ls; exact: higher_at_two.
by move=> /= [<-]; exact: (f_equal ds_h Ds).
Qed.
