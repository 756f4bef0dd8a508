(** Proofs about the native preconditioners. *)
From mathcomp Require Import all_ssreflect all_algebra.
From Verif Require Import Model.CholUpdate Spec.CholSpec Proofs.CholP Model.PrecondMx.
Set Implicit Arguments.
Unset Strict Implicit.
Unset Printing Implicit Defensive.
Import Order.TTheory GRing.Theory Num.Theory.
Local Open Scope ring_scope.

Section IC.
Variable R : rcfType.
Implicit Types (d orig comp : pdict R) (rows : seq (pdict R)).

Lemma pget_notin d k : k \notin pkeys d -> pget d k = 0.
Proof. elim: d => [|[k' v] d IH] //=. rewrite inE negb_or eq_sym => /andP[/negbTE -> /IH]. by []. Qed.

Lemma pput_new d k v : k \notin pkeys d -> pput d k v = rcons d (k, v).
Proof. elim: d => [|[k' v'] d IH] //=. rewrite inE negb_or eq_sym => /andP[/negbTE -> /IH ->]. by []. Qed.

Lemma pget_rcons d k v x : k \notin pkeys d -> pget (rcons d (k, v)) x = if k == x then v else pget d x.
Proof.
  elim: d => [|[k' v'] d IH] //=. rewrite inE negb_or => /andP[Hk /IH ->].
  by case: (eqVneq k' x) => [E|//]; rewrite -E (negbTE Hk).
Qed.

Lemma pkeys_rcons d k v : pkeys (rcons d (k, v)) = rcons (pkeys d) k.
Proof. by rewrite /pkeys map_rcons. Qed.

Lemma pget_in d k v : uniq (pkeys d) -> (k, v) \in d -> pget d k = v.
Proof.
  elim: d => [|[k' v'] d IH] //= /andP[Hk Hu]. rewrite inE => /orP[/eqP[-> ->]|Hin]; first by rewrite eqxx.
  case: (eqVneq k' k) => [E|_]; last exact: IH.
  by rewrite E (map_f fst Hin) in Hk.
Qed.

(** iterating over a dict = summing over all keys below a bound *)
Lemma dict_sum d (f : nat -> R) m : uniq (pkeys d) -> all (fun k => (k < m)%N) (pkeys d) ->
  \sum_(p <- d) p.2 * f p.1 = \sum_(k < m) pget d k * f k.
Proof.
  elim: d => [|[k0 v] d IH] /=; first by move=> _ _; rewrite big_nil big1 // => i _; rewrite mul0r.
  move=> /andP[Hn Hu] /andP[Hk Ha]. rewrite big_cons IH //=.
  rewrite [RHS](bigD1 (Ordinal Hk)) //= eqxx [X in _ = _ + X](eq_bigr (fun k : 'I_m => pget d k * f k)); last first.
    move=> i Hi. suff -> : (k0 == i) = false by []. apply/negbTE. apply: contra Hi => /eqP E. by apply/eqP/val_inj.
  congr (_ + _). by rewrite (bigD1 (Ordinal Hk)) //= pget_notin // mul0r add0r.
Qed.

Lemma couplingE comp rowj m : uniq (pkeys comp) -> uniq (pkeys rowj) ->
  all (fun k => (k < m)%N) (pkeys comp) -> all (fun k => (k < m)%N) (pkeys rowj) ->
  coupling comp rowj = \sum_(k < m) pget comp k * pget rowj k.
Proof.
  move=> Hc Hr Ac Ar. rewrite /coupling. case: ifP => _; first exact: dict_sum.
  rewrite (eq_bigr (fun p : nat * R => p.2 * pget comp p.1)) => [|p _]; last by rewrite mulrC.
  rewrite (dict_sum _ Hr Ar). by apply: eq_bigr => i _; rewrite mulrC.
Qed.

Lemma scan_spec i row orig dv orig' dv' : scan i row orig dv = (orig', dv') ->
  uniq (pkeys orig ++ pkeys row) -> all (fun k => (k < i)%N) (pkeys orig) ->
  [/\ uniq (pkeys orig'), all (fun k => (k < i)%N) (pkeys orig'),
      forall c v, (c < i)%N -> ((c, v) \in orig') = ((c, v) \in orig) || ((c, v) \in row) &
      forall v, (i, v) \in row -> dv' = Some v] /\ (i \notin pkeys row -> dv' = dv).
Proof.
  elim: row orig dv => [|[c v] row IH] orig dv /=.
    by move=> [<- <-]; rewrite cats0 => Hu Ha; split=> //; split=> // c v _; rewrite in_nil orbF.
  move=> E Hu Ha. have Hc : c \notin pkeys orig.
    move: Hu. rewrite uniq_catC /= => /andP[+ _]. by rewrite mem_cat negb_or => /andP[].
  have Hcr : c \notin pkeys row.
    move: Hu. rewrite uniq_catC /= => /andP[+ _]. by rewrite mem_cat negb_or => /andP[].
  have Hu' : uniq (pkeys orig ++ pkeys row).
    move: Hu. rewrite uniq_catC /= => /andP[_]. by rewrite uniq_catC.
  move: E. case: ifP => [Hlt|Hge].
    rewrite pput_new // => E. have [|/=|[H1 H2 H3 H4] H5] := IH _ _ E.
    - rewrite pkeys_rcons cat_rcons. by rewrite -[c :: pkeys row]/(pkeys ((c, v) :: row)).
    - by rewrite pkeys_rcons all_rcons Hlt.
    split; [split=> //|].
    - move=> c' v' Hc'. by rewrite H3 // mem_rcons !inE; case: (_ == _); rewrite /= ?orbT.
    - move=> v' . rewrite inE => /orP[/eqP[E1 _]|]; [by rewrite E1 ltnn in Hlt|exact: H4].
    - rewrite inE negb_or => /andP[_ Hi]. exact: H5.
  case: ifP => [/eqP Ec|Hne] E.
    have [//|//|[H1 H2 H3 H4] H5] := IH _ _ E. split; [split=> //|].
    - move=> c' v' Hc'. rewrite H3 // inE. case: (eqVneq (c', v') (c, v)) => [[E1 _]|_] //=. by rewrite E1 Ec ltnn in Hc'.
    - move=> v'. rewrite inE => /orP[/eqP[_ ->]|]; last exact: H4. apply: H5. by rewrite -Ec.
    - by rewrite inE Ec eqxx.
  have [//|//|[H1 H2 H3 H4] H5] := IH _ _ E. split; [split=> //|].
  - move=> c' v' Hc'. rewrite H3 // inE. case: (eqVneq (c', v') (c, v)) => [[E1 _]|_] //=. by rewrite -E1 Hc' in Hge.
  - move=> v'. rewrite inE => /orP[/eqP[E1 _]|]; [by rewrite E1 eqxx in Hne|exact: H4].
  - rewrite inE negb_or => /andP[_ Hi]. exact: H5.
Qed.

(** rows already computed: keys below the row number, distinct, positive diagonal *)
Definition rows_ok i rows (diag : seq R) := size rows = i /\ size diag = i /\
  forall j, (j < i)%N -> uniq (pkeys (nth [::] rows j)) /\ all (fun k => (k < j)%N) (pkeys (nth [::] rows j)) /\ 0 < nth 0 diag j.

Lemma eliminate_spec i rows diag orig : rows_ok i rows diag ->
  forall js comp, sorted ltn js -> all (fun j => (j < i)%N) js ->
  uniq (pkeys comp) -> (forall k j, k \in pkeys comp -> j \in js -> (k < j)%N) -> all (fun j => (j < i)%N) (pkeys comp) ->
  (forall j, j \in pkeys comp -> \sum_(k < j) pget comp k * pget (nth [::] rows j) k + pget comp j * nth 0 diag j = pget orig j) ->
  let c := eliminate js orig rows diag comp in
  [/\ pkeys c = pkeys comp ++ js, uniq (pkeys c) &
      forall j, j \in pkeys c -> \sum_(k < j) pget c k * pget (nth [::] rows j) k + pget c j * nth 0 diag j = pget orig j].
Proof.
  move=> [Hs [Hd Hrows]]. elim=> [|j js IH] comp Hsort Hall Hu Hlt Hi Hinv /=; first by rewrite cats0.
  have Hji : (j < i)%N by case/andP: Hall. have [Ru [Ra Rd]] := Hrows j Hji.
  have Hj : j \notin pkeys comp by apply/negP=> H; have := Hlt j j H (mem_head _ _); rewrite ltnn.
  have Aj : all (fun k => (k < j)%N) (pkeys comp) by apply/allP=> k Hk; apply: Hlt Hk (mem_head _ _).
  rewrite pput_new //. set v := (_ - _) / _. set c1 := rcons comp (j, v).
  have G1 : forall x, (x < j)%N -> pget c1 x = pget comp x.
    by move=> x Hx; rewrite pget_rcons //; case: (eqVneq j x) => [E|//]; rewrite E ltnn in Hx.
  have Gj : pget c1 j = v by rewrite pget_rcons // eqxx.
  have := IH c1. rewrite /c1 pkeys_rcons cat_rcons -/c1. apply.
  - by move/path_sorted: Hsort.
  - by case/andP: Hall.
  - by rewrite rcons_uniq Hj.
  - move=> k x Hk Hx. have Hjx : (j < x)%N by move: Hsort; rewrite /= path_sortedE; [case/andP=> /allP/(_ x Hx)|exact: ltn_trans].
    move: Hk. rewrite mem_rcons inE => /orP[/eqP -> //|Hk]. apply: ltn_trans Hjx. by apply: Hlt Hk (mem_head _ _).
  - by rewrite all_rcons Hji.
  - move=> x. rewrite mem_rcons inE => /orP[/eqP ->|Hx].
      rewrite Gj (eq_bigr (fun k : 'I_j => pget comp k * pget (nth [::] rows j) k)) => [|k _]; last by rewrite G1.
      by rewrite /v (couplingE Hu Ru Aj Ra) divfK ?gt_eqF // addrC subrK.
    have Hxj : (x < j)%N by apply: Hlt Hx (mem_head _ _).
    rewrite G1 // -(Hinv x Hx). congr (_ + _). apply: eq_bigr => k _. by rewrite G1 // (ltn_trans _ Hxj).
Qed.

(** the row found by ic_row *)
Definition row_ok i (row : seq (nat * R)) rows diag comp (d : R) :=
  [/\ uniq (pkeys comp), all (fun k => (k < i)%N) (pkeys comp), 0 < d,
      forall j, (j < i)%N -> j \notin pkeys row -> j \notin pkeys comp &
      forall j v, (j < i)%N -> (j, v) \in row ->
        \sum_(k < j) pget comp k * pget (nth [::] rows j) k + pget comp j * nth 0 diag j = v] /\
  forall v, (i, v) \in row -> \sum_(k < i) pget comp k * pget comp k + d * d = v.

Lemma ic_row_spec i row rows diag comp (d : R) : rows_ok i rows diag -> uniq (pkeys row) ->
  ic_row i row rows diag = Some (comp, d) -> row_ok i row rows diag comp d.
Proof.
  move=> Hr Hu. rewrite /ic_row. case Es: (scan i row [::] None) => [orig dv].
  have [|//|[S1 S2 S3 S4] S5] := scan_spec Es; first by rewrite cat0s.
  case: dv Es S4 S5 => [a|] // Es S4 S5. set js := sort leq _. set c := eliminate _ _ _ _ _.
  case: ifP => // /negbT; rewrite -ltNge => Hpos [<- <-].
  have Hjs : sorted ltn js by rewrite ltn_sorted_uniq_leq sort_uniq S1 (sort_sorted leq_total).
  have Hji : all (fun j => (j < i)%N) js by rewrite (perm_all _ (permEl (perm_sort leq _))).
  have [K1 K2 K3] : [/\ pkeys c = [::] ++ js, uniq (pkeys c) & forall j, j \in pkeys c ->
     \sum_(k < j) pget c k * pget (nth [::] rows j) k + pget c j * nth 0 diag j = pget orig j].
    by apply: (@eliminate_spec i rows diag orig Hr js [::]).
  have Hc : pkeys c =i pkeys orig by move=> k; rewrite K1 mem_sort.
  have Hci : all (fun k => (k < i)%N) (pkeys c) by rewrite K1.
  split; first split=> //.
  - by rewrite sqrtr_gt0.
  - move=> j Hj Hn. rewrite Hc. apply/negP => /mapP[[k v] Hkv /= E]. rewrite -E {k E} in Hkv.
    rewrite S3 // in_nil /= in Hkv. by rewrite (map_f fst Hkv) in Hn.
  - move=> j v Hj Hv. have Ho : (j, v) \in orig by rewrite S3 // Hv orbT.
    rewrite K3 ?(pget_in S1 Ho) // Hc. exact: (map_f fst Ho).
  - move=> v Hv. move: (S4 v Hv) => [Ea]. rewrite Ea in Hpos *. rewrite -expr2 sqr_sqrtr ?(ltW Hpos) //.
    have -> : \sum_(p <- c) p.2 * p.2 = \sum_(k < i) pget c k * pget c k.
      rewrite -(dict_sum (fun k => pget c k) K2 Hci). apply: eq_big_seq => -[k x] Hp. by rewrite (pget_in K2 Hp).
    by rewrite addrC subrK.
Qed.

Lemma ic0_spec lower : (forall i, uniq (pkeys (lower i))) -> forall n rows diag, ic0 n lower = Some (rows, diag) ->
  rows_ok n rows diag /\ forall i, (i < n)%N -> row_ok i (lower i) rows diag (nth [::] rows i) (nth 0 diag i).
Proof.
  move=> Hu. elim=> [|n IH] rows diag /=; first by move=> [<- <-].
  case E: (ic0 n lower) => [[rows' diag']|] //. case Er: (ic_row n (lower n) rows' diag') => [[c d]|] // [<- <-].
  have [Hr Hall] := IH _ _ E. have Hc := ic_row_spec Hr (Hu n) Er. case: (Hr) => Hs [Hd Hro].
  have Nr j : (j < n)%N -> nth [::] (rcons rows' c) j = nth [::] rows' j by move=> Hj; rewrite nth_rcons Hs Hj.
  have Nd j : (j < n)%N -> nth 0 (rcons diag' d) j = nth 0 diag' j by move=> Hj; rewrite nth_rcons Hd Hj.
  have Lr : nth [::] (rcons rows' c) n = c by rewrite nth_rcons Hs ltnn eqxx.
  have Ld : nth 0 (rcons diag' d) n = d by rewrite nth_rcons Hd ltnn eqxx.
  have Mono i row comp (d' : R) : (i <= n)%N -> row_ok i row rows' diag' comp d' -> row_ok i row (rcons rows' c) (rcons diag' d) comp d'.
    move=> Hi [[A1 A2 A3 A4 A5] A6]. split; first split=> //; last exact: A6.
    move=> j v Hj Hv. have Hjn := leq_trans Hj Hi. by rewrite Nr // Nd // -(A5 j v Hj Hv).
  split.
    split; first by rewrite size_rcons Hs. split; first by rewrite size_rcons Hd.
    move=> j. rewrite ltnS leq_eqVlt => /orP[/eqP ->|Hj]; last by rewrite Nr // Nd //; exact: Hro.
    rewrite Lr Ld. by case: Hc => -[].
  move=> i. rewrite ltnS leq_eqVlt => /orP[/eqP ->|Hi]; first by rewrite Lr Ld; apply: Mono.
  rewrite Nr // Nd //. apply: Mono; [exact: ltnW|exact: Hall].
Qed.

Lemma sum_below n i (Hi : (i <= n)%N) (f : nat -> R) : (forall k, (i <= k)%N -> f k = 0) -> \sum_(k < n) f k = \sum_(k < i) f k.
Proof.
  move=> Hf. rewrite -!(big_mkord xpredT f) /= (big_cat_nat _ (n := i)) //=.
  have -> : \sum_(i <= k < n) f k = 0 by rewrite big_nat_cond big1 // => k; rewrite andbT => /andP[/Hf].
  by rewrite addr0.
Qed.

Lemma ic0_l lower n (f : seq (pdict R) * seq R) : (forall i, uniq (pkeys (lower i))) -> ic0 n lower = Some f ->
  let L := ic_matrix n f in
  [/\ forall i, 0 < L i i, forall i j : 'I_n, (i < j)%N -> L i j = 0,
      forall i j : 'I_n, (j < i)%N -> (j : nat) \notin pkeys (lower i) -> L i j = 0 &
      forall (i j : 'I_n) v, (j <= i)%N -> ((j : nat), v) \in lower i -> (L *m L^T) i j = v].
Proof.
  case: f => rows diag Hu E L. have [Hr Hrow] := ic0_spec Hu E.
  have Hz i k : (i < n)%N -> (i <= k)%N -> pget (nth [::] rows i) k = 0.
    move=> Hi Hk. apply: pget_notin. case: (Hrow i Hi) => -[_ /allP Ha _ _ _] _. apply/negP=> /Ha. by rewrite ltnNge Hk.
  have LE (i k : 'I_n) : L i k = if (k < i)%N then pget (nth [::] rows i) k else if i == k :> nat then nth 0 diag i else 0.
    rewrite mxE /=. case: ltnP => H; first by rewrite (gtn_eqF H) addr0. by rewrite Hz // add0r.
  split.
  - move=> i. rewrite LE ltnn eqxx. by case: (Hrow i (ltn_ord i)) => -[].
  - move=> i j Hij. by rewrite LE ltnNge (ltnW Hij) /= (ltn_eqF Hij).
  - move=> i j Hij Hn. rewrite LE Hij. apply: pget_notin. by case: (Hrow i (ltn_ord i)) => -[_ _ _ H _] _; apply: H.
  - move=> i j v Hji Hv. rewrite mxE.
    pose F k := (if (k < i)%N then pget (nth [::] rows i) k else if i == k :> nat then nth 0 diag i else 0) *
                (if (k < j)%N then pget (nth [::] rows j) k else if j == k :> nat then nth 0 diag j else 0).
    rewrite (eq_bigr (fun k : 'I_n => F k)) => [|k _]; last by rewrite [L^T _ _]mxE !LE.
    rewrite (@sum_below n j.+1) // => [|k Hk]; last first.
      by rewrite /F [(k < j)%N]ltnNge (ltnW Hk) /= (ltn_eqF Hk) mulr0.
    rewrite big_ord_recr /= /F ltnn eqxx. case: (Hrow i (ltn_ord i)) => -[_ _ _ _ Hoff] Hdiag.
    move: Hji. rewrite leq_eqVlt => /orP[/eqP Eij|Hji].
      have Ei : i = j by apply: val_inj. rewrite -Ei ltnn eqxx. rewrite -Eij Eij in Hv. rewrite Ei in Hv Hdiag *.
      rewrite -(Hdiag v Hv). congr (_ + _). apply: eq_bigr => k _. by rewrite ltn_ord.
    rewrite Hji. rewrite -(Hoff j v Hji Hv). congr (_ + _). apply: eq_bigr => k _. by rewrite ltn_ord (ltn_trans _ Hji).
Qed.

(** * symmetric positive definite operators *)
Lemma posdef_unit n (B : 'M[R]_n) : posdef B -> B \in unitmx.
Proof.
  move=> HB. rewrite -row_free_unit -kermx_eq0. apply/eqP/row_matrixP => i. rewrite row0.
  apply/eqP/negPn/negP => Hne. set u := row i (kermx B) in Hne.
  have Hu : u *m B = 0 by apply/sub_kermxP; exact: row_sub.
  have Hut : u^T != 0 by rewrite trmx_eq0.
  by have := HB u^T Hut; rewrite trmxK Hu mul0mx mxE ltxx.
Qed.

Lemma ic_spd lower n (f : seq (pdict R) * seq R) : (forall i, uniq (pkeys (lower i))) -> ic0 n lower = Some f ->
  let L := ic_matrix n f in
  (forall v, L *m L^T *m ic_apply L v = v) /\ (forall v w, (w^T *m ic_apply L v) 0 0 = (v^T *m ic_apply L w) 0 0) /\
  forall v, v != 0 -> 0 < (v^T *m ic_apply L v) 0 0.
Proof.
  move=> Hu E L. have [Hd Hup _ _] := ic0_l Hu E. rewrite -/L in Hd Hup.
  have HL : L \in unitmx.
    have HE : tril L = L by apply/matrixP=> i j; rewrite [LHS]mxE; case: leqP => // H; rewrite Hup.
    by rewrite -HE; apply: tril_unit.
  have HLt : L^T \in unitmx by rewrite unitmx_tr.
  split; first by move=> v; rewrite /ic_apply -mulmxA (mulKVmx HLt) (mulKVmx HL).
  have Q v w : (w^T *m ic_apply L v) = (invmx L *m w)^T *m (invmx L *m v).
    by rewrite /ic_apply trmx_mul trmx_inv -mulmxA.
  split.
    move=> v w. rewrite !Q -[in LHS](trmxK (_ *m _)) trmx_mul !trmxK. by rewrite mxE.
  move=> v Hv. rewrite Q. apply: quad_gt0. apply: contra Hv => /eqP H. by rewrite -(mulKVmx HL v) H mulmx0.
Qed.
End IC.

Section Block.
Variables (R : rcfType) (n : nat).
Implicit Type m : local R n.

Definition symm k (B : 'M[R]_k) := B^T = B.
(** the selection matrix of a model *)
Definition sel m : 'M[R]_(n, lk m) := \matrix_(j, i) (lidx i == j)%:R.
Definition local_ok m := injective (@lidx R n m) /\ symm (lmat m) /\ posdef (lmat m).

Lemma sel_tr m (x : 'cV[R]_n) : (sel m)^T *m x = \col_i x (lidx i) 0.
Proof.
  apply/matrixP=> i j. rewrite ord1 !mxE (bigD1 (lidx i)) //= !mxE eqxx mul1r big1 ?addr0 // => k Hk.
  by rewrite !mxE eq_sym (negbTE Hk) mul0r.
Qed.

Lemma scatterE m (res : 'cV[R]_n) sol : injective (@lidx R n m) -> scatter (@lidx R n m) res sol = res + sel m *m sol.
Proof.
  move=> Hi. apply/matrixP=> j k. rewrite ord1 !mxE. case: pickP => [i /eqP Ei|Hn].
    congr (_ + _). rewrite (bigD1 i) //= mxE Ei eqxx mul1r big1 ?addr0 // => i' Hi'.
    rewrite mxE. case: eqP => [E|_]; last by rewrite mul0r. by rewrite -Ei in E; move/Hi: E => E; rewrite E eqxx in Hi'.
  by rewrite big1 ?addr0 // => i _; rewrite mxE Hn mul0r.
Qed.

Lemma matvecE (ms : seq (local R n)) x : (forall m, List.In m ms -> local_ok m) ->
  block_matvec ms x = \sum_(m <- ms) sel m *m (invmx (lmat m) *m ((sel m)^T *m x)).
Proof.
  move=> Hok. rewrite /block_matvec -[RHS]add0r.
  have Hg : forall z, foldl (fun res m => scatter (@lidx R n m) res (invmx (lmat m) *m \col_i x (lidx i) 0)) z ms =
    z + \sum_(m <- ms) sel m *m (invmx (lmat m) *m ((sel m)^T *m x)); last exact: Hg.
  elim: ms Hok => [|m ms IH] Hok z /=; first by rewrite big_nil addr0.
  rewrite big_cons IH; last by move=> m' Hm'; apply: Hok; right.
  have [Hi _] := Hok m (or_introl erefl). by rewrite -sel_tr scatterE // addrA.
Qed.

Lemma quad_local m (x y : 'cV[R]_n) : local_ok m ->
  (y^T *m (sel m *m (invmx (lmat m) *m ((sel m)^T *m x)))) 0 0 = (x^T *m (sel m *m (invmx (lmat m) *m ((sel m)^T *m y)))) 0 0.
Proof.
  move=> [_ [Hs _]]. rewrite -[in LHS](trmxK (y^T *m _)) mxE. congr (_ 0 0).
  by rewrite !trmx_mul !trmxK trmx_inv Hs !mulmxA.
Qed.

Lemma quad_local_ge0 m (x : 'cV[R]_n) : local_ok m ->
  0 <= (x^T *m (sel m *m (invmx (lmat m) *m ((sel m)^T *m x)))) 0 0 /\
  ((sel m)^T *m x != 0 -> 0 < (x^T *m (sel m *m (invmx (lmat m) *m ((sel m)^T *m x)))) 0 0).
Proof.
  move=> [_ [Hs Hp]]. have Hu := posdef_unit Hp. set z := (sel m)^T *m x.
  have -> : x^T *m (sel m *m (invmx (lmat m) *m z)) = (invmx (lmat m) *m z)^T *m lmat m *m (invmx (lmat m) *m z).
    rewrite trmx_mul trmx_inv Hs (mulmxKV Hu) /z trmx_mul trmxK. by rewrite !mulmxA.
  have Hpos : z != 0 -> 0 < ((invmx (lmat m) *m z)^T *m lmat m *m (invmx (lmat m) *m z)) 0 0.
    move=> Hz. apply: Hp. apply: contra Hz => /eqP H. by rewrite -(mulKVmx Hu z) H mulmx0.
  split=> //. case: (eqVneq z 0) => [->|/Hpos/ltW //]. by rewrite !mulmx0 mxE.
Qed.

Lemma mx_sum00 (T : Type) (s : seq T) (F : T -> 'M[R]_1) : (\sum_(i <- s) F i) 0 0 = \sum_(i <- s) F i 0 0.
Proof. by rewrite summxE. Qed.

Lemma block_spd_l (ms : seq (local R n)) : (forall m, List.In m ms -> local_ok m) ->
  (forall a x y, block_matvec ms (a *: x + y) = a *: block_matvec ms x + block_matvec ms y) /\
  (forall x y, (y^T *m block_matvec ms x) 0 0 = (x^T *m block_matvec ms y) 0 0) /\
  ((forall j : 'I_n, exists m, List.In m ms /\ exists i : 'I_(lk m), lidx i = j) ->
   forall x, x != 0 -> 0 < (x^T *m block_matvec ms x) 0 0).
Proof.
  move=> Hok. split; [|split].
  - move=> a x y. rewrite !matvecE // scaler_sumr -big_split /=. apply: eq_bigr => m _.
    by rewrite !(mulmxDr, scalemxAr).
  - move=> x y. rewrite !matvecE // !mulmx_sumr !mx_sum00.
    elim: ms Hok => [|m ms IH] Hok; first by rewrite !big_nil.
    rewrite !big_cons quad_local ?IH //; [by move=> m' H; apply: Hok; right|by apply: Hok; left].
  - move=> Hcov x Hx.
    have Hsome : exists m, List.In m ms /\ (sel m)^T *m x != 0.
      have /existsP[j Hj] : [exists j, x j 0 != 0].
        apply: contraR Hx => /existsPn H. apply/eqP/matrixP => i k. rewrite ord1 mxE. by apply/eqP/negPn/H.
      have [m [Hm [i Ei]]] := Hcov j. exists m. split=> //. apply: contra Hj => /eqP H.
      move: (congr1 (fun M : 'cV_(lk m) => M i 0) H). by rewrite sel_tr !mxE Ei => ->.
    rewrite matvecE // mulmx_sumr mx_sum00. clear Hcov. case: Hsome => m [].
    elim: ms Hok => [|m0 ms IH] Hok //= Hm Hnz. rewrite big_cons.
    have Hok' : forall m', List.In m' ms -> local_ok m' by move=> m' H; apply: Hok; right.
    have Htail : 0 <= \sum_(m1 <- ms) (x^T *m (sel m1 *m (invmx (lmat m1) *m ((sel m1)^T *m x)))) 0 0.
      clear -Hok'. elim: ms Hok' => [|m1 ms IH'] Hok'; first by rewrite big_nil.
      rewrite big_cons addr_ge0 //; last by apply: IH' => m' H; apply: Hok'; right.
      by case: (quad_local_ge0 x (Hok' m1 (or_introl erefl))).
    case: Hm => [Em|Hm]; first by subst m0; apply: ltr_paddr => //; case: (quad_local_ge0 x (Hok m (or_introl erefl))) => _; apply.
    apply: ltr_paddl; last exact: IH. by case: (quad_local_ge0 x (Hok m0 (or_introl erefl))).
Qed.

(** disjoint blocks: every block gets the solution of its own system *)
Lemma block_jacobi_l (ms1 ms2 : seq (local R n)) m x :
  (forall m', List.In m' (ms1 ++ m :: ms2) -> local_ok m') ->
  (forall m', List.In m' (ms1 ++ ms2) -> forall (i : 'I_(lk m)) (i' : 'I_(lk m')), lidx i != lidx i') ->
  lmat m *m (\col_i block_matvec (ms1 ++ m :: ms2) x (lidx i) 0) = \col_i x (lidx i) 0.
Proof.
  move=> Hok Hdis. rewrite -!sel_tr matvecE // big_cat big_cons /=.
  have Hm : local_ok m by apply: Hok; apply: List.in_or_app; right; left.
  have Hz m' : List.In m' (ms1 ++ ms2) -> (sel m)^T *m sel m' = 0.
    move=> Hm'. apply/matrixP=> i j. rewrite !mxE big1 // => k _. rewrite !mxE.
    case: eqP => [E|]; last by rewrite mul0r. case: eqP => [E'|]; last by rewrite mulr0.
    by have := Hdis m' Hm' i j; rewrite E E' eqxx.
  have Hs : forall s, (forall m', List.In m' s -> List.In m' (ms1 ++ ms2)) ->
    (sel m)^T *m (\sum_(i <- s) sel i *m (invmx (lmat i) *m ((sel i)^T *m x))) = 0.
    elim=> [|m0 s IH] Hin; first by rewrite big_nil mulmx0.
    rewrite big_cons mulmxDr IH; last by move=> m' H; apply: Hin; right.
    by rewrite mulmxA Hz ?mul0mx ?addr0 //; apply: Hin; left.
  rewrite !mulmxDr Hs ?mulmx0 ?add0r; last by move=> m' H; apply: List.in_or_app; left.
  rewrite (Hs ms2) ?mulmx0 ?addr0; last by move=> m' H; apply: List.in_or_app; right.
  have -> : (sel m)^T *m (sel m *m (invmx (lmat m) *m ((sel m)^T *m x))) = invmx (lmat m) *m ((sel m)^T *m x).
    rewrite mulmxA. have -> : (sel m)^T *m sel m = 1%:M; last by rewrite mul1mx.
    apply/matrixP=> i j. rewrite !mxE (bigD1 (lidx i)) //= !mxE eqxx mul1r big1 ?addr0; last first.
      by move=> k Hk; rewrite !mxE eq_sym (negbTE Hk) mul0r.
    case: Hm => Hinj _. by rewrite (inj_eq Hinj) eq_sym.
  have Hu : lmat m \in unitmx by apply: posdef_unit; case: Hm => _ [].
  by rewrite (mulKVmx Hu).
Qed.
End Block.
