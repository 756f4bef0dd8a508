(** The reals of the standard library as a mathcomp real closed field, so that matrices over them have
    determinants and inverses and their entries can be differentiated.  Infrastructure only. *)
From Coq Require Import Reals Lra Epsilon FunctionalExtensionality.
From mathcomp Require Import all_ssreflect all_algebra.
Set Implicit Arguments.
Unset Strict Implicit.
Unset Printing Implicit Defensive.
Delimit Scope R_scope with coqR.
Import Order.TTheory GRing.Theory Num.Theory.

Definition eqr (a b : R) : bool := if Req_EM_T a b is left _ then true else false.
Lemma eqrP : Equality.axiom eqr.
Proof. by move=> a b; rewrite /eqr; case: Req_EM_T=> H; constructor. Qed.
Canonical R_eqMixin := EqMixin eqrP.
Canonical R_eqType := Eval hnf in EqType R R_eqMixin.

Fact inhR : inhabited R. Proof. exact: (inhabits 0%coqR). Qed.
Definition pickR (P : pred R) (n : nat) := let x := epsilon inhR P in if P x then Some x else None.
Fact pickR_some P n x : pickR P n = Some x -> P x.
Proof. by rewrite /pickR; case: (boolP (P _)) => // Px [<-]. Qed.
Fact pickR_ex (P : pred R) : (exists x : R, P x) -> exists n, pickR P n.
Proof. by move=> [x Px]; exists 0%N; rewrite /pickR; move: (epsilon_spec inhR P (ex_intro _ x Px)) => ->. Qed.
Fact pickR_ext (P Q : pred R) : P =1 Q -> pickR P =1 pickR Q.
Proof. by move=> PEQ n; have -> : P = Q by apply: functional_extensionality. Qed.
Definition R_choiceMixin : choiceMixin R := Choice.Mixin pickR_some pickR_ex pickR_ext.
Canonical R_choiceType := Eval hnf in ChoiceType R R_choiceMixin.

Fact RplusA : associative Rplus. Proof. by move=> *; rewrite Rplus_assoc. Qed.
Definition R_zmodMixin := ZmodMixin RplusA Rplus_comm Rplus_0_l Rplus_opp_l.
Canonical R_zmodType := Eval hnf in ZmodType R R_zmodMixin.
Fact RmultA : associative Rmult. Proof. by move=> *; rewrite Rmult_assoc. Qed.
Fact R1_neq_0 : R1 != R0. Proof. by apply/eqP; exact: R1_neq_R0. Qed.
Definition R_ringMixin := RingMixin RmultA Rmult_1_l Rmult_1_r Rmult_plus_distr_r Rmult_plus_distr_l R1_neq_0.
Canonical R_ringType := Eval hnf in RingType R R_ringMixin.
Canonical R_comRingType := Eval hnf in ComRingType R Rmult_comm.

Definition Rinvx r := if (r != 0%coqR) then (/ r)%coqR else r.
Definition unit_R r := r != 0%coqR.
Lemma RmultRinvx : {in unit_R, left_inverse R1 Rinvx Rmult}.
Proof. by move=> r; rewrite -topredE /unit_R /Rinvx => /= rN0; rewrite rN0 Rinv_l //; apply/eqP. Qed.
Lemma RinvxRmult : {in unit_R, right_inverse R1 Rinvx Rmult}.
Proof. by move=> r; rewrite -topredE /unit_R /Rinvx => /= rN0; rewrite rN0 Rinv_r //; apply/eqP. Qed.
Lemma intro_unitR x y : (y * x = 1)%coqR /\ (x * y = 1)%coqR -> unit_R x.
Proof. by move=> [yx1 _]; apply: contra_eqN yx1 => /eqP->; rewrite Rmult_0_r eq_sym R1_neq_0. Qed.
Lemma RinvxOut : {in predC unit_R, Rinvx =1 id}.
Proof. by move=> x; rewrite inE /= /Rinvx -if_neg => ->. Qed.
Definition R_unitRingMixin := UnitRingMixin RmultRinvx RinvxRmult intro_unitR RinvxOut.
Canonical R_unitRing := Eval hnf in UnitRingType R R_unitRingMixin.
Canonical R_comUnitRingType := Eval hnf in [comUnitRingType of R].
Lemma R_idomainMixin x y : (x * y = 0)%coqR -> (x == 0%coqR) || (y == 0%coqR).
Proof. by move=> /Rmult_integral [] ->; rewrite eqxx ?orbT. Qed.
Canonical R_idomainType := Eval hnf in IdomainType R R_idomainMixin.
Lemma R_field_mixin : GRing.Field.mixin_of R_unitRing. Proof. done. Qed.
Canonical R_fieldType := Eval hnf in FieldType R R_field_mixin.

Definition Rleb r1 r2 := if Rle_dec r1 r2 is left _ then true else false.
Definition Rltb r1 r2 := Rleb r1 r2 && (r1 != r2).
Lemma RlebP r1 r2 : reflect (r1 <= r2)%coqR (Rleb r1 r2).
Proof. by rewrite /Rleb; case: Rle_dec; constructor. Qed.
Lemma RltbP r1 r2 : reflect (r1 < r2)%coqR (Rltb r1 r2).
Proof. by rewrite /Rltb; apply: (iffP andP)=> [[/RlebP H /eqP N]|H]; [lra | split; [apply/RlebP; lra | apply/eqP; lra]]. Qed.
Section Num.
Local Open Scope R_scope.
Fact Rleb_norm_add x y : Rleb (Rabs (x + y)) (Rabs x + Rabs y).
Proof. by apply/RlebP; apply: Rabs_triang. Qed.
Fact addr_Rgtb0 x y : Rltb 0 x -> Rltb 0 y -> Rltb 0 (x + y).
Proof. by move=> /RltbP A /RltbP B; apply/RltbP; lra. Qed.
Fact Rnorm0_eq0 x : Rabs x = 0 -> x = 0.
Proof. by move=> H; have [//|N] := Req_EM_T x 0; case: (Rabs_no_R0 x N). Qed.
Fact Rleb_leVge x y : Rleb 0 x -> Rleb 0 y -> (Rleb x y) || (Rleb y x).
Proof. by move=> _ _; apply/orP; case: (Rle_lt_dec x y)=> H; [left|right]; apply/RlebP; lra. Qed.
Fact RnormM : {morph Rabs : x y / x * y}. Proof. exact: Rabs_mult. Qed.
Fact Rleb_def x y : (Rleb x y) = (Rabs (y - x) == y - x).
Proof.
apply/RlebP/eqP=> H; first by rewrite Rabs_pos_eq; lra.
by move: (Rabs_pos (y - x)); rewrite H; lra.
Qed.
Fact Rltb_def x y : (Rltb x y) = (y != x) && (Rleb x y).
Proof. by rewrite /Rltb andbC eq_sym. Qed.
End Num.
Definition R_numMixin := NumMixin Rleb_norm_add addr_Rgtb0 Rnorm0_eq0 Rleb_leVge RnormM Rleb_def Rltb_def.
Canonical R_porderType := POrderType ring_display R R_numMixin.
Canonical R_numDomainType := NumDomainType R R_numMixin.
Canonical R_normedZmodType := NormedZmodType R R R_numMixin.
Canonical R_numFieldType := Eval hnf in [numFieldType of R].
Lemma R_total : totalPOrderMixin R_porderType.
Proof. by move=> x y; apply/orP; case: (Rle_lt_dec x y)=> H; [left|right]; apply/RlebP; lra. Qed.
Canonical R_latticeType := LatticeType R R_total.
Canonical R_distrLatticeType := DistrLatticeType R R_total.
Canonical R_orderType := OrderType R R_total.
Canonical R_realDomainType := [realDomainType of R].
Canonical R_realFieldType := [realFieldType of R].

Local Open Scope ring_scope.
Lemma RleP (x y : R) : reflect (Rle x y) (x <= y). Proof. exact: RlebP. Qed.
Lemma RltP (x y : R) : reflect (Rlt x y) (x < y). Proof. exact: RltbP. Qed.

Lemma horner_continuity (p : {poly R}) : continuity (fun x => p.[x]).
Proof.
elim/poly_ind: p=> [|p c IH].
  have -> : (fun x => (0 : {poly R}).[x]) = fct_cte (0 : R) by apply: functional_extensionality=> x; rewrite horner0.
  by move=> x; apply: continuity_pt_const.
have -> : (fun x => (p * 'X + c%:P).[x]) = ((fun x => p.[x]) * id + fct_cte c)%F.
  by apply: functional_extensionality=> x; rewrite hornerMXaddC.
move=> x; apply: continuity_pt_plus; last by apply: continuity_pt_const.
by apply: continuity_pt_mult; [exact: IH | apply: derivable_continuous_pt; apply: derivable_pt_id].
Qed.
Lemma Rreal_closed_axiom : Num.real_closed_axiom R_numFieldType.
Proof.
move=> p a b ab /andP[/RleP pa /RleP pb].
have [/RltP ab'|e] := (boolP (a < b)); last first.
  have eab : a = b by apply/eqP; rewrite eq_le ab leNgt.
  by exists a; [rewrite lexx ab | rewrite /root; apply/eqP; move: pa pb; rewrite -eab=> pa pb; apply: Rle_antisym].
case: (Rle_lt_or_eq_dec _ _ pa)=> [pa'|e]; last by exists a; [rewrite lexx ab | rewrite /root -e].
case: (Rle_lt_or_eq_dec _ _ pb)=> [pb'|e]; last by exists b; [rewrite lexx ab | rewrite /root e].
case: (IVT _ a b (horner_continuity p) ab' pa' pb')=> x [[ax xb] px].
by exists x; [apply/andP; split; apply/RleP | rewrite /root px].
Qed.
Canonical R_rcfType := RcfType R Rreal_closed_axiom.

(** from ring operations to those of the standard library, for lra and field *)
Lemma raddE (x y : R) : x + y = Rplus x y. Proof. by []. Qed.
Lemma roppE (x : R) : - x = Ropp x. Proof. by []. Qed.
Lemma rmulE (x y : R) : x * y = Rmult x y. Proof. by []. Qed.
Lemma r0E : (0 : R) = IZR 0. Proof. by []. Qed.
Lemma r1E : (1 : R) = IZR 1. Proof. by []. Qed.
Lemma rinvE (x : R) : x != 0 -> x^-1 = Rinv x. Proof. by rewrite /GRing.inv /= /Rinvx => ->. Qed.
Lemma rnatE n : (n%:R : R) = INR n.
Proof. by elim: n=> [|n IH] //; rewrite mulrSr IH S_INR. Qed.
Lemma r2E : (2%:R : R) = IZR 2. Proof. by rewrite rnatE /=; lra. Qed.
Ltac toR := rewrite ?r2E ?r0E ?r1E ?raddE ?roppE ?rmulE.
