(** The real numbers of Coq's standard library as an ordered field of mathcomp, so that the filters
    (over any real field) can be run on the six_d_rates models (over R).  No code of /repo is
    modelled here.  The choice structure mathcomp asks for rests on ClassicalEpsilon. *)
From Coq Require Import Reals Lra ClassicalEpsilon FunctionalExtensionality.
From mathcomp Require Import all_ssreflect all_algebra.
Set Implicit Arguments.
Unset Strict Implicit.
Unset Printing Implicit Defensive.
Import GRing.Theory Num.Theory Order.TTheory.

Definition Reqb (r1 r2 : R) : bool := if Req_EM_T r1 r2 then true else false.
Lemma ReqP : Equality.axiom Reqb.
Proof. by move=> x y; rewrite /Reqb; case: Req_EM_T => h; constructor. Qed.
Canonical R_eqType := EqType R (EqMixin ReqP).

Definition R_find (P : pred R) (n : nat) : option R :=
  match excluded_middle_informative (exists x, P x) with
  | left ex => Some (proj1_sig (constructive_indefinite_description _ ex))
  | right _ => None
  end.
Fact R_choiceMixin : choiceMixin R.
Proof.
apply: (@Choice.Mixin R R_find).
- move=> P n x; rewrite /R_find; case: excluded_middle_informative => // ex [<-].
  exact: proj2_sig (constructive_indefinite_description _ ex).
- move=> P ex; exists 0%N; rewrite /R_find; case: excluded_middle_informative => //.
- move=> P Q e n; suff -> : P = Q by [].
  by apply: functional_extensionality.
Qed.
Canonical R_choiceType := ChoiceType R R_choiceMixin.

Fact RplusA : associative Rplus.
Proof. by move=> x y z; rewrite Rplus_assoc. Qed.
Definition R_zmodMixin := ZmodMixin RplusA Rplus_comm Rplus_0_l Rplus_opp_l.
Canonical R_zmodType := ZmodType R R_zmodMixin.
Fact RmultA : associative Rmult.
Proof. by move=> x y z; rewrite Rmult_assoc. Qed.
Fact RmultDl : left_distributive Rmult Rplus.
Proof. by move=> x y z; ring. Qed.
Fact R1_neq_0 : R1 != R0 :> R.
Proof. by apply/eqP; exact: R1_neq_R0. Qed.
Definition R_comRingMixin := ComRingMixin RmultA Rmult_comm Rmult_1_l RmultDl R1_neq_0.
Canonical R_ringType := RingType R R_comRingMixin.
Canonical R_comRingType := ComRingType R Rmult_comm.

(** 1/0 = 0 as mathcomp wants it *)
Definition Rinvx (r : R) : R := if r == 0%R then 0%R else Rinv r.
Fact RmultVx (x : R) : x != 0%R -> Rmult (Rinvx x) x = 1%R.
Proof. by move=> h; rewrite /Rinvx (negbTE h); apply: Rinv_l; apply/eqP. Qed.
Fact Rinvx0 : Rinvx 0%R = 0%R.
Proof. by rewrite /Rinvx eqxx. Qed.
Definition R_fieldUnitMixin := @FieldUnitMixin R_comRingType Rinvx RmultVx Rinvx0.
Canonical R_unitRingType := UnitRingType R R_fieldUnitMixin.
Canonical R_comUnitRingType := [comUnitRingType of R].
Fact R_fieldMixin : GRing.Field.mixin_of R_unitRingType.
Proof. by []. Qed.
Canonical R_idomainType := IdomainType R (FieldIdomainMixin R_fieldMixin).
Canonical R_fieldType := FieldType R R_fieldMixin.

Definition Rleb (a b : R) : bool := if Rle_dec a b then true else false.
Definition Rltb (a b : R) : bool := if Rlt_dec a b then true else false.
Lemma RlebP a b : reflect (Rle a b) (Rleb a b).
Proof. by rewrite /Rleb; case: Rle_dec => h; constructor. Qed.
Lemma RltbP a b : reflect (Rlt a b) (Rltb a b).
Proof. by rewrite /Rltb; case: Rlt_dec => h; constructor. Qed.
Fact Rleb_norm_add (x y : R) : Rleb (Rabs (x + y)) (Rabs x + Rabs y)%R.
Proof. by apply/RlebP; apply: Rabs_triang. Qed.
Fact addr_Rgtb0 (x y : R) : Rltb 0%R x -> Rltb 0%R y -> Rltb 0%R (x + y)%R.
Proof. by move=> /RltbP a /RltbP b; apply/RltbP; apply: Rplus_lt_0_compat. Qed.
Fact Rnorm0_eq0 (x : R) : Rabs x = 0%R -> x = 0%R.
Proof. by apply: Rabs_eq_0 || (move=> h; case: (Req_dec x 0) => // /Rabs_no_R0). Qed.
Fact Rleb_leVge (x y : R) : Rleb 0%R x -> Rleb 0%R y -> Rleb x y || Rleb y x.
Proof. by move=> _ _; case: (Rle_or_lt x y) => [/RlebP -> // | h]; apply/orP; right; apply/RlebP; apply: Rlt_le. Qed.
Fact RnormM : {morph Rabs : x y / (x * y)%R}.
Proof. exact: Rabs_mult. Qed.
Fact Rleb_def (x y : R) : Rleb x y = (Rabs (y - x) == (y - x)%R :> R).
Proof.
apply/RlebP/eqP => h.
  by apply: Rabs_right; apply: Rle_ge; apply: Rle_trans (Req_le _ _ _) (Rplus_le_compat_r (- x) _ _ h); rewrite Rplus_opp_r.
have := Rabs_pos (Rminus y x); rewrite [Rabs _]h => {}h; change (Rle 0 (Rminus y x)) in h; lra.
Qed.
Fact Rltb_def (x y : R) : Rltb x y = (y != x) && Rleb x y.
Proof.
apply/RltbP/andP => [h | [/eqP h /RlebP [] // e]].
  by split; [apply/eqP => e; move: h; rewrite e; apply: Rlt_irrefl | apply/RlebP; apply: Rlt_le].
by case: h.
Qed.
Definition R_numMixin := NumMixin Rleb_norm_add addr_Rgtb0 Rnorm0_eq0 Rleb_leVge RnormM Rleb_def Rltb_def.
Canonical R_porderType := POrderType ring_display R R_numMixin.
Canonical R_numDomainType := NumDomainType R R_numMixin.
Canonical R_normedZmodType := NormedZmodType R R R_numMixin.
Canonical R_numFieldType := [numFieldType of R].
Fact R_total : totalPOrderMixin R_porderType.
Proof. by move=> x y; case: (Rle_or_lt x y) => h; apply/orP; [left; apply/RlebP | right; apply/RlebP; apply: Rlt_le]. Qed.
Canonical R_latticeType := LatticeType R R_total.
Canonical R_distrLatticeType := DistrLatticeType R R_total.
Canonical R_orderType := OrderType R R_total.
Canonical R_realDomainType := [realDomainType of R].
Canonical R_realFieldType := [realFieldType of R].

Lemma RleP (a b : R) : reflect (Rle a b) (a <= b)%O.
Proof. exact: RlebP. Qed.
Lemma RltP (a b : R) : reflect (Rlt a b) (a < b)%O.
Proof. exact: RltbP. Qed.

Lemma horner_continuous (p : {poly R}) : continuity (fun x => p.[x]%R).
Proof.
elim/poly_ind: p => [|p c IH] x.
  have -> : (fun x => (0 : {poly R}).[x]%R) = fun _ => 0%R by apply: functional_extensionality => y; rewrite horner0.
  by apply: continuity_pt_const.
have -> : (fun x => (p * 'X + c%:P).[x]%R) = (fun y => Rplus (Rmult p.[y]%R y) c) by apply: functional_extensionality => y; rewrite hornerMXaddC.
by apply: continuity_pt_plus; [apply: continuity_pt_mult => //; apply: derivable_continuous_pt; apply: derivable_pt_id | apply: continuity_pt_const].
Qed.
Fact Rreal_closed_axiom : Num.real_closed_axiom R_numDomainType.
Proof.
move=> p a b /RleP leab /andP [/RleP la /RleP lb].
have h : Rle (Rmult p.[a]%R p.[b]%R) 0.
  by move: la lb; generalize (p.[a]%R) (p.[b]%R) => u v; rewrite /= => la lb; change (Rle u 0) in la; change (Rle 0 v) in lb; nra.
have [x [[h1 h2] hx]] := IVT_cor _ a b (@horner_continuous p) leab h.
by exists x; [apply/andP; split; apply/RleP | apply/rootP].
Qed.
Canonical R_rcfType := RcfType R Rreal_closed_axiom.
