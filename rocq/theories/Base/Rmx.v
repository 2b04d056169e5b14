(** Infrastructure: the standard library's reals as a mathcomp [fieldType], so that
    mathcomp's matrices and determinants can be used over [R].  No code of /repo is
    modelled in this file.  (Same construction as the well-known Rstruct file; uses only
    standard-library axioms: the reals, [epsilon] and functional extensionality.) *)
From mathcomp Require Import all_ssreflect all_algebra.
From Coq Require Import Reals ClassicalEpsilon FunctionalExtensionality Lra.
Set Implicit Arguments.
Unset Strict Implicit.
Unset Printing Implicit Defensive.
Local Open Scope R_scope.

Definition eqr (r1 r2 : R) : bool := if Req_EM_T r1 r2 is left _ then true else false.
Lemma eqrP : Equality.axiom eqr.
Proof. by move=> r1 r2; rewrite /eqr; case: Req_EM_T=> H; constructor. Qed.
Canonical R_eqMixin := EqMixin eqrP.
Canonical R_eqType := Eval hnf in EqType R R_eqMixin.

Definition pickR (P : pred R) (n : nat) : option R :=
  let x := epsilon (inhabits 0) (fun x => P x) in if P x then Some x else None.
Fact pickR_some P n x : pickR P n = Some x -> P x.
Proof. by rewrite /pickR; case: (boolP (P _)) => // Px [<-]. Qed.
Fact pickR_ex (P : pred R) : (exists x : R, P x) -> exists n, pickR P n.
Proof.
rewrite /pickR => ex. exists 0%nat.
by have -> : P (epsilon (inhabits 0) (fun x => P x)) by exact: (epsilon_spec (inhabits 0) (fun x => is_true (P x)) ex).
Qed.
Fact pickR_ext (P Q : pred R) : P =1 Q -> pickR P =1 pickR Q.
Proof.
move=> PEQ n; rewrite /pickR.
by have -> : P = Q by apply functional_extensionality.
Qed.
Definition R_choiceMixin : choiceMixin R := Choice.Mixin pickR_some pickR_ex pickR_ext.
Canonical R_choiceType := Eval hnf in ChoiceType R R_choiceMixin.

Fact RplusA : associative Rplus. Proof. by move=> x y z; rewrite Rplus_assoc. Qed.
Definition R_zmodMixin := ZmodMixin RplusA Rplus_comm Rplus_0_l Rplus_opp_l.
Canonical R_zmodType := Eval hnf in ZmodType R R_zmodMixin.

Fact RmultA : associative Rmult. Proof. by move=> x y z; rewrite Rmult_assoc. Qed.
Fact R1_neq_0 : R1 != R0. Proof. apply/eqP; exact: R1_neq_R0. Qed.
Definition R_ringMixin :=
  RingMixin RmultA Rmult_1_l Rmult_1_r Rmult_plus_distr_r Rmult_plus_distr_l R1_neq_0.
Canonical R_ringType := Eval hnf in RingType R R_ringMixin.
Canonical R_comRingType := Eval hnf in ComRingType R Rmult_comm.

Definition Rinvx (r : R) : R := if r != 0 then / r else r.
Definition unit_R (r : R) : bool := r != 0.
Lemma RmultRinvx : {in unit_R, left_inverse 1 Rinvx Rmult}.
Proof.
move=> r; rewrite -topredE /unit_R /Rinvx => /= rNZ.
by rewrite rNZ Rinv_l //; apply/eqP.
Qed.
Lemma RinvxRmult : {in unit_R, right_inverse 1 Rinvx Rmult}.
Proof.
move=> r; rewrite -topredE /unit_R /Rinvx => /= rNZ.
by rewrite rNZ Rinv_r //; apply/eqP.
Qed.
Lemma intro_unit_R x y : y * x = 1 /\ x * y = 1 -> unit_R x.
Proof.
case=> yxE1 xyE1; apply/eqP=> xZ.
by move: yxE1; rewrite xZ Rmult_0_r => H; case: R1_neq_R0.
Qed.
Lemma Rinvx_out : {in predC unit_R, Rinvx =1 id}.
Proof. by move=> x; rewrite inE/= /Rinvx /unit_R /in_mem /= negbK => /eqP ->; rewrite eqxx. Qed.
Definition R_unitRingMixin := UnitRingMixin RmultRinvx RinvxRmult intro_unit_R Rinvx_out.
Canonical R_unitRing := Eval hnf in UnitRingType R R_unitRingMixin.
Canonical R_comUnitRingType := Eval hnf in [comUnitRingType of R].
Lemma R_idomainMixin x y : x * y = 0 -> (x == 0) || (y == 0).
Proof.
(do 2 case: eqP => //=) => yNZ xNZ xyZ.
by case: (Rmult_integral_contrapositive_currified _ _ xNZ yNZ).
Qed.
Canonical R_idomainType := Eval hnf in IdomainType R R_idomainMixin.
Lemma R_field_mixin : GRing.Field.mixin_of [unitRingType of R].
Proof. by []. Qed.
Definition R_fieldIdomainMixin := GRing.Field.IdomainMixin R_field_mixin.
Canonical R_fieldType := FieldType R R_field_mixin.

(** Transparency lemmas: mathcomp's operations on [R] are the standard library's. *)
Lemma addRE (x y : R) : GRing.add x y = x + y. Proof. by []. Qed.
Lemma oppRE (x : R) : GRing.opp x = - x. Proof. by []. Qed.
Lemma mulRE (x y : R) : GRing.mul x y = x * y. Proof. by []. Qed.
Lemma zeroRE : (GRing.zero R_zmodType) = 0. Proof. by []. Qed.
Lemma oneRE : (GRing.one R_ringType) = 1. Proof. by []. Qed.
Lemma subRE (x y : R) : GRing.add x (GRing.opp y) = x - y. Proof. by []. Qed.
Lemma invRE (x : R) : x <> 0 -> GRing.inv x = / x.
Proof. by move=> /eqP H; rewrite /GRing.inv /= /Rinvx H. Qed.

Ltac toR := match goal with |- @eq _ ?a ?b => change (@eq R a b) end.
Ltac Rring := rewrite ?addRE ?oppRE ?mulRE ?zeroRE ?oneRE; toR; ring.
