(** * The real numbers as a MathComp field, so that [\det], [\tr], [char_poly] can be used as
    specification vocabulary *)
From Coq Require Import Reals Epsilon Lra.
From mathcomp Require Import ssreflect ssrfun ssrbool eqtype ssrnat choice ssralg.
Set Implicit Arguments.
Unset Strict Implicit.

Local Open Scope R_scope.

Definition eqR (x y : R) : bool := if Req_EM_T x y then true else false.
Lemma eqRP : Equality.axiom eqR.
Proof. by move=> x y; rewrite /eqR; case: Req_EM_T => h; constructor. Qed.
Canonical R_eqMixin := EqMixin eqRP.
Canonical R_eqType := Eval hnf in EqType R R_eqMixin.

Lemma R_inhabited : inhabited R. Proof. exact: (inhabits 0). Qed.
Definition pickR (P : pred R) (n : nat) :=
  let x := epsilon R_inhabited P in if P x then Some x else None.
Lemma pickR_some P n x : pickR P n = Some x -> P x.
Proof. by rewrite /pickR; case: (boolP (P _)) => // Px [<-]. Qed.
Lemma pickR_ex (P : pred R) : (exists x : R, P x) -> exists n, pickR P n.
Proof. by rewrite /pickR; move=> /(epsilon_spec R_inhabited) -> ; exists O. Qed.
Lemma pickR_ext (P Q : pred R) : P =1 Q -> pickR P =1 pickR Q.
Proof.
move=> PEQ n; rewrite /pickR; suff -> : epsilon R_inhabited P = epsilon R_inhabited Q by rewrite PEQ.
congr epsilon.
apply: FunctionalExtensionality.functional_extensionality => x; by rewrite PEQ.
Qed.
Definition R_choiceMixin : choiceMixin R := Choice.Mixin pickR_some pickR_ex pickR_ext.
Canonical R_choiceType := Eval hnf in ChoiceType R R_choiceMixin.

Lemma RplusA : associative Rplus. Proof. by move=> *; rewrite Rplus_assoc. Qed.
Definition R_zmodMixin := ZmodMixin RplusA Rplus_comm Rplus_0_l Rplus_opp_l.
Canonical R_zmodType := Eval hnf in ZmodType R R_zmodMixin.

Lemma RmultA : associative Rmult. Proof. by move=> *; rewrite Rmult_assoc. Qed.
Lemma R1_neq_0 : (1 : R) != 0.
Proof. by apply/eqP; exact: R1_neq_R0. Qed.
Lemma RmultDl : left_distributive Rmult Rplus. Proof. by move=> x y z; ring. Qed.
Lemma RmultDr : right_distributive Rmult Rplus. Proof. by move=> x y z; ring. Qed.
Definition R_ringMixin := RingMixin RmultA Rmult_1_l Rmult_1_r RmultDl RmultDr R1_neq_0.
Canonical R_ringType := Eval hnf in RingType R R_ringMixin.
Canonical R_comRingType := Eval hnf in ComRingType R Rmult_comm.

Definition Rinvx (r : R) : R := if r != 0 then / r else r.
Definition unit_R (r : R) := r != 0.
Lemma RmultRinvx : {in unit_R, left_inverse 1 Rinvx Rmult}.
Proof. by move=> r ur; rewrite /Rinvx (ur : r != 0); apply: Rinv_l; apply/eqP. Qed.
Lemma intro_unit_R (x y : R) : y * x = 1 /\ x * y = 1 -> unit_R x.
Proof.
move=> [yx _]; apply/eqP => x0; move: yx; rewrite x0 Rmult_0_r => h; apply: R1_neq_R0; by rewrite h.
Qed.
Lemma intro_unit_R' (x y : R) : y * x = 1 -> unit_R x.
Proof.
by move=> h; apply: (@intro_unit_R x y); split; [|rewrite Rmult_comm].
Qed.
Lemma Rinvx_out : {in predC unit_R, Rinvx =1 id}.
Proof. by move=> x; rewrite inE /= /Rinvx -if_neg => ->. Qed.
Definition R_unitRingMixin := ComUnitRingMixin RmultRinvx intro_unit_R' Rinvx_out.
Canonical R_unitRingType := Eval hnf in UnitRingType R R_unitRingMixin.
Canonical R_comUnitRingType := Eval hnf in [comUnitRingType of R].
Lemma R_idomainMixin (x y : R) : x * y = 0 -> (x == 0) || (y == 0).
Proof.
move=> /Rmult_integral [->|->]; by rewrite eqxx ?orbT.
Qed.
Canonical R_idomainType := Eval hnf in IdomainType R R_idomainMixin.
Lemma R_fieldMixin : GRing.Field.mixin_of [unitRingType of R].
Proof. by move=> x nx0. Qed.
Canonical R_fieldType := Eval hnf in FieldType R R_fieldMixin.

(** translation between the two vocabularies *)
Section Bridge.
Import GRing.Theory.
Local Open Scope ring_scope.
Lemma RplusE (x y : R) : Rplus x y = (x + y : R). Proof. by []. Qed.
Lemma RmultE (x y : R) : Rmult x y = (x * y : R). Proof. by []. Qed.
Lemma RoppE (x : R) : Ropp x = (- x : R). Proof. by []. Qed.
Lemma RminusE (x y : R) : Rminus x y = (x - y : R). Proof. by []. Qed.
Lemma R0E : 0%R = (0 : R). Proof. by []. Qed.
Lemma R1E : 1%R = (1 : R). Proof. by []. Qed.
Lemma RinvE (x : R) : x != 0 -> Rinv x = (x^-1 : R).
Proof. by rewrite /GRing.inv /= /Rinvx => ->. Qed.
Lemma RdivE (x y : R) : y != 0 -> Rdiv x y = (x / y : R).
Proof. by move=> h; rewrite /Rdiv RinvE. Qed.
Lemma RpowE (x : R) n : pow x n = (x ^+ n : R).
Proof. by elim: n => [|n IH] //=; rewrite IH exprS. Qed.
End Bridge.
