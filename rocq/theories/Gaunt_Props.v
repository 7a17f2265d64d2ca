(** * Properties C29, C30, C31 *)
From Coq Require Import Bool Reals ZArith Lia Lra.
From Coquelicot Require Import Coquelicot.
From Coq Require Import List.
From Verif Require Import Base Gaunt_Model Gaunt_Spec Gaunt_Proofs Gaunt_Proofs8.
Import ListNotations.
Open Scope R_scope.

Lemma natZ (l : Z) : (0 <= l)%Z -> exists n : nat, l = Z.of_nat n.
Proof. intro h; exists (Z.to_nat l); lia. Qed.

(** ** C29: for all orders, no out-of-bounds access, no division by zero, no argument outside a function's domain;
    min(l,l')+1 numbers; zeros if |m| exceeds an order *)
Theorem C29_no_fault : forall l lp m, (0 <= l)%Z -> (0 <= lp)%Z ->
  exists g, gaunt l lp m = Def g /\ Z.of_nat (length g) = (Z.min l lp + 1)%Z.
Proof.
intros l lp m hl hlp. destruct (natZ l hl) as [a ->]. destruct (natZ lp hlp) as [b ->].
destruct (Z.lt_ge_cases (Z.of_nat (Nat.min a b)) (Z.abs m)) as [h|h].
- eexists; split; [apply gaunt_zero; exact h|]. rewrite repeat_length. lia.
- destruct (gaunt_ok a b m) as [g [c [e [hg _]]]]; [lia|]. exists g; split; [exact e|]. lia.
Qed.
Theorem C29_zero_beyond : forall l lp m, (0 <= l)%Z -> (0 <= lp)%Z -> (Z.min l lp < Z.abs m)%Z ->
  gaunt l lp m = Def (repeat 0 (Z.to_nat (Z.min l lp) + 1)).
Proof.
intros l lp m hl hlp h. destruct (natZ l hl) as [a ->]. destruct (natZ lp hlp) as [b ->].
rewrite gaunt_zero by lia. do 3 f_equal; lia.
Qed.

(** ** C30: the symmetries of the integral of three spherical harmonics *)
Theorem C30_symmetric : forall l lp m, (0 <= l)%Z -> (0 <= lp)%Z ->
  gaunt lp l m = gaunt l lp m /\ gaunt l lp (- m) = gaunt l lp m.
Proof.
intros l lp m hl hlp. destruct (natZ l hl) as [a ->]. destruct (natZ lp hlp) as [b ->].
split; [apply gaunt_swap|apply gaunt_neg].
Qed.

(** ** C31: the returned numbers linearise the product of two spherical harmonics of orders m and -m; they are the
    integrals over the sphere of Y_l,m Y_l',-m Y_p,0, and these integrals vanish for every other p *)
Theorem C31_linearization : forall (l lp : nat) (m : Z) g, gaunt (Z.of_nat l) (Z.of_nat lp) m = Def g ->
  forall x, -1 <= x <= 1 ->
  Ylm l m x * Ylm lp (- m) x =
  sum_f_R0 (fun i => nth i g 0 * Ylm ((Nat.max l lp - Nat.min l lp) + 2 * i) 0 x) (Nat.min l lp).
Proof. exact gaunt_linearizes_all. Qed.
Theorem C31_integrals : forall (l lp : nat) (m : Z) g, gaunt (Z.of_nat l) (Z.of_nat lp) m = Def g ->
  (forall i, (i <= Nat.min l lp)%nat ->
     nth i g 0 = 2 * PI * RInt (fun x => Ylm l m x * Ylm lp (- m) x * Ylm ((Nat.max l lp - Nat.min l lp) + 2 * i) 0 x) (-1) 1) /\
  (forall p, (forall i, (i <= Nat.min l lp)%nat -> p <> ((Nat.max l lp - Nat.min l lp) + 2 * i)%nat) ->
     2 * PI * RInt (fun x => Ylm l m x * Ylm lp (- m) x * Ylm p 0 x) (-1) 1 = 0).
Proof. exact gaunt_is_triple_all. Qed.

Print Assumptions C29_no_fault.
Print Assumptions C29_zero_beyond.
Print Assumptions C30_symmetric.
Print Assumptions C31_linearization.
Print Assumptions C31_integrals.

(** ** the hypotheses are met; the values are not all zero *)
Example gaunt_110 : gaunt 1 1 0 = Def [1 / sqrt (4 * PI); 2 / (sqrt (4 * PI) * sqrt 5)].
Proof.
destruct (gaunt_ok 1 1 0) as [g [a [e [hg [hr hn]]]]]; [cbn; lia|].
change (Z.of_nat 1) with 1%Z in e. rewrite e. f_equal.
destruct g as [|g0 [|g1 [|? ?]]]; try discriminate hg.
destruct hr as [h1 [h2 _]]. cbn [Nat.min] in *. specialize (h2 ltac:(lia)). cbn [Nat.sub] in h2.
pose proof (hn 0%nat ltac:(cbn; lia)) as n0. pose proof (hn 1%nat ltac:(cbn; lia)) as n1.
cbn [nth] in n0, n1. rewrite n0, n1, h1, h2.
pose proof PI_RGT_0 as hpi.
assert (h4 : 0 < sqrt (4 * PI)) by (apply sqrt_lt_R0; lra). assert (h5 : 0 < sqrt 5) by (apply sqrt_lt_R0; lra).
assert (ha : amaxR 1 1 0 = 2 / sqrt (4 * PI)).
{ unfold amaxR. cbn [Z.of_nat Pos.of_succ_nat Z.sub Z.add Z.opp Z.to_nat]. change (Pos.to_nat 1) with 1%nat.
  cbn [Nat.mul Nat.add fact INR pow].
  replace ((2 * 1 + 1) * (2 * 1 + 1) / (4 * PI)) with (3 * 3 / (4 * PI)) by (f_equal; ring).
  rewrite sqrt_div by lra. rewrite sqrt_square by lra.
  replace (1 * 1 * (1 * 1)) with 1 by ring. rewrite sqrt_1. field. lra. }
assert (hq : ratio 1 1 0 = / 2) by (unfold ratio; cbn [INR]; field).
rewrite ha, hq. change (dmin 1 1) with 0%nat. cbn [INR].
replace (2 * (0 + 2 * 0) + 1) with 1 by ring. replace (2 * (0 + 2 * 1) + 1) with 5 by ring. rewrite sqrt_1.
f_equal; [|f_equal]; field; lra.
Qed.
Example gaunt_domain_needed : gaunt (-1) 1 0 = Fault NegativeSize.
Proof. reflexivity. Qed.
