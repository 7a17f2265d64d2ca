(** * Facts about the expansion coefficients of (1-x^2)^m P_l^(m) P_l'^(m), in the vocabulary of the standard library *)
From Coq Require Import Reals Lra Psatz.
From Coquelicot Require Import Coquelicot.
From mathcomp Require Import ssreflect ssrfun ssrbool eqtype ssrnat seq choice fintype bigop ssralg poly.
From Verif Require Import RStruct Gaunt_Spec Gaunt_Proofs2 Gaunt_Proofs3 Gaunt_Proofs4 Gaunt_Proofs5 Gaunt_Proofs6.
Set Implicit Arguments.
Unset Strict Implicit.
Unset Printing Implicit Defensive.
Import GRing.Theory.
Delimit Scope R_scope with Re.
Local Open Scope ring_scope.

(** the coefficient of P_p in (1-x^2)^m P_l^(m) P_l'^(m) *)
Definition cprod (l lp m p : nat) : R := coefP (yprod l lp m) p.
Definition prodf (l lp m : nat) (x : R) : R := ((1 - x ^ 2) ^ m * Derive_n (legendre l) m x * Derive_n (legendre lp) m x)%Re.

Lemma Derive_n_legendre l m x : Derive_n (legendre l) m x = ev (dvn m (leg l)) x.
Proof.
rewrite -ev_Derive_n. apply: Derive_n_ext => t. by case: (legendre_ev l t).
Qed.
Lemma prodf_ev l lp m x : prodf l lp m x = ev (yprod l lp m) x.
Proof. rewrite /prodf /yprod !evM evXn ev_qq !Derive_n_legendre. congr (_ ^ _ * _ * _)%Re. ring. Qed.

Lemma yprod_degc l lp m : (m <= l)%N -> (m <= lp)%N ->
  degc (yprod l lp m) (l + lp) ((-1) ^ m * (INR (fact l) / INR (fact (l - m)) * kap l) * (INR (fact lp) / INR (fact (lp - m)) * kap lp))%Re.
Proof.
move=> h1 h2.
have -> : (l + lp = m * 2 + (l - m) + (lp - m))%N.
  rewrite muln2 -addnn -[in RHS]addnA addnACA !subnKC //.
exact: (degcM (degcM (degc_exp m degc_qq) (degc_dvn h1 (leg_degc l))) (degc_dvn h2 (leg_degc lp))).
Qed.

Lemma sum_f_R0_big (f : nat -> R) n : sum_f_R0 f n = \sum_(i < n.+1) f i.
Proof. elim: n => [|n IH]; first by rewrite big_ord_recr big_ord0 /= add0r. by rewrite big_ord_recr /= IH. Qed.
Lemma ev_sum n (F : nat -> PR) x : ev (\sum_(i < n) F i) x = \sum_(i < n) ev (F i) x.
Proof. elim: n => [|n IH]; first by rewrite !big_ord0 ev0. by rewrite !big_ord_recr /= evD IH. Qed.

(** the expansion *)
Theorem prod_expansion l lp m x : (m <= l)%coq_nat -> (m <= lp)%coq_nat ->
  prodf l lp m x = sum_f_R0 (fun p => cprod l lp m p * legendre p x)%Re (l + lp)%coq_nat.
Proof.
move=> /leP h1 /leP h2. have [hs _] := yprod_degc h1 h2.
have [e _] := @legendre_expansion (yprod l lp m) (l + lp).+1 (eq_leq hs).
rewrite prodf_ev e sum_f_R0_big (@ev_sum _ (fun n => coefP (yprod l lp m) n *: leg n)).
apply: eq_bigr => i _. rewrite evZ /cprod. by have [-> _] := legendre_ev i x.
Qed.
(** support *)
Theorem cprod_high l lp m p : (m <= l)%coq_nat -> (m <= lp)%coq_nat -> Peano.lt (Nat.add l lp) p -> cprod l lp m p = 0%Re.
Proof.
move=> /leP h1 /leP h2 /ltP hp. have [hs _] := yprod_degc h1 h2.
have [_ e] := @legendre_expansion (yprod l lp m) (l + lp).+1 (eq_leq hs). exact: e.
Qed.
Lemma yprodC l lp m : yprod l lp m = yprod lp l m.
Proof. by rewrite /yprod mulrAC. Qed.
Theorem cprod_low l lp m p : (m <= l)%coq_nat -> (m <= lp)%coq_nat -> (Peano.lt (Nat.add p l) lp \/ Peano.lt (Nat.add p lp) l) -> cprod l lp m p = 0%Re.
Proof.
move=> /leP h1 /leP h2 [/ltP hp|/ltP hp]; rewrite /cprod /coefP.
- rewrite yprod_orth ?Rmult_0_r //.
- rewrite yprodC yprod_orth ?Rmult_0_r //.
Qed.
(** recurrence *)
Definition xa (l lp : nat) (p : R) : R :=
  ((p * p - (INR l + INR lp + 1) ^ 2) * (p * p - (INR l - INR lp) ^ 2) / (4 * p * p - 1))%Re.
Theorem cprod_rec l lp m j : (m <= l)%coq_nat -> (m <= lp)%coq_nat ->
  (xa l lp (INR (j + 1)%coq_nat) * cprod l lp m j
   - (4 * INR m ^ 2 + xa l lp (INR (j + 2)%coq_nat) + xa l lp (INR (j + 3)%coq_nat)) * cprod l lp m (j + 2)%coq_nat
   + xa l lp (INR (j + 4)%coq_nat) * cprod l lp m (j + 4)%coq_nat = 0)%Re.
Proof.
move=> h1 h2. have [hs _] := yprod_degc (introT leP h1) (introT leP h2).
have [e h3] := @legendre_expansion (yprod l lp m) (l + lp).+1 (eq_leq hs).
have := @legendre_recurrence (INR l * (INR l + 1) + INR lp * (INR lp + 1))%Re
  ((INR lp * (INR lp + 1) - INR l * (INR l + 1)) * (INR lp * (INR lp + 1) - INR l * (INR l + 1)))%Re (INR m * INR m)%Re
  ((INR l + INR lp + 1) ^ 2)%Re ((INR l - INR lp) ^ 2)%Re _ _ (coefP (yprod l lp m)) (l + lp).+1 h3 _ j.
rewrite -e => H. have {}H := H _ _ (Eop_yprod l lp m).
have -> : (INR m ^ 2 = INR m * INR m)%Re by ring.
by rewrite /Rj in H; apply: H; ring.
Qed.
(** top coefficient *)
Theorem cprod_top l lp m : (m <= l)%coq_nat -> (m <= lp)%coq_nat ->
  cprod l lp m (l + lp)%coq_nat = ((-1) ^ m * (INR (fact (2 * l)%coq_nat) * INR (fact (2 * lp)%coq_nat) * INR (fact (l + lp)%coq_nat) ^ 2
     / (INR (fact l) * INR (fact lp) * INR (fact (2 * (l + lp)%coq_nat)%coq_nat)))
     / (INR (fact (l - m)%coq_nat) * INR (fact (lp - m)%coq_nat)))%Re.
Proof.
move=> h1 h2. have [hs hc] := yprod_degc (introT leP h1) (introT leP h2).
have [e h3] := @legendre_expansion (yprod l lp m) (l + lp).+1 (eq_leq hs).
have hk : (yprod l lp m)`_(l + lp) = (cprod l lp m (l + lp) * kap (l + lp))%Re.
  rewrite e big_ord_recr /= coefD coef_sum big1 ?add0r.
  - by rewrite coefZ (proj2 (leg_degc (l + lp))).
  - move=> i _. rewrite coefZ nth_default ?mulr0 //. by rewrite (proj1 (leg_degc i)).
rewrite hc in hk.
have kl := kap_fact l; have klp := kap_fact lp; have kL := kap_fact (l + lp).
have pl := kap_pos l; have plp := kap_pos lp; have pL := kap_pos (l + lp).
rewrite -/(addn l lp). apply: (Rmult_eq_reg_r (kap (l + lp))); last lra.
rewrite -hk.
change (2 * l)%coq_nat with (2 * l)%N; change (2 * lp)%coq_nat with (2 * lp)%N; change (2 * (l + lp)%N)%coq_nat with (2 * (l + lp))%N.
change (l - m)%coq_nat with (l - m)%N; change (lp - m)%coq_nat with (lp - m)%N.
rewrite -kl -klp -kL.
have f1 := INR_fact_lt_0 l; have f2 := INR_fact_lt_0 lp; have f3 := INR_fact_lt_0 (l + lp).
have f4 := INR_fact_lt_0 (l - m); have f5 := INR_fact_lt_0 (lp - m).
have -> : (2 ^ (l + lp)%N = 2 ^ l * 2 ^ lp)%Re by rewrite -pow_add.
have g1 : (0 < 2 ^ l)%Re by apply: pow_lt; lra. have g2 : (0 < 2 ^ lp)%Re by apply: pow_lt; lra.
change (l + lp)%coq_nat with (l + lp)%N.
field; repeat split; lra.
Qed.
(** as an integral *)
Theorem cprod_integral l lp m p :
  cprod l lp m p = ((2 * INR p + 1) / 2 * RInt (fun x => prodf l lp m x * legendre p x) (-1) 1)%Re.
Proof.
rewrite /cprod /coefP; congr (_ * _)%Re. apply: RInt_ext => x _.
rewrite evM prodf_ev. by have [-> _] := legendre_ev p x.
Qed.
Lemma prod_leg_ex_RInt l lp m p a b : ex_RInt (fun x => prodf l lp m x * legendre p x)%Re a b.
Proof.
apply: (@ex_RInt_ext _ (ev (yprod l lp m * leg p))) => [x _|]; last exact: ev_ex_RInt.
rewrite evM prodf_ev. by have [-> _] := legendre_ev p x.
Qed.
Lemma Derive_n_legendre_high l m x : Peano.lt l m -> Derive_n (legendre l) m x = 0%Re.
Proof.
move=> /ltP h; rewrite Derive_n_legendre.
have := size_dvn m (leg l). rewrite (proj1 (leg_degc l)).
have /eqP -> : (l.+1 - m == 0)%N by rewrite subn_eq0.
by rewrite leqn0 size_poly_eq0 => /eqP ->; rewrite ev0.
Qed.
