(** * The lowest coefficient in the expansion of (1-x^2)^m P_l^(m) P_l'^(m) *)
From Coq Require Import Reals Lra Psatz.
From Coquelicot Require Import Coquelicot.
From mathcomp Require Import ssreflect ssrfun ssrbool eqtype ssrnat seq choice fintype bigop ssralg poly.
From Verif Require Import RStruct Gaunt_Spec Gaunt_Proofs2 Gaunt_Proofs3 Gaunt_Proofs4 Gaunt_Proofs5 Gaunt_Proofs6 Gaunt_Proofs7.
Set Implicit Arguments.
Unset Strict Implicit.
Unset Printing Implicit Defensive.
Import GRing.Theory.
Delimit Scope R_scope with Re.
Local Open Scope ring_scope.

Lemma leg_orth_lead n (r : PR) c : degc r n c -> itg (leg n * r) = (c / kap n * (2 / (2 * INR n + 1)))%Re.
Proof.
move=> [hs hc]. have [hl hk] := leg_degc n. have pk := kap_pos n.
set a := (c / kap n)%Re.
have -> : r = a *: leg n + (r - a *: leg n) by rewrite addrC subrK.
rewrite mulrDr itgD -scalerAr itgZ leg_norm leg_orth_low ?Rplus_0_r //.
have h : (size (r - a *: leg n)%R <= n.+1)%N.
  by rewrite (leq_trans (size_add _ _)) // size_opp geq_max hs leqnn (leq_trans (size_scale_leq _ _)) // hl.
move: h; rewrite leq_eqVlt ltnS => /orP [/eqP h|//].
have h0 : (r - a *: leg n)`_n = 0.
  rewrite coefB coefZ hc hk. apply: (_ : (c - a * kap n = 0)%Re). rewrite /a; field; lra.
have hne : r - a *: leg n != 0 by rewrite -size_poly_eq0 h.
have : lead_coef (r - a *: leg n) == 0 by rewrite lead_coefE h /= h0.
by rewrite lead_coef_eq0 (negbTE hne).
Qed.

Theorem cprod_bottom l d m : (m <= l)%coq_nat ->
  let lp := Nat.add l d in
  cprod l lp m d = ((2 * INR d + 1) / (2 * INR lp + 1) *
     (INR (fact (Nat.mul 2 l)) * INR (fact (Nat.mul 2 d)) * INR (fact lp) / (INR (fact l) * INR (fact d) ^ 2 * INR (fact (Nat.mul 2 lp)))) *
     (INR (fact (Nat.add lp m)) / INR (fact (Nat.sub l m))))%Re.
Proof.
move=> /leP h1 lp; rewrite {}/lp. change (Nat.add l d) with (l + d)%N. set lp := (l + d)%N.
change (Nat.mul 2 l) with (2 * l)%N; change (Nat.mul 2 d) with (2 * d)%N; change (Nat.mul 2 lp) with (2 * lp)%N.
change (Nat.add lp m) with (lp + m)%N; change (Nat.sub l m) with (l - m)%N.
rewrite /cprod /coefP /yprod.
set F := qq ^+ m * (dvn m (leg l) * leg d).
have -> : qq ^+ m * dvn m (leg l) * dvn m (leg lp) * leg d = dvn m (leg lp) * F.
  by rewrite /F; apply: poly_ext => x; rewrite !evE; ring.
rewrite (@parts_n m (leg lp) F (dvn m (leg l) * leg d)) //.
have dF : degc F (lp + m) ((-1) ^ m * (INR (fact l) / INR (fact (l - m)) * kap l * kap d))%Re.
  have -> : (lp + m = m * 2 + (l - m + d))%N by rewrite /lp muln2 -addnn -(addnA m m) (addnA m (l - m)%N) subnKC // addnC.
  exact: (degcM (degc_exp m degc_qq) (degcM (degc_dvn h1 (leg_degc l)) (leg_degc d))).
have dD := degc_dvn (leq_addl lp m) dF. rewrite addnK in dD.
rewrite (leg_orth_lead dD).
have kl := kap_fact l; have klp := kap_fact lp; have kd := kap_fact d.
have pl := kap_pos l; have plp := kap_pos lp; have pd := kap_pos d.
have f1 := INR_fact_lt_0 l; have f2 := INR_fact_lt_0 lp; have f3 := INR_fact_lt_0 d; have f4 := INR_fact_lt_0 (l - m).
have f5 := INR_fact_lt_0 (lp + m).
rewrite -kl -klp -kd.
have g1 : (0 < 2 ^ l)%Re by apply: pow_lt; lra. have g2 : (0 < 2 ^ d)%Re by apply: pow_lt; lra.
have -> : (2 ^ lp = 2 ^ l * 2 ^ d)%Re by rewrite /lp -pow_add.
have h2 := pos_INR lp.
transitivity (((-1) ^ m * (-1) ^ m) * ((2 * INR d + 1) / (2 * INR lp + 1) * (INR (fact l) / INR (fact (l - m)) * kap l * kap d * INR (fact (lp + m)) / INR (fact lp) / kap lp)))%Re.
  field; repeat split; lra.
rewrite pow1_sq. field; repeat split; lra.
Qed.
