(** * Upper bounds of the Laplace functional *)
From Coq Require Import Reals Lra Psatz.
From Coquelicot Require Import Coquelicot.
From mathcomp Require Import ssreflect ssrfun ssrbool eqtype ssrnat seq choice fintype bigop ssralg poly.
From Verif Require Import RStruct Bessel_Spec Bessel_Proofs Help_Spec Help_Proofs Gaunt_Spec Gaunt_Proofs2 Gaunt_Proofs3 Gaunt_Proofs4 Gaunt_Proofs5 Gaunt_Proofs6 Gaunt_Proofs7 Lap_Proofs Lap_Proofs2.
Set Implicit Arguments.
Unset Strict Implicit.
Unset Printing Implicit Defensive.
Import GRing.Theory.
Delimit Scope R_scope with Re.
Local Open Scope ring_scope.

Definition dom (c : R) (N : nat) (p : PR) : Prop := posd (c *: 'X^N - p).
Lemma evXN N x : ev 'X^N x = (x ^ N)%Re.
Proof. by rewrite evXn evX. Qed.
Lemma dvXN N : dv 'X^N.+1 = (INR N.+1) *: 'X^N :> PR.
Proof.
elim: N => [|N IH]; first by rewrite expr1 expr0 dvX scale1r.
rewrite exprS dvM IH dvX; apply: poly_ext => x; rewrite !evE !evXN [INR N.+2]S_INR; rewrite /=; ring.
Qed.
Lemma posd_ext p q : (forall x, ev p x = ev q x) -> posd p -> posd q.
Proof. by move=> h; rewrite (poly_ext h). Qed.
Lemma posdXn N : posd 'X^N. Proof. by apply: posd_exp; exact: posdX. Qed.
Lemma posdX1 : posd ('X - 1).
Proof.
case=> [|j]; first by rewrite /= evD evN evX ev1; lra.
by rewrite dvnS dvD dvN dvX dv1 oppr0 addr0; apply: posd1.
Qed.
Lemma domM c N p d M q : (0 <= d)%Re -> posd p -> dom c N p -> dom d M q -> dom (c * d)%Re (N + M) (p * q).
Proof.
move=> hd pp h1 h2; apply: (@posd_ext ((c *: 'X^N - p) * (d *: 'X^M) + p * (d *: 'X^M - q))).
  by move=> x; rewrite !evE !evXN pow_add; ring.
by apply: posdD; apply: posdM => //; apply: posdZ => //; exact: posdXn.
Qed.
Lemma domD c d N p q : dom c N p -> dom d N q -> dom (c + d)%Re N (p + q).
Proof. by move=> h1 h2; apply: (@posd_ext ((c *: 'X^N - p) + (d *: 'X^N - q))); [move=> x; rewrite !evE !evXN; ring|exact: posdD]. Qed.
Lemma domZ a c N p : (0 <= a)%Re -> dom c N p -> dom (a * c)%Re N (a *: p).
Proof. by move=> ha h; apply: (@posd_ext (a *: (c *: 'X^N - p))); [move=> x; rewrite !evE !evXN; ring|exact: posdZ]. Qed.
Lemma dom_up c N p : (0 <= c)%Re -> dom c N p -> dom c N.+1 p.
Proof.
move=> hc h; apply: (@posd_ext (c *: ('X^N * ('X - 1)) + (c *: 'X^N - p))); first by move=> x; rewrite !evE !evXN /=; ring.
by apply: posdD => //; apply: posdZ => //; apply: posdM; [exact: posdXn|exact: posdX1].
Qed.
Lemma dom_ups c N M p : (0 <= c)%Re -> (N <= M)%N -> dom c N p -> dom c M p.
Proof. by move=> hc h; rewrite -(subnK h); elim: (M - N)%N => [|k IH] // /IH; exact: dom_up. Qed.
Lemma dom_le c d N p : (c <= d)%Re -> dom c N p -> dom d N p.
Proof.
move=> hc h; apply: (@posd_ext ((d - c)%Re *: 'X^N + (c *: 'X^N - p))); first by move=> x; rewrite !evE !evXN; ring.
by apply: posdD => //; apply: posdZ; [lra|exact: posdXn].
Qed.
Lemma dom_dv c N p : dom c N.+1 p -> dom (c * INR N.+1)%Re N (dv p).
Proof. move=> /posd_dv; rewrite dvD dvN dvZ dvXN; apply: posd_ext => x; rewrite !evE; ring. Qed.
Lemma dom_rr : dom 1 2 rr.
Proof. by apply: (@posd_ext 1); [move=> x; rewrite evD evZ evN evXN ev1 /rr evN ev_qq /=; ring|exact: posd1]. Qed.
Lemma dom_exp p N n : posd p -> dom 1 N p -> dom 1 (n * N) (p ^+ n).
Proof.
move=> hp h; elim: n => [|n IH]; first by rewrite mul0n /dom !expr0 scale1r subrr => j; rewrite dvn0 ev0; lra.
rewrite exprS mulSn -(Rmult_1_r 1); apply: domM => //; lra.
Qed.
(** ** Legendre polynomials *)
Definition lead (n m : nat) : R := (odd_dfact n / INR (fact (n - m)))%Re.
Lemma lead_pos n m : (0 < lead n m)%Re.
Proof. by apply: Rdiv_lt_0_compat; [exact: odd_dfact_pos|exact: INR_fact_lt_0]. Qed.
Lemma lead_S n : (lead n.+1 0 * (INR n + 1) = (2 * INR n + 1) * lead n 0)%Re.
Proof.
rewrite /lead !subn0; have f := INR_fact_lt_0 n; have h := INRp n.
have -> : INR (fact n.+1) = ((INR n + 1) * INR (fact n))%Re by rewrite -S_INR -mult_INR.
have -> : odd_dfact n.+1 = ((2 * INR n.+1 - 1) * odd_dfact n)%Re by [].
rewrite S_INR; field; lra.
Qed.
Lemma dom_leg2 n : dom (lead n 0) n (leg n) /\ dom (lead n.+1 0) n.+1 (leg n.+1).
Proof.
have l0 : lead 0 0 = 1%Re by rewrite /lead /=; field.
have l1 : lead 1 0 = 1%Re by rewrite /lead /=; field.
elim: n => [|n [h1 h2]].
  by split; rewrite /dom ?l0 ?l1 ?leg0 ?leg1 ?expr0 ?expr1 scale1r subrr => j; rewrite dvn0 ev0; lra.
split=> //; have h := INRp n; have i0 : (0 < INR n + 2)%Re by lra.
have e := lead_S n.+1; rewrite S_INR in e.
apply: (@posd_ext ((/ (INR n + 2))%Re *: ((2 * INR n + 3)%Re *: ('X * (lead n.+1 0 *: 'X^n.+1 - leg n.+1)) + (INR n + 1)%Re *: leg n))).
  move=> x; have := leg_rec n x; move: (leg n.+2) (leg n.+1) (leg n) => p2 p1 p0 e2; rewrite !evE !evXN; apply: (Rmult_eq_reg_l (INR n + 2)%Re); last lra.
  rewrite -Rmult_assoc Rinv_r ?Rmult_1_l; last lra.
  have -> : ((INR n + 2) * (lead n.+2 0 * x ^ n.+2 - ev p2 x) = (lead n.+2 0 * (INR n + 1 + 1)) * x ^ n.+2 - (INR n + 2) * ev p2 x)%Re by ring.
  rewrite e e2 /=; ring.
apply: posdZ; first by left; exact: Rinv_0_lt_compat.
apply: posdD; apply: posdZ; [lra| |lra|exact: posd_leg].
by apply: posdM => //; exact: posdX.
Qed.
Lemma dom_U n m : (m <= n)%N -> dom (lead n m) (n - m) (dvn m (leg n)).
Proof.
elim: m => [|m IH] hm; first by rewrite subn0; case: (dom_leg2 n).
have h := IH (ltnW hm); have e : (n - m = (n - m.+1).+1)%N by rewrite subnSK.
rewrite e in h; have := dom_dv h; rewrite /dvn iterS -/(dvn m (leg n)).
suff -> : lead n m.+1 = (lead n m * INR (n - m.+1).+1)%Re by [].
rewrite /lead e; have -> : INR (fact (n - m.+1).+1) = (INR (n - m.+1).+1 * INR (fact (n - m.+1)))%Re by rewrite -mult_INR.
have f := INR_fact_lt_0 (n - m.+1); rewrite S_INR; have := INRp (n - m.+1) => g; field; lra.
Qed.
Lemma dom_na n m : (m <= n)%N -> dom (INR n * lead n m)%Re (n - m).+1 (na m n).
Proof.
move=> hm; have hU := dom_U hm; have l0 := lead_pos n m; rewrite /na.
have -> : (INR n * lead n m = INR (n - m) * lead n m + INR m * (1 * lead n m))%Re by rewrite -{1}(subnK hm) plus_INR; ring.
apply: domD; last by apply: domZ; [exact: INRp|rewrite -add1n; apply: domM => //; [lra|exact: posdX|]; rewrite /dom expr1 scale1r subrr => j; rewrite dvn0 ev0; lra].
case e : (n - m)%N hU => [|k] hU.
  have hz := posd_dv hU; rewrite expr0 dvD dvN dvZ dv1 scaler0 add0r in hz.
  rewrite Rmult_0_l; apply: (@posd_ext (rr * - dv (dvn m (leg n)))); first by move=> x; rewrite !evE; ring.
  by apply: posdM => //; exact: posd_rr.
have h := dom_dv hU; have -> : k.+2 = (2 + k)%N by [].
rewrite -[(INR k.+1 * _)%Re]Rmult_1_l; apply: domM => //; [|exact: posd_rr|exact: dom_rr|by rewrite Rmult_comm].
apply: Rmult_le_pos; [exact: INRp|lra].
Qed.
(** ** the functional *)
Lemma lap_nonneg x p : (0 < x)%Re -> posd p -> (0 <= lap x p)%Re.
Proof.
move=> hx hp; rewrite /lap /lapN; elim/big_ind: _ => [|u v|i _]; first exact: Rle_refl.
  by move=> hu hv; apply: Rplus_le_le_0_compat.
by apply: Rmult_le_pos => //; apply: pow_le; left; apply: Rinv_0_lt_compat.
Qed.
Definition tay (x : R) (N : nat) : R := sum_f_R0 (fun i => x ^ i / INR (fact i))%Re N.
Lemma lapXn x N : (0 < x)%Re -> lap x 'X^N = (INR (fact N) / x ^ N.+1 * tay x N)%Re.
Proof.
move=> hx; elim: N => [|N IH]; first by rewrite expr0 lap1 // /tay /=; field; lra.
have e := lap_dv hx 'X^N.+1; rewrite dvXN lapZ // IH evXN pow1 in e.
apply: (Rmult_eq_reg_l x); last lra.
have -> : (x * lap x 'X^N.+1 = INR N.+1 * (INR (fact N) / x ^ N.+1 * tay x N) + 1)%Re by rewrite e; ring.
have -> : tay x N.+1 = (tay x N + x ^ N.+1 / INR (fact N.+1))%Re by [].
have -> : INR (fact N.+1) = (INR N.+1 * INR (fact N))%Re by rewrite -mult_INR.
have f := INR_fact_lt_0 N; have h : (0 < INR N.+1)%Re by rewrite S_INR; have := INRp N; lra.
have xp : (0 < x ^ N.+1)%Re by exact: pow_lt.
have -> : (x ^ N.+2 = x * x ^ N.+1)%Re by []. 
move: (x ^ N.+1)%Re xp (tay x N) => X hX T; field; lra.
Qed.
(** the sum with less than N powers of x is a fraction of the exponential, th being any number between 0 and 1 *)
Definition damp (th : R) (N : nat) (x : R) : R := (exp (- ((1 - th) * x)) / th ^ N)%Re.
Lemma damp_pos th N x : (0 < th)%Re -> (0 < damp th N x)%Re.
Proof. by move=> h; apply: Rdiv_lt_0_compat; [exact: exp_pos|exact: pow_lt]. Qed.
Lemma tay_le th x N : (0 < x)%Re -> (0 < th <= 1)%Re -> (tay x N * th ^ N <= exp (th * x))%Re.
Proof.
move=> hx [h0 h1]; have hp : (0 <= th * x)%Re by apply: Rmult_le_pos; lra.
apply: (Rle_trans _ _ _ _ (exp_ge_taylor (th * x) N hp)); rewrite /tay Rmult_comm scal_sum; apply: sum_Rle => n hn.
have f := INR_fact_lt_0 n; have xn : (0 <= x ^ n)%Re by apply: pow_le; lra.
rewrite Rpow_mult_distr; have -> : (th ^ N = th ^ n * th ^ (N - n)%coq_nat)%Re by rewrite -pow_add; congr pow; apply/esym; apply: Arith.PeanoNat.Nat.add_sub_assoc || (rewrite Arith.PeanoNat.Nat.add_comm Arith.PeanoNat.Nat.sub_add).
have tn : (0 < th ^ n)%Re by exact: pow_lt.
have t1 : (th ^ (N - n)%coq_nat <= 1)%Re by rewrite -(pow1 (N - n)%coq_nat); apply: pow_incr; lra.
have g : (0 <= th ^ n * x ^ n / INR (fact n))%Re by apply: Rmult_le_pos; [apply: Rmult_le_pos; lra|left; exact: Rinv_0_lt_compat].
have -> : (x ^ n / INR (fact n) * (th ^ n * th ^ (N - n)%coq_nat) = th ^ n * x ^ n / INR (fact n) * th ^ (N - n)%coq_nat)%Re by rewrite /Rdiv; ring.
nra.
Qed.
Lemma lap_dom th x c N p : (0 < x)%Re -> (0 < th <= 1)%Re -> (0 <= c)%Re -> dom c N p -> (exp (- x) * lap x p <= c * INR (fact N) / x ^ N.+1 * damp th N x)%Re.
Proof.
move=> hx hth hc h; have := lap_nonneg hx h; rewrite lapD // lapZ //.
have -> : lap x (- p) = (- lap x p)%Re by have := lapD x p (- p); rewrite subrr lap0; lra.
rewrite lapXn // => h1; have f := INR_fact_lt_0 N; have xp : (0 < x ^ N.+1)%Re by exact: pow_lt.
have ex := exp_pos (- x); have t := tay_le N hx hth; have tp : (0 < th ^ N)%Re by apply: pow_lt; lra.
have g : (0 <= c * INR (fact N) / x ^ N.+1)%Re by apply: Rmult_le_pos; [apply: Rmult_le_pos; lra|left; exact: Rinv_0_lt_compat].
apply: (Rle_trans _ (exp (- x) * (c * INR (fact N) / x ^ N.+1 * tay x N))%Re).
  apply: Rmult_le_compat_l; first lra.
  have -> : (c * INR (fact N) / x ^ N.+1 * tay x N = c * (INR (fact N) / x ^ N.+1 * tay x N))%Re by rewrite /Rdiv; ring.
  lra.
have -> : (exp (- x) * (c * INR (fact N) / x ^ N.+1 * tay x N) = c * INR (fact N) / x ^ N.+1 * (exp (- x) * tay x N))%Re by rewrite /Rdiv; ring.
apply: Rmult_le_compat_l => //; rewrite /damp.
have -> : (exp (- ((1 - th) * x)) = exp (- x) * exp (th * x))%Re by rewrite -exp_plus; congr exp; ring.
rewrite /Rdiv Rmult_assoc; apply: Rmult_le_compat_l; first lra.
apply: (Rmult_le_reg_r (th ^ N)) => //; rewrite Rmult_assoc Rinv_l ?Rmult_1_r //; lra.
Qed.
Definition top (l lp m : nat) : R := (INR l * INR lp * (lead l m * lead lp m))%Re.
Lemma y_dom l lp m : (m <= l)%N -> (m <= lp)%N -> dom (lead l m * lead lp m)%Re (l + lp) (rr ^+ m * (dvn m (leg l) * dvn m (leg lp))).
Proof.
move=> h1 h2; have l1 := lead_pos l m; have l2 := lead_pos lp m.
have -> : (l + lp = m * 2 + ((l - m) + (lp - m)))%N by rewrite muln2 -addnn addnACA !subnKC.
rewrite -[(lead l m * _)%Re]Rmult_1_l; apply: domM; [nra|apply: posd_exp; exact: posd_rr|apply: dom_exp; [exact: posd_rr|exact: dom_rr]|].
by apply: domM; [lra|exact: posd_U|exact: dom_U|exact: dom_U].
Qed.
Lemma E_sign2 l lp m : (m <= l)%N -> (m <= lp)%N -> (0 < l)%N -> (0 < lp)%N ->
  exists Z j, [/\ Epoly l lp m = ((-1) ^ m.+1)%Re *: Z, posd Z, wit j Z & dom (4 * top l lp m)%Re (l + lp) Z].
Proof.
move=> g1 g2 l0 lp0; have [Z [j [e hp hw]]] := E_sign g1 g2 l0 lp0; exists Z, j; split=> //.
have ll := lead_pos l m; have ll' := lead_pos lp m.
have i1 : (1 <= INR l)%Re by apply: (le_INR 1); apply/leP.
have i2 : (1 <= INR lp)%Re by apply: (le_INR 1); apply/leP.
have tp : (0 <= top l lp m)%Re by rewrite /top; apply: Rmult_le_pos; nra.
case: m g1 g2 e ll ll' tp => [|m] g1 g2 e ll ll' tp.
- have -> : Z = 2%Re *: (rr * (dv (leg l) * dv (leg lp))).
    apply: poly_ext; apply: (ev_mul_cancel qq_neq0) => x; have := qE l lp 0 x; rewrite e evZ ev_qq expr0 ev1 !aofE /= => h.
    have -> : ((1 - x * x) * ev Z x = - (2 * 1 * (0 * 0 * (ev (leg l) x * ev (leg lp) x) + ((1 - x * x) * ev (dv (leg l)) x - 0 * (x * ev (leg l) x)) * ((1 - x * x) * ev (dv (leg lp)) x - 0 * (x * ev (leg lp) x)))))%Re.
      move: h; lra.
    rewrite /rr; move: (leg l) (leg lp) => p q; rewrite evZ !evM evN ev_qq; ring.
  apply: (@dom_le (2 * top l lp 0)%Re); first lra.
  apply: domZ; first lra.
  have d1 : dom (INR l * lead l 0)%Re l.-1 (dv (leg l)).
    by have := dom_U (leq0n l); rewrite subn0 -{2}(prednK l0) => /dom_dv; rewrite prednK // Rmult_comm.
  have d2 : dom (INR lp * lead lp 0)%Re lp.-1 (dv (leg lp)).
    by have := dom_U (leq0n lp); rewrite subn0 -{2}(prednK lp0) => /dom_dv; rewrite prednK // Rmult_comm.
  have -> : (l + lp = 2 + (l.-1 + lp.-1))%N by rewrite -{1}(prednK l0) -{1}(prednK lp0) addSn addnS.
  have -> : top l lp 0 = (1 * ((INR l * lead l 0) * (INR lp * lead lp 0)))%Re by rewrite /top; ring.
  apply: domM; [apply: Rmult_le_pos; nra|exact: posd_rr|exact: dom_rr|].
  by apply: domM => //; [nra|apply: posd_dv; exact: posd_leg].
- pose U := dvn m.+1 (leg l); pose V := dvn m.+1 (leg lp); pose n1 := na m.+1 l; pose n2 := na m.+1 lp; pose mm := INR m.+1.
  pose W := (mm * mm)%Re *: (U * V) + n1 * n2.
  have m0 : (0 < mm)%Re by rewrite /mm S_INR; have := INRp m; lra.
  have -> : Z = 2%Re *: (rr ^+ m * W).
    apply: poly_ext; apply: (ev_mul_cancel qq_neq0) => x; have h := qE l lp m.+1 x; rewrite e evZ in h.
    rewrite ev_qq !evZ evM rr_qq evZ.
    have -> : ev W x = (mm * mm * (ev U x * ev V x) + ev (aof m.+1 l) x * ev (aof m.+1 lp) x)%Re.
      by rewrite /W /n1 /n2 !naE !(evD, evZ, evM, evN); ring.
    rewrite -/U -/V -/mm exprS evM ev_qq in h.
    have hs := pow1_sq m; set s := ((-1) ^ m)%Re in hs h *.
    have e2 : ((-1) ^ m.+2 = s)%Re by rewrite /s /=; ring.
    rewrite e2 in h; move: h.
    set w := (mm * mm * _ + _)%Re; set q := ev (qq ^+ m) x => h.
    transitivity (s * ((1 - x * x) * (s * ev Z x)))%Re; first by rewrite -[LHS]Rmult_1_l -hs; ring.
    rewrite h; ring.
  have -> : (4 * top l lp m.+1 = 2 * (1 * (top l lp m.+1 + top l lp m.+1)))%Re by ring.
  apply: domZ; first lra.
  have -> : (l + lp = m * 2 + ((l - m.+1).+1 + (lp - m.+1).+1))%N.
    by rewrite !subnSK // muln2 -addnn addnACA !subnKC // ltnW.
  apply: domM; [lra|apply: posd_exp; exact: posd_rr|apply: dom_exp; [exact: posd_rr|exact: dom_rr]|].
  apply: domD; last first.
    have -> : top l lp m.+1 = ((INR l * lead l m.+1) * (INR lp * lead lp m.+1))%Re by rewrite /top; ring.
    by apply: domM; [nra|exact: posd_na|exact: dom_na|exact: dom_na].
  apply: (@dom_le (mm * mm * (lead l m.+1 * lead lp m.+1))%Re).
    rewrite /top; apply: Rmult_le_compat_r; first nra.
    have a1 : (mm <= INR l)%Re by apply: le_INR; apply/leP.
    have a2 : (mm <= INR lp)%Re by apply: le_INR; apply/leP.
    by apply: Rmult_le_compat; lra.
  apply: domZ; first nra.
  apply: (@dom_ups _ ((l - m.+1) + (lp - m.+1))%N); [nra|by rewrite addSn addnS; apply: leqW; apply: leqW|].
  by apply: domM; [lra|exact: posd_U|exact: dom_U|exact: dom_U].
Qed.
Lemma same_up th l lp m x : (0 < th <= 1)%Re -> (m <= l)%N -> (m <= lp)%N -> (0 < l)%N -> (0 < lp)%N -> (0 < x)%Re ->
  (Rabs (sum_f_R0 (fun p => (INR l * (INR l + 1) + INR lp * (INR lp + 1) - INR p * (INR p + 1)) * cprod l lp m p * sph_k p x) (l + lp))
   <= PI / 2 * (4 * top l lp m * INR (fact (l + lp)) / x ^ (l + lp).+1 * damp th (l + lp) x))%Re.
Proof.
move=> hth h1 h2 l0 lp0 hx; have [Z [j [e hp hw hd]]] := E_sign2 h1 h2 l0 lp0; have pp := PI_RGT_0.
rewrite sum_same // e lapZ //.
have ll := lead_pos l m; have ll' := lead_pos lp m.
have tp : (0 <= 4 * top l lp m)%Re by rewrite /top; have := INRp l; have := INRp lp => *; apply: Rmult_le_pos; [lra|]; apply: Rmult_le_pos; nra.
have b := lap_dom hx hth tp hd; have z := lap_nonneg hx hp; have ex := exp_pos (- x).
have -> : (PI / 2 * exp (- x) * ((-1) ^ m.+1 * lap x Z) = (-1) ^ m.+1 * (PI / 2 * (exp (- x) * lap x Z)))%Re by ring.
rewrite Rabs_mult pow_1_abs Rmult_1_l Rabs_pos_eq; last by apply: Rmult_le_pos; [lra|apply: Rmult_le_pos; lra].
by apply: Rmult_le_compat_l; lra.
Qed.
Lemma mixed_up th l lp m x : (0 < th <= 1)%Re -> (m <= l)%N -> (m <= lp)%N -> (0 < x)%Re ->
  (Rabs (sum_f_R0 (fun p => cprod l lp m p * sph_k p x) (l + lp)) <= PI / 2 * (lead l m * lead lp m * INR (fact (l + lp)) / x ^ (l + lp).+1 * damp th (l + lp) x))%Re.
Proof.
move=> hth h1 h2 hx; have [hp _] := y_sign h1 h2; have pp := PI_RGT_0; have hd := y_dom h1 h2.
rewrite sum_mixed // y_form lapZ //.
have ll := lead_pos l m; have ll' := lead_pos lp m.
have tp : (0 <= lead l m * lead lp m)%Re by nra.
have b := lap_dom hx hth tp hd; have z := lap_nonneg hx hp; have ex := exp_pos (- x).
set w := lap x _ in b z *.
have -> : (PI / 2 * exp (- x) * ((-1) ^ m * w) = (-1) ^ m * (PI / 2 * (exp (- x) * w)))%Re by ring.
rewrite Rabs_mult pow_1_abs Rmult_1_l Rabs_pos_eq; last by apply: Rmult_le_pos; [lra|apply: Rmult_le_pos; lra].
by apply: Rmult_le_compat_l; lra.
Qed.
