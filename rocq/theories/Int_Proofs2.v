(** * Moments of P_l^m P_l'^m and of the polynomials of the translation coefficients *)
From Coq Require Import Reals Lra Psatz.
From Coquelicot Require Import Coquelicot.
From mathcomp Require Import ssreflect ssrfun ssrbool eqtype ssrnat seq choice fintype bigop ssralg poly.
From Verif Require Import RStruct Bessel_Spec Bessel_Proofs Bessel_Proofs2 Gaunt_Spec Gaunt_Proofs2 Gaunt_Proofs3 Gaunt_Proofs4 Gaunt_Proofs5 Gaunt_Proofs6 Gaunt_Proofs7
  Lap_Proofs Lap_Proofs2 Int_Proofs.
Set Implicit Arguments.
Unset Strict Implicit.
Unset Printing Implicit Defensive.
Import GRing.Theory.
Delimit Scope R_scope with Re.
Local Open Scope ring_scope.

Lemma INR_ge (a b : nat) : (a <= b)%N -> (INR a <= INR b)%Re.
Proof. by move/leP; exact: le_INR. Qed.
Lemma dvn00 p : dvn 0 p = p. Proof. by []. Qed.
Lemma dvn01 p : dvn 1 p = dv p. Proof. by []. Qed.
Lemma dvnS m p : dv (dvn m p) = dvn m.+1 p. Proof. by []. Qed.
Lemma INR00 : INR 0 = 0%Re. Proof. by []. Qed.
(** ** recurrences of the associated functions *)
Lemma U_low m l : (l < m)%N -> dvn m (leg l) = 0.
Proof. by move=> h; apply: dvn_high; have [-> _] := leg_degc l. Qed.
Lemma U_diff m n x : ((2 * INR n + 3) * ev (dvn m (leg n.+1)) x = ev (dvn m.+1 (leg n.+2)) x - ev (dvn m.+1 (leg n)) x)%Re.
Proof.
elim: m x => [|m IH] x; first by rewrite dvn00 !dvn01; have := leg_d n x; lra.
have e y : ev ((2 * INR n + 3)%Re *: dvn m (leg n.+1)) y = ev (dvn m.+1 (leg n.+2) - dvn m.+1 (leg n)) y by rewrite evZ evB; exact: IH.
by have := dv_ext e x; rewrite dvZ dvB evZ evB.
Qed.
Lemma U_rec m n x : ((2 * INR n + 3) * (x * ev (dvn m (leg n.+1)) x) = (INR n + 2 - INR m) * ev (dvn m (leg n.+2)) x + (INR n + 1 + INR m) * ev (dvn m (leg n)) x)%Re.
Proof.
elim: m x => [|m IH] x; first by rewrite !dvn00 INR00; have := leg_rec n x; lra.
have e y : ev ((2 * INR n + 3)%Re *: ('X * dvn m (leg n.+1))) y = ev ((INR n + 2 - INR m)%Re *: dvn m (leg n.+2) + (INR n + 1 + INR m)%Re *: dvn m (leg n)) y.
  by rewrite evZ evM evX evD !evZ; exact: IH.
have := dv_ext e x; have := U_diff m n x; rewrite !dvE !evE S_INR !dvnS => e1 e2; lra.
Qed.
Lemma a_rec m n x : ((2 * INR n + 3) * ev (aof m n.+1) x =
  (INR n + 2) * (INR n + 1 + INR m) * ev (dvn m (leg n)) x - (INR n + 1) * (INR n + 2 - INR m) * ev (dvn m (leg n.+2)) x)%Re.
Proof.
elim: m x => [|m IH] x.
  rewrite aofE !dvn00 INR00; have := leg_c n x; have := leg_rec n x.
  set d := ev (dv _) x; set u := ev (leg n) x; set v := ev (leg n.+1) x; set w := ev (leg n.+2) x => e1 e2.
  have -> : ((1 - x * x) * d - 0 * (x * v) = (INR n + 1) * (u - x * v))%Re by lra.
  transitivity ((INR n + 1) * ((2 * INR n + 3) * u - (2 * INR n + 3) * x * v))%Re; first by ring.
  have -> : ((2 * INR n + 3) * x * v = (INR n + 2) * w + (INR n + 1) * u)%Re by lra.
  ring.
have e y : ev ((2 * INR n + 3)%Re *: aof m n.+1) y =
  ev (((INR n + 2) * (INR n + 1 + INR m))%Re *: dvn m (leg n) - ((INR n + 1) * (INR n + 2 - INR m))%Re *: dvn m (leg n.+2)) y.
  by move: (IH y); move: (aof m n.+1) => a0; rewrite evZ evB !evZ.
have e1 : ((2 * INR n + 3) * ev (dv (aof m n.+1)) x = (INR n + 2) * (INR n + 1 + INR m) * ev (dvn m.+1 (leg n)) x - (INR n + 1) * (INR n + 2 - INR m) * ev (dvn m.+1 (leg n.+2)) x)%Re.
  by have := dv_ext e x; move: (aof m n.+1) => a0; rewrite dvZ dvB !dvZ evZ evB !evZ !dvnS.
have ad : ev (aof m.+1 n.+1) x = (ev (dv (aof m n.+1)) x + x * ev (dvn m.+1 (leg n.+1)) x + INR m * ev (dvn m (leg n.+1)) x)%Re.
  rewrite aofE /aof !dvE dv_qq !evE ev_qq S_INR !dvnS; ring.
have r1 := U_rec m.+1 n x; have r2 := U_diff m n x; rewrite S_INR in r1.
rewrite ad S_INR.
transitivity ((2 * INR n + 3) * ev (dv (aof m n.+1)) x + (2 * INR n + 3) * (x * ev (dvn m.+1 (leg n.+1)) x) + INR m * ((2 * INR n + 3) * ev (dvn m (leg n.+1)) x))%Re; first by ring.
rewrite e1 r1 r2; ring.
Qed.
Section Order.
Context (m n : nat).
Let l := (INR n + 1)%Re.
Let mm := INR m.
Definition al : R := (l * (l + 1 - mm) / ((2 * l + 1) * (l + 1)))%Re.
Definition be : R := ((l + 1) * (l + mm) / ((2 * l + 1) * l))%Re.
Lemma tU x : (x * ev (dvn m (leg n.+1)) x = al * ev (dvn m (leg n.+2)) x + be * ev (dvn m (leg n)) x - ev (aof m n.+1) x / (l * (l + 1)))%Re.
Proof.
have np := INRp n; have r1 := U_rec m n x; have r2 := a_rec m n x.
have l0 : (0 < l)%Re by rewrite /l; lra.
apply: (Rmult_eq_reg_l (2 * INR n + 3)%Re); last lra.
rewrite r1.
have -> : ((2 * INR n + 3) * (al * ev (dvn m (leg n.+2)) x + be * ev (dvn m (leg n)) x - ev (aof m n.+1) x / (l * (l + 1))) =
  (2 * INR n + 3) * (al * ev (dvn m (leg n.+2)) x + be * ev (dvn m (leg n)) x) - ((2 * INR n + 3) * ev (aof m n.+1) x) / (l * (l + 1)))%Re by field; lra.
rewrite r2 /al /be /l /mm; field; lra.
Qed.
Lemma ta x : (x * ev (aof m n.+1) x = al * ev (aof m n.+2) x + be * ev (aof m n) x - mm * mm * ev (dvn m (leg n.+1)) x / (l * (l + 1)))%Re.
Proof.
have np := INRp n; have l0 : (0 < l)%Re by rewrite /l; lra.
set U := dvn m (leg n.+1); set U2 := dvn m (leg n.+2); set U0 := dvn m (leg n).
have e y : ev ('X * U) y = ev (al *: U2 + be *: U0 - (/ (l * (l + 1)))%Re *: aof m n.+1) y.
  move: (tU y); rewrite -/U -/U2 -/U0; move: (aof m n.+1) => a0; rewrite evM evX evB evD !evZ => ->; lra.
have d : (ev U x + x * ev (dv U) x = al * ev (dv U2) x + be * ev (dv U0) x - / (l * (l + 1)) * ev (dv (aof m n.+1)) x)%Re.
  have := dv_ext e x; move: (aof m n.+1) => a0; rewrite dvM dvX dvB dvD !dvZ !evE; lra.
have e0 : (x * ev U x = al * ev U2 x + be * ev U0 x - / (l * (l + 1)) * ev (aof m n.+1) x)%Re.
  have := e x; move: (aof m n.+1) => a0; rewrite evM evX evB evD !evZ; lra.
have o := aof_dv m n.+1 x; rewrite -/U -/mm in o.
have A2 := aofE m n.+2 x; have A0 := aofE m n x; have A1 := aofE m n.+1 x.
rewrite -/U -/U2 -/U0 -/mm in A0 A1 A2.
have lE : (INR n.+1 * (INR n.+1 + 1) = l * (l + 1))%Re by rewrite S_INR /l.
rewrite lE in o.
set a1 := ev (aof m n.+1) x in d o A1 e0 *; set a1' := ev (dv (aof m n.+1)) x in d o *.
set u := ev U x in d o A1 e0 *; set u2 := ev U2 x in d A2 e0 *; set u0 := ev U0 x in d A0 e0 *.
set u' := ev (dv U) x in d A1 *; set u2' := ev (dv U2) x in d A2 *; set u0' := ev (dv U0) x in d A0 *.
have d1 : (u + x * u' = al * u2' + be * u0' - / (l * (l + 1)) * a1')%Re by lra.
have k : (/ (l * (l + 1)) * ((1 - x * x) * a1') = / (l * (l + 1)) * (mm * x * a1 + mm * mm * u) - (1 - x * x) * u)%Re by rewrite o; field; lra.
have d2 : ((1 - x * x) * (x * u') = al * ((1 - x * x) * u2') + be * ((1 - x * x) * u0') - / (l * (l + 1)) * ((1 - x * x) * a1') - (1 - x * x) * u)%Re.
  have -> : (x * u' = al * u2' + be * u0' - / (l * (l + 1)) * a1' - u)%Re by lra. ring.
rewrite k in d2; rewrite A2 A0.
have e1 : (mm * x * (x * u) = mm * x * (al * u2 + be * u0 - / (l * (l + 1)) * a1))%Re by rewrite e0.
have A1x : (x * a1 = (1 - x * x) * (x * u') - mm * x * (x * u))%Re by rewrite A1; ring.
rewrite A1x e1 d2; field; lra.
Qed.
End Order.

(** ** moments of the products *)
Section M.
Context (m : nat).
Lemma y_low l lp : (l < m)%N -> yprod l lp m = 0.
Proof. by move=> h; rewrite /yprod U_low // mulr0 mul0r. Qed.
Lemma y_rec n lp : ((2 * INR n + 3)%Re *: ('X * yprod n.+1 lp m) = (INR n + 2 - INR m)%Re *: yprod n.+2 lp m + (INR n + 1 + INR m)%Re *: yprod n lp m).
Proof.
apply: poly_ext => x; rewrite evZ evM evX evD !evZ /yprod !evM; have r := U_rec m n x.
set q := ev (qq ^+ m) x; set v := ev _ x in r *.
transitivity (q * ((2 * INR n + 3) * (x * v)) * ev (dvn m (leg lp)) x)%Re; first by ring.
rewrite r; ring.
Qed.
Lemma y_rec0 lp : (m = 0)%N -> 'X * yprod 0 lp m = yprod 1 lp m.
Proof. by move=> ->; rewrite /yprod /dvn /= leg0 leg1 expr0 !mul1r. Qed.
Lemma y_orth l lp : (l < lp)%N -> itg (yprod l lp m) = 0%Re.
Proof.
move=> h; case: (ltnP l m) => hm; first by rewrite y_low // itg0.
by rewrite -[yprod _ _ _]mulr1 -leg0 yprod_orth.
Qed.
Lemma y_orth2 l lp : (lp < l)%N -> itg (yprod l lp m) = 0%Re.
Proof. by rewrite yprodC; exact: y_orth. Qed.
Lemma y_norm l : (m <= l)%N -> (0 < itg (yprod l l m))%Re.
Proof.
elim: l => [|l IH].
  rewrite leqn0 => /eqP ->; rewrite /yprod /dvn /= leg0 expr0 !mulr1 /itg.
  apply: RInt_gt_0; [lra|move=> x _; rewrite ev1; lra|move=> x _; exact: ev_continuous].
rewrite leq_eqVlt => /orP [/eqP e|].
  rewrite /yprod {1 2 3}e /itg; have [hs hc] := degc_dvn (leqnn l.+1) (leg_degc l.+1).
  set c := (_ * _)%Re in hc; have c0 := degc_neq0 (conj hs hc); rewrite subnn in hs hc.
  have -> : dvn l.+1 (leg l.+1) = c%:P by rewrite [LHS]size1_polyC ?hs // hc.
  apply: RInt_gt_0; [lra| |move=> x _; exact: ev_continuous].
  move=> x hx; rewrite !evM evXn ev_qq evC.
  have q : (0 < (1 - x * x) ^ l.+1)%Re by apply: pow_lt; nra.
  have c2 : (0 < c * c)%Re by case: (Rtotal_order c 0) => [h|[h|h]]; [nra|done|nra].
  by rewrite Rmult_assoc; apply: Rmult_lt_0_compat.
rewrite ltnS => h; have {}IH := IH h; have np := INRp l; have hm := INR_ge h.
have r2 := f_equal itg (y_rec l l); rewrite itgD !itgZ (y_orth2 (l := l.+2)) // in r2.
case: l h IH np hm r2 => [|k] h IH np hm r2.
- have m0 : m = 0%N by move: h; rewrite leqn0 => /eqP.
  have r1 := f_equal itg (y_rec0 1 m0).
  have e := f_equal itg (congr1 (fun p => 'X * p) (yprodC 0 1 m)).
  rewrite r1 in e; rewrite -e m0 INR00 in r2; rewrite m0 in IH *; lra.
- have z : itg (yprod k k.+2 m) = 0%Re by apply: y_orth; rewrite ltnS leqnSn.
  have r1 := f_equal itg (y_rec k k.+2); rewrite itgD !itgZ z in r1.
  have e := f_equal itg (congr1 (fun p => 'X * p) (yprodC k.+1 k.+2 m)); rewrite e in r1.
  rewrite S_INR in np hm r2.
  have kp := INRp k; have mp := INRp m.
  set A := itg (yprod k.+2 k.+2 m) in r1 *; set B := itg ('X * _) in r1 r2; set C := itg _ in IH r2.
  have hB : (0 < B)%Re.
    apply: (Rmult_lt_reg_l (2 * (INR k + 1) + 3)); [lra|]. rewrite Rmult_0_r r2.
    have : (0 < (INR k + 1 + 1 + INR m) * C)%Re by apply: Rmult_lt_0_compat; lra. lra.
  apply: (Rmult_lt_reg_l (INR k + 2 - INR m)); [lra|].
  have : (0 < (2 * INR k + 3) * B)%Re by apply: Rmult_lt_0_compat; lra. lra.
Qed.
Lemma y_itg l lp : (0 <= itg (yprod l lp m))%Re.
Proof.
case: (ltngtP l lp) => [h|h|<-]; [by rewrite y_orth //; lra|by rewrite y_orth2 //; lra|].
by case: (leqP m l) => h; [left; exact: y_norm|rewrite y_low // itg0; lra].
Qed.
Lemma mom_y k l lp : (0 <= mom k (yprod l lp m))%Re.
Proof.
elim: k l => [|k IH] l; first by rewrite mom0; exact: y_itg.
case: (ltnP l m) => h; first by rewrite y_low // /mom mulr0 itg0; lra.
rewrite momS; case: l h => [|n] h.
  by rewrite y_rec0; [exact: IH|move: h; rewrite leqn0 => /eqP].
have np := INRp n; have mp := INRp m; have := INR_ge h; rewrite S_INR => hm.
have := congr1 (mom k) (y_rec n lp); rewrite momD !momZ => e.
have h1 : (0 <= (INR n + 2 - INR m) * mom k (yprod n.+2 lp m))%Re by apply: Rmult_le_pos; [lra|exact: IH].
have h2 : (0 <= (INR n + 1 + INR m) * mom k (yprod n lp m))%Re by apply: Rmult_le_pos; [lra|exact: IH].
apply: (Rmult_le_reg_l (2 * INR n + 3)); lra.
Qed.
Lemma y_up k l lp : (m <= l)%N -> (0 < mom k (yprod l.+1 lp m))%Re -> (0 < mom k.+1 (yprod l lp m))%Re.
Proof.
move=> h h0; rewrite momS; case: l h h0 => [|n] h h0.
  by rewrite y_rec0 //; move: h; rewrite leqn0 => /eqP.
have np := INRp n; have mp := INRp m; have := INR_ge h; rewrite S_INR => hm.
have := congr1 (mom k) (y_rec n lp); rewrite momD !momZ => e.
have h1 : (0 < (INR n + 2 - INR m) * mom k (yprod n.+2 lp m))%Re by apply: Rmult_lt_0_compat => //; lra.
have h2 : (0 <= (INR n + 1 + INR m) * mom k (yprod n lp m))%Re by apply: Rmult_le_pos; [lra|exact: mom_y].
apply: (Rmult_lt_reg_l (2 * INR n + 3)); lra.
Qed.
Lemma y_ups j k l lp : (m <= l)%N -> (0 < mom k (yprod (l + j) lp m))%Re -> (0 < mom (k + j) (yprod l lp m))%Re.
Proof.
elim: j l => [|j IH] l h h0; first by rewrite addn0; rewrite addn0 in h0.
by rewrite addnS; apply: y_up => //; apply: IH; [exact: leqW|rewrite addSnnS].
Qed.
Lemma y_posmom l lp : (m <= l)%N -> (m <= lp)%N -> exists k, (0 < mom k.+1 (yprod l lp m))%Re.
Proof.
wlog hl : l lp / (l <= lp)%N => [W h1 h2|h1 h2].
  by case: (leqP l lp) => h; [exact: W|rewrite yprodC; apply: W => //; exact: ltnW].
exists (lp.+1 - l)%N; rewrite -add1n.
apply: y_ups; first done.
rewrite subnKC; last exact: leqW.
rewrite yprodC; apply: y_up => //; rewrite mom0; apply: y_norm; exact: leqW.
Qed.

(** ** moments of E *)
Lemma E_C l lp : Epoly l lp m = Epoly lp l m.
Proof. by rewrite /Epoly yprodC; congr (_ *: _ + _); rewrite Rplus_comm. Qed.
Lemma E_0 lp : Epoly 0 lp m = 0.
Proof.
apply: poly_ext; apply: (ev_mul_cancel qq_neq0) => x; rewrite ev_qq qE ev0 !aofE.
case: (posnP m) => [->|h]; last by rewrite (U_low h) dv0 !ev0; ring.
by rewrite /dvn /= leg0 dv1 ev0 /=; ring.
Qed.
Lemma E_low l lp : (l < m)%N -> Epoly l lp m = 0.
Proof.
by move=> h; apply: poly_ext; apply: (ev_mul_cancel qq_neq0) => x; rewrite ev_qq qE ev0 !aofE (U_low h) dv0 !ev0; ring.
Qed.
Lemma E_rec n lp : let l := (INR n + 1)%Re in 'X * Epoly n.+1 lp m = al m n *: Epoly n.+2 lp m + be m n *: Epoly n lp m + (- (2 * INR m * INR m / (l * (l + 1))))%Re *: dv (yprod n.+1 lp m).
Proof.
move=> l; apply: poly_ext; apply: (ev_mul_cancel qq_neq0) => x; rewrite ev_qq.
have np := INRp n; have l0 : (0 < l)%Re by rewrite /l; lra.
have e1 := qE n.+1 lp m x; have e2 := qE n.+2 lp m x; have e0 := qE n lp m x.
have d : ((1 - x * x) * ev (dv (yprod n.+1 lp m)) x = ev (qq ^+ m) x * (ev (aof m n.+1) x * ev (dvn m (leg lp)) x + ev (aof m lp) x * ev (dvn m (leg n.+1)) x))%Re.
  by rewrite -ev_qq -evM qdy !evE.
have r1 := tU m n x; have r2 := ta m n x; rewrite -/l in r1 r2.
move: e1 e2 e0 d; move: (Epoly n.+1 lp m) (Epoly n.+2 lp m) (Epoly n lp m) (yprod n.+1 lp m) => P1 P2 P0 y1 e1 e2 e0 d.
rewrite evM evX !evD !evZ.
set E1 := ev P1 x in e1 *; set E2 := ev P2 x in e2 *; set E0 := ev P0 x in e0 *.
set dy := ev (dv y1) x in d *; set Y := ev (qq ^+ m) x in e0 e1 e2 d; set b := ev (aof m lp) x in e0 e1 e2 d; set V := ev (dvn m (leg lp)) x in e0 e1 e2 d.
set mm := INR m in e0 e1 e2 r1 r2 *.
transitivity (x * ((1 - x * x) * E1))%Re; first by ring.
transitivity (al m n * ((1 - x * x) * E2) + be m n * ((1 - x * x) * E0) + - (2 * mm * mm / (l * (l + 1))) * ((1 - x * x) * dy))%Re; last by ring.
rewrite e0 e1 e2 d.
transitivity (2 * Y * (mm * mm * ((x * ev (dvn m (leg n.+1)) x) * V) + (x * ev (aof m n.+1) x) * b))%Re; first by ring.
rewrite r1 r2; field; lra.
Qed.
Lemma E_itg l lp : itg (Epoly l lp m) = ((INR l * (INR l + 1) + INR lp * (INR lp + 1)) * itg (yprod l lp m))%Re.
Proof. rewrite /Epoly itgD itgZ itg_deriv !evM !ev_qq; ring. Qed.
Lemma dy_mom k l lp : (0 < m)%N -> (0 <= - mom k (dv (yprod l lp m)))%Re.
Proof.
move=> h; rewrite /mom mulrC itg_parts.
have z t : (1 - t * t = 0)%Re -> ev (yprod l lp m * 'X ^+ k) t = 0%Re.
  by move=> e; rewrite /yprod !evM evXn ev_qq e pow_i; [ring|apply/ltP].
rewrite !z; [clear z|ring|ring].
case: k => [|k]; first by rewrite expr0 dv1 mulr0 itg0; lra.
have -> : yprod l lp m * dv ('X ^+ k.+1) = (INR k + 1)%Re *: ('X ^+ k * yprod l lp m).
  rewrite /dv derivXn /= -mulr_natl; apply: poly_ext => x; rewrite evZ !evM.
  have -> : ev (k.+1)%:R x = (INR k + 1)%Re.
    by rewrite -S_INR; elim: k.+1 => [|j IH]; [rewrite ev0|rewrite S_INR -addn1 natrD evD IH ev1].
  ring.
rewrite itgZ; have := mom_y k l lp; rewrite /mom; have := INRp k => p1 p2.
have : (0 <= (INR k + 1) * itg ('X ^+ k * yprod l lp m))%Re by apply: Rmult_le_pos; lra.
lra.
Qed.
Lemma al_pos n : (m <= n.+1)%N -> (0 < al m n)%Re.
Proof.
move=> h; have := INR_ge h; rewrite S_INR /al => hm; have := INRp n => np.
apply: Rmult_lt_0_compat; [apply: Rmult_lt_0_compat; lra|apply: Rinv_0_lt_compat; apply: Rmult_lt_0_compat; lra].
Qed.
Lemma be_pos n : (0 <= be m n)%Re.
Proof.
have := INRp n => np; have := INRp m => mp; rewrite /be.
apply: Rmult_le_pos; [apply: Rmult_le_pos; lra|left; apply: Rinv_0_lt_compat; apply: Rmult_lt_0_compat; lra].
Qed.
Lemma E_step k n lp : (0 <= mom k ((- (2 * INR m * INR m / ((INR n + 1) * (INR n + 1 + 1))))%Re *: dv (yprod n.+1 lp m)))%Re.
Proof.
rewrite momZ; case: (posnP m) => [->|h].
  by rewrite /= (_ : (- (2 * 0 * 0 / _) = 0)%Re); [rewrite Rmult_0_l; lra|rewrite Rmult_0_r /Rdiv Rmult_0_l Ropp_0].
have d := dy_mom k n.+1 lp h; have np := INRp n; have mp := INRp m.
set c := (2 * _ * _ / _)%Re; have hc : (0 <= c)%Re.
  by apply: Rmult_le_pos; [nra|left; apply: Rinv_0_lt_compat; nra].
have -> : (- c * mom k (dv (yprod n.+1 lp m)) = c * - mom k (dv (yprod n.+1 lp m)))%Re by ring.
exact: Rmult_le_pos.
Qed.
Lemma mom_E k l lp : (0 <= mom k (Epoly l lp m))%Re.
Proof.
elim: k l => [|k IH] l.
  rewrite mom0 E_itg; apply: Rmult_le_pos; last exact: y_itg.
  by have := INRp l; have := INRp lp; nra.
case: l => [|n]; first by rewrite E_0 /mom mulr0 itg0; lra.
case: (ltnP n.+1 m) => h; first by rewrite E_low // /mom mulr0 itg0; lra.
rewrite momS E_rec !momD; apply: Rplus_le_le_0_compat; last exact: E_step.
rewrite !momZ; apply: Rplus_le_le_0_compat; apply: Rmult_le_pos => //; [left; exact: al_pos|exact: be_pos].
Qed.
Lemma E_up k n lp : (m <= n.+1)%N -> (0 < mom k (Epoly n.+2 lp m))%Re -> (0 < mom k.+1 (Epoly n.+1 lp m))%Re.
Proof.
move=> h h0; rewrite momS E_rec !momD; apply: Rplus_lt_le_0_compat; last exact: E_step.
rewrite !momZ; apply: Rplus_lt_le_0_compat; first by apply: Rmult_lt_0_compat => //; exact: al_pos.
by apply: Rmult_le_pos; [exact: be_pos|exact: mom_E].
Qed.
Lemma E_ups j k n lp : (m <= n.+1)%N -> (0 < mom k (Epoly (n.+1 + j) lp m))%Re -> (0 < mom (k + j) (Epoly n.+1 lp m))%Re.
Proof.
elim: j n => [|j IH] n h h0; first by rewrite addn0; rewrite addn0 in h0.
by rewrite addnS; apply: E_up => //; apply: IH; [exact: leqW|rewrite addSnnS].
Qed.
Lemma E_posmom l lp : (m <= l)%N -> (m <= lp)%N -> (0 < l)%N -> (0 < lp)%N -> exists k, (0 < mom k.+1 (Epoly l lp m))%Re.
Proof.
wlog hl : l lp / (l <= lp)%N => [W h1 h2 l0 p0|h1 h2 l0 p0].
  by case: (leqP l lp) => h; [exact: W|rewrite E_C; apply: W => //; exact: ltnW].
exists (lp.+1 - l)%N; rewrite -add1n.
case: l h1 l0 hl => [//|n] h1 _ hl; apply: E_ups; first done.
rewrite subnKC; last exact: leqW.
rewrite E_C; case: lp h2 p0 hl => [//|q] h2 _ hl; apply: E_up => //.
rewrite mom0 E_itg; apply: Rmult_lt_0_compat; last by apply: y_norm; exact: leqW.
by rewrite !S_INR; have := INRp q; nra.
Qed.
End M.

(** ** the sums with i_p *)
Definition grows (f : R -> R) : Prop := (forall x, 0 < x -> 0 < f x)%Re /\ (forall x y, 0 < x -> x < y -> f x < f y)%Re.
Lemma grows_J p k : (forall k, (0 <= mom k p)%Re) -> (0 < mom k.+1 p)%Re -> grows (fun x => J x p).
Proof.
move=> h0 hk; split=> [x hx|x y hx hxy]; last by have [] : (0 <= J x p < J y p)%Re by apply: (J_grows h0 hk); lra.
by have := @J_grows p k 0 x h0 hk (Rle_refl _) hx; lra.
Qed.
Lemma grows_scal c f : (0 < c)%Re -> grows f -> grows (fun x => c * f x)%Re.
Proof.
move=> hc [h1 h2]; split=> [x /h1 h|x y hx hxy]; first exact: Rmult_lt_0_compat.
by apply: Rmult_lt_compat_l => //; exact: h2.
Qed.
Lemma grows_x f : grows f -> grows (fun x => x * f x)%Re.
Proof.
move=> [h1 h2]; split=> [x hx|x y hx hxy]; first by apply: Rmult_lt_0_compat => //; exact: h1.
apply: Rmult_gt_0_lt_compat => //; [apply: Rlt_gt; apply: h1; lra|lra|exact: h2].
Qed.
Lemma grows_ext f g : (forall x, (0 < x)%Re -> f x = g x) -> grows f -> grows g.
Proof. by move=> e [h1 h2]; split=> [x hx|x y hx hxy]; rewrite -!e //; [exact: h1|exact: h2|lra]. Qed.
Lemma same_form_i l lp m : (m <= l)%N -> (m <= lp)%N -> (0 < l)%N -> (0 < lp)%N -> exists P, grows P /\ forall x, (0 < x)%Re ->
  sum_f_R0 (fun p => (INR l * (INR l + 1) + INR lp * (INR lp + 1) - INR p * (INR p + 1)) * cprod l lp m p * sph_i p x)%Re (l + lp) = P x.
Proof.
move=> h1 h2 l0 lp0; have [k hk] := E_posmom h1 h2 l0 lp0; have G := grows_J (fun k => mom_E m k l lp) hk.
exists (fun x => / 2 * J x (Epoly l lp m))%Re; split; first by apply: grows_scal => //; lra.
move=> x hx; rewrite sum_f_R0_big E_sum // (@J_sum x _ (fun p => ((INR l * (INR l + 1) + INR lp * (INR lp + 1) - INR p * (INR p + 1)) * cprod l lp m p)%Re *: leg p)) [RHS]RmultE big_distrr /=; apply: eq_bigr => p _.
rewrite (sph_i_J p hx).1 JZ; have r (u v w : R) : (u * v * (w / 2) = / 2 * (u * v * w))%Re by lra.
exact: r.
Qed.
Lemma mixed_form_i l lp m : (m <= l)%N -> (m <= lp)%N -> exists Q, grows Q /\ forall x, (0 < x)%Re ->
  sum_f_R0 (fun p => cprod l lp m p * sph_i p x)%Re (l + lp) = Q x.
Proof.
move=> h1 h2; have [k hk] := y_posmom h1 h2; have G := grows_J (fun k => mom_y m k l lp) hk.
exists (fun x => / 2 * J x (yprod l lp m))%Re; split; first by apply: grows_scal => //; lra.
move=> x hx; rewrite sum_f_R0_big (y_sum h1 h2) (@J_sum x _ (fun p => cprod l lp m p *: leg p)) [RHS]RmultE big_distrr /=; apply: eq_bigr => p _.
rewrite (sph_i_J p hx).1 JZ; have r (u w : R) : (u * (w / 2) = / 2 * (u * w))%Re by lra.
exact: r.
Qed.
