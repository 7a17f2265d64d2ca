(** * The differential equation of a product of two associated Legendre functions *)
From Coq Require Import Reals Lra Psatz.
From Coquelicot Require Import Coquelicot.
From mathcomp Require Import ssreflect ssrfun ssrbool eqtype ssrnat seq choice fintype bigop ssralg poly.
From Verif Require Import RStruct Gaunt_Spec Gaunt_Proofs2 Gaunt_Proofs3.
Set Implicit Arguments.
Unset Strict Implicit.
Unset Printing Implicit Defensive.
Import GRing.Theory.
Delimit Scope R_scope with Re.
Local Open Scope ring_scope.

Definition Eop (s d2 m2 : R) (f : PR) : PR :=
  dv (dv (qq * (dv (qq * dv f) + s *: f)) + s *: (qq * dv f) - (4 * m2)%Re *: dv f) + d2 *: f.

Lemma dv_qqn m x : ((1 - x * x) * ev (dv (qq ^+ m)) x = - (2 * INR m * x) * ev (qq ^+ m) x)%Re.
Proof.
elim: m => [|m IH].
  rewrite expr0 !dvE !evE /=; ring.
rewrite exprS dvM dv_qq !evE ev_qq S_INR.
have -> : ((1 - x * x) * (- (x + x) * ev (qq ^+ m) x + (1 - x * x) * ev (dv (qq ^+ m)) x) =
  (1 - x * x) * (- (x + x) * ev (qq ^+ m) x) + (1 - x * x) * ((1 - x * x) * ev (dv (qq ^+ m)) x))%Re by ring.
rewrite IH; ring.
Qed.

Section product_abs.
Context (U V Y a b : PR) (mm lam mu : R).
Context (da : forall x, ((1 - x * x) * ev (dv a) x = mm * x * ev a x + (mm * mm - lam * (1 - x * x)) * ev U x)%Re).
Context (db : forall x, ((1 - x * x) * ev (dv b) x = mm * x * ev b x + (mm * mm - mu * (1 - x * x)) * ev V x)%Re).
Context (dU : forall x, ((1 - x * x) * ev (dv U) x = ev a x + mm * x * ev U x)%Re).
Context (dV : forall x, ((1 - x * x) * ev (dv V) x = ev b x + mm * x * ev V x)%Re).
Context (dY : forall x, ((1 - x * x) * ev (dv Y) x = - (2 * mm * x) * ev Y x)%Re).
Let sg := (lam + mu)%Re.
Let de := (mu - lam)%Re.
Definition y0 : PR := Y * U * V.
Definition z := Y * a * b.
Definition w := Y * (a * V - b * U).
Definition h := Y * (a * V + b * U).
Local Lemma H1 : qq * dv y0 = h.
Proof.
apply: poly_ext => x; rewrite /y0 /h !dvE !evE ev_qq.
have -> : ((1 - x * x) * ((ev (dv Y) x * ev U x + ev Y x * ev (dv U) x) * ev V x + ev Y x * ev U x * ev (dv V) x) =
   ((1 - x * x) * ev (dv Y) x) * ev U x * ev V x + ev Y x * ((1 - x * x) * ev (dv U) x) * ev V x + ev Y x * ev U x * ((1 - x * x) * ev (dv V) x))%Re by ring.
rewrite dU dV dY; ring.
Qed.
Local Lemma H2 x : ((1 - x * x) * ev (dv h) x = (2 * mm * mm - sg * (1 - x * x)) * ev y0 x + 2 * ev z x)%Re.
Proof.
rewrite /y0 /h /z !dvE !evE.
have -> : ((1 - x * x) * (ev (dv Y) x * (ev a x * ev V x + ev b x * ev U x) +
      ev Y x * (ev (dv a) x * ev V x + ev a x * ev (dv V) x + (ev (dv b) x * ev U x + ev b x * ev (dv U) x))) =
   ((1 - x * x) * ev (dv Y) x) * (ev a x * ev V x + ev b x * ev U x) +
   ev Y x * (((1 - x * x) * ev (dv a) x) * ev V x + ev a x * ((1 - x * x) * ev (dv V) x) + (((1 - x * x) * ev (dv b) x) * ev U x + ev b x * ((1 - x * x) * ev (dv U) x))))%Re by ring.
rewrite dU dV dY da db /sg; ring.
Qed.
Local Lemma H3 x : (ev (dv z) x = (mm * mm - sg * (1 - x * x) / 2) * ev (dv y0) x - de / 2 * ev w x)%Re.
Proof.
have e : forall y, ((mm * mm - sg * (1 - y * y) / 2) * ev (dv y0) y - de / 2 * ev w y)%Re =
   ev (((mm * mm)%Re%:P - (sg / 2)%Re *: qq) * dv y0 - (de / 2)%Re *: w) y.
  by move=> y; rewrite /w !evE ev_qq; lra.
rewrite e; apply: (ev_mul_cancel qq_neq0) => y.
rewrite -e ev_qq.
have h1 : ((1 - y * y) * ev (dv y0) y = ev h y)%Re by rewrite -H1 evM ev_qq.
have -> : ((1 - y * y) * ((mm * mm - sg * (1 - y * y) / 2) * ev (dv y0) y - de / 2 * ev w y) =
  (mm * mm - sg * (1 - y * y) / 2) * ((1 - y * y) * ev (dv y0) y) - (1 - y * y) * de / 2 * ev w y)%Re by field.
rewrite h1 /h /w /z !dvE !evE.
have -> : ((1 - y * y) * ((ev (dv Y) y * ev a y + ev Y y * ev (dv a) y) * ev b y + ev Y y * ev a y * ev (dv b) y) =
  (((1 - y * y) * ev (dv Y) y) * ev a y + ev Y y * ((1 - y * y) * ev (dv a) y)) * ev b y + ev Y y * ev a y * ((1 - y * y) * ev (dv b) y))%Re by ring.
rewrite dY da db /sg /de; field.
Qed.
Local Lemma H4 x : ev (dv w) x = (de * ev y0 x)%Re.
Proof.
rewrite -evZ; apply: (ev_mul_cancel qq_neq0) => y.
rewrite ev_qq evZ /w /y0 !dvE !evE.
have -> : ((1 - y * y) * (ev (dv Y) y * (ev a y * ev V y - ev b y * ev U y) +
      ev Y y * (ev (dv a) y * ev V y + ev a y * ev (dv V) y - (ev (dv b) y * ev U y + ev b y * ev (dv U) y))) =
   ((1 - y * y) * ev (dv Y) y) * (ev a y * ev V y - ev b y * ev U y) +
   ev Y y * (((1 - y * y) * ev (dv a) y) * ev V y + ev a y * ((1 - y * y) * ev (dv V) y) - (((1 - y * y) * ev (dv b) y) * ev U y + ev b y * ((1 - y * y) * ev (dv U) y))))%Re by ring.
rewrite dU dV dY da db /de; ring.
Qed.

Lemma Eop_abs : Eop sg (de * de)%Re (mm * mm)%Re y0 = 0.
Proof.
have G1 : qq * (dv (qq * dv y0) + sg *: y0) = (2 * mm * mm)%Re *: y0 + 2%Re *: z.
  rewrite H1; apply: poly_ext => x; rewrite evM !evD !evZ ev_qq.
  have e := H2 x. lra.
have G2 : dv (qq * (dv (qq * dv y0) + sg *: y0)) + sg *: (qq * dv y0) - (4 * (mm * mm))%Re *: dv y0 = (- de)%Re *: w.
  rewrite G1 dvD !dvZ; apply: poly_ext => x; rewrite evB !evD !evZ H3 evM ev_qq; lra.
rewrite /Eop G2 dvZ; apply: poly_ext => x; rewrite evD !evZ H4 ev0; lra.
Qed.
End product_abs.

Section product.
Context (l lp m : nat).
Let lam := (INR l * (INR l + 1))%Re.
Let mu := (INR lp * (INR lp + 1))%Re.
Let sg := (lam + mu)%Re.
Let de := (mu - lam)%Re.
Let mm := INR m.
Definition yprod : PR := qq ^+ m * dvn m (leg l) * dvn m (leg lp).
Definition aof (n : nat) : PR := qq * dv (dvn m (leg n)) - mm *: ('X * dvn m (leg n)).
Lemma aofE n x : ev (aof n) x = ((1 - x * x) * ev (dv (dvn m (leg n))) x - mm * (x * ev (dvn m (leg n)) x))%Re.
Proof. by rewrite /aof !evE ev_qq. Qed.
Lemma aof_dv n x : ((1 - x * x) * ev (dv (aof n)) x =
  mm * x * ev (aof n) x + (mm * mm - (INR n * (INR n + 1)) * (1 - x * x)) * ev (dvn m (leg n)) x)%Re.
Proof.
have o := leg_ode_m n m x. rewrite aofE /aof !dvE dv_qq !evE ev_qq. fold mm in o.
set U := dvn m (leg n) in o *.
have -> : ((1 - x * x) * ev (dv (dv U)) x = 2 * (mm + 1) * x * ev (dv U) x - (INR n * (INR n + 1) - mm * (mm + 1)) * ev U x)%Re by lra.
ring.
Qed.
Theorem Eop_yprod : Eop sg (de * de)%Re (mm * mm)%Re yprod = 0.
Proof.
apply: (@Eop_abs (dvn m (leg l)) (dvn m (leg lp)) (qq ^+ m) (aof l) (aof lp) mm lam mu).
- exact: aof_dv.
- exact: aof_dv.
- move=> x; rewrite aofE; ring.
- move=> x; rewrite aofE; ring.
- exact: dv_qqn.
Qed.
End product.

(** ** the operator on Legendre polynomials *)
Definition lQ (n : nat) : PR := dv (dv (leg n)).
Definition xal (a2 b2 p : R) : R := ((p * p - a2) * (p * p - b2) / (4 * p * p - 1))%Re.
Lemma EopD s d2 m2 f g : Eop s d2 m2 (f + g) = Eop s d2 m2 f + Eop s d2 m2 g.
Proof.
rewrite /Eop. apply: poly_ext => x.
rewrite !(dvZ, dvB, dvD, dvN, dvM) !evE; ring.
Qed.
Lemma EopZ s d2 m2 c f : Eop s d2 m2 (c *: f) = c *: Eop s d2 m2 f.
Proof.
rewrite /Eop. apply: poly_ext => x.
rewrite !(dvZ, dvB, dvD, dvN, dvM) !evE; ring.
Qed.
Lemma Eop0 s d2 m2 : Eop s d2 m2 0 = 0.
Proof. by have := EopZ s d2 m2 0 0; rewrite !scale0r. Qed.
Lemma Eop_sum s d2 m2 (c : nat -> R) (F : nat -> PR) n :
  Eop s d2 m2 (\sum_(i < n) c i *: F i) = \sum_(i < n) c i *: Eop s d2 m2 (F i).
Proof.
elim: n => [|n IH]; first by rewrite !big_ord0 Eop0.
by rewrite !big_ord_recr /= EopD EopZ IH.
Qed.

Section legop.
Context (s d2 m2 a2 b2 : R) (hs : (a2 + b2 = 2 * s + 1)%Re) (hd : (a2 * b2 = d2)%Re).
(** the operator before splitting off the second derivatives *)
Lemma Eop_leg0 n x : ev (Eop s d2 m2 (leg n)) x =
  (- 2 * (s - INR n * (INR n + 1)) * (ev (leg n) x + x * ev (dv (leg n)) x)
   - (2 * s - INR n * (INR n + 1)) * (INR n * (INR n + 1)) * ev (leg n) x - 4 * m2 * ev (lQ n) x + d2 * ev (leg n) x)%Re.
Proof.
have e1 : dv (qq * dv (leg n)) = (- (INR n * (INR n + 1)))%Re *: leg n.
  by apply: poly_ext => y; rewrite leg_ode evZ.
have e0 : (- (INR n * (INR n + 1)))%Re *: leg n + s *: leg n = (s - INR n * (INR n + 1))%Re *: leg n.
  apply: poly_ext => y; rewrite !evE; ring.
rewrite /Eop e1 e0 -scalerAr dvZ dvM.
have e2 : (s - INR n * (INR n + 1))%Re *: (dv qq * leg n + qq * dv (leg n)) + s *: (qq * dv (leg n)) =
  (2 * s - INR n * (INR n + 1))%Re *: (qq * dv (leg n)) + (-2 * (s - INR n * (INR n + 1)))%Re *: ('X * leg n).
  apply: poly_ext => y; rewrite dv_qq !evE; ring.
rewrite e2 dvB dvD !dvZ e1 dvM dvX /lQ !evE; ring.
Qed.
Lemma xal_spec n : (xal a2 b2 (INR n) * ((2 * INR n - 1) * (2 * INR n + 1)) = (INR n * INR n) * (INR n * INR n) - (2 * s + 1) * (INR n * INR n) + d2)%Re.
Proof.
rewrite /xal -hs -hd.
have h : (4 * INR n * INR n - 1 <> 0)%Re.
  case: n => [|n]; first by rewrite /=; lra. rewrite S_INR; have := INRp n; nra.
field; nra.
Qed.
Lemma Eop_leg n x : ev (Eop s d2 m2 (leg n.+2)) x =
  (xal a2 b2 (INR n.+3) * (ev (lQ n.+4) x - ev (lQ n.+2) x) - xal a2 b2 (INR n.+2) * (ev (lQ n.+2) x - ev (lQ n) x)
   - 4 * m2 * ev (lQ n.+2) x)%Re.
Proof.
rewrite Eop_leg0 /lQ leg_d2 leg_d2.
have := xal_spec n.+3. have := xal_spec n.+2.
have ha := leg_a n.+2 x. have hb := leg_b n.+1 x. have hd1 := leg_d n.+1 x.
rewrite !S_INR in ha hb hd1 *. have hn := INRp n.
set N := INR n in ha hb hd1 hn *.
set A3 := xal _ _ (N + 1 + 1 + 1)%Re. set A2 := xal _ _ (N + 1 + 1)%Re. move=> x2 x3.
set P := ev (leg n.+2) x in ha hb hd1 *. set D3 := ev (dv (leg n.+3)) x in ha hb hd1 *. set D1 := ev (dv (leg n.+1)) x in ha hb hd1 *.
set D2 := ev (dv (leg n.+2)) x in ha hb hd1 *.
have eP : P = ((D3 - D1) / (2 * N + 5))%Re by apply: (Rmult_eq_reg_l (2 * N + 5)%Re); [field_simplify; lra|lra].
have eX : (x * D2 = D3 - (N + 3) * P)%Re by lra.
have -> : (2 * (N + 1 + 1) + 3 = 2 * N + 7)%Re by ring.
have a3 : A3 = (((N+3) * (N+3) * ((N+3) * (N+3)) - (2 * s + 1) * ((N+3) * (N+3)) + d2) / ((2 * N + 5) * (2 * N + 7)))%Re.
  apply: (Rmult_eq_reg_r ((2 * N + 5) * (2 * N + 7))%Re); last nra.
  have -> : (A3 * ((2 * N + 5) * (2 * N + 7)) = A3 * ((2 * (N + 1 + 1 + 1) - 1) * (2 * (N + 1 + 1 + 1) + 1)))%Re by ring.
  rewrite x3; field; lra.
have a2' : A2 = (((N+2) * (N+2) * ((N+2) * (N+2)) - (2 * s + 1) * ((N+2) * (N+2)) + d2) / ((2 * N + 3) * (2 * N + 5)))%Re.
  apply: (Rmult_eq_reg_r ((2 * N + 3) * (2 * N + 5))%Re); last nra.
  have -> : (A2 * ((2 * N + 3) * (2 * N + 5)) = A2 * ((2 * (N + 1 + 1) - 1) * (2 * (N + 1 + 1) + 1)))%Re by ring.
  rewrite x2; field; lra.
rewrite eX a3 a2' eP; field; lra.
Qed.
Lemma Eop_leg_1 x : ev (Eop s d2 m2 (leg 1)) x = (xal a2 b2 2 * (ev (lQ 3) x - ev (lQ 1) x) - 4 * m2 * ev (lQ 1) x)%Re.
Proof.
rewrite Eop_leg0 /lQ leg_d2.
have := xal_spec 2. have hb := leg_b 1 x; have ha := leg_a 1 x.
rewrite leg1 !dvE !evE in ha hb *. rewrite ha /=.
move=> e. have -> : (xal a2 b2 2 = (16 - (2 * s + 1) * 4 + d2) / 15)%Re.
  have -> : (2 = 1 + 1)%Re by lra. lra.
field.
Qed.
Lemma Eop_leg_0 x : ev (Eop s d2 m2 (leg 0)) x = (xal a2 b2 1 * (ev (lQ 2) x - ev (lQ 0) x) - 4 * m2 * ev (lQ 0) x)%Re.
Proof.
rewrite Eop_leg0 /lQ leg_d2 leg0 leg1.
have := xal_spec 1. rewrite !dvE !evE /=.
move=> e. have -> : (xal a2 b2 1 = (1 - (2 * s + 1) * 1 + d2) / 3)%Re by lra.
field.
Qed.
End legop.
