(** * Signs of the sums of k_p weighted with the coefficients of P_l^m P_l'^m *)
From Coq Require Import Reals Lra Psatz.
From Coquelicot Require Import Coquelicot.
From mathcomp Require Import ssreflect ssrfun ssrbool eqtype ssrnat seq choice fintype bigop ssralg poly.
From Verif Require Import RStruct Bessel_Spec Bessel_Proofs Gaunt_Spec Gaunt_Proofs2 Gaunt_Proofs3 Gaunt_Proofs4 Gaunt_Proofs5 Gaunt_Proofs6 Gaunt_Proofs7 Lap_Proofs.
Set Implicit Arguments.
Unset Strict Implicit.
Unset Printing Implicit Defensive.
Import GRing.Theory.
Delimit Scope R_scope with Re.
Local Open Scope ring_scope.

Section Product.
Context (l lp m : nat) (h1 : (m <= l)%N) (h2 : (m <= lp)%N).
Let lam := (INR l * (INR l + 1))%Re.
Let mu := (INR lp * (INR lp + 1))%Re.
Let mm := INR m.
Let U := dvn m (leg l).
Let V := dvn m (leg lp).
Let Y : PR := qq ^+ m.
Let a := aof m l.
Let b := aof m lp.
Let y := yprod l lp m.
Definition Epoly : PR := (lam + mu)%Re *: y + dv (qq * dv y).
Lemma qdy : qq * dv y = Y * (a * V + b * U).
Proof.
apply: poly_ext => x; rewrite evM ev_qq /y /yprod !dvE -/U -/V -/Y !evE ev_qq -/U -/V -/mm.
have e := dv_qqn m x; rewrite -/Y -/mm in e.
set Y' := ev (dv Y) x in e *; set Y0 := ev Y x in e *.
transitivity ((1 - x * x) * Y' * (ev U x * ev V x) + Y0 * ((1 - x * x) * ev (dv U) x * ev V x + (1 - x * x) * ev (dv V) x * ev U x))%Re; first by ring.
rewrite e; ring.
Qed.
Lemma qE x : ((1 - x * x) * ev Epoly x = 2 * ev Y x * (mm * mm * (ev U x * ev V x) + ev a x * ev b x))%Re.
Proof.
have e := dv_qqn m x; rewrite -/Y -/mm in e.
have ea := aof_dv m l x; have eb := aof_dv m lp x; rewrite -/a -/b -/U -/V -/mm -/lam -/mu in ea eb.
have fa : ((1 - x * x) * ev (dv U) x = ev a x + mm * (x * ev U x))%Re by rewrite /a aofE -/U -/mm; ring.
have fb : ((1 - x * x) * ev (dv V) x = ev b x + mm * (x * ev V x))%Re by rewrite /b aofE -/V -/mm; ring.
have ey : ev y x = (ev Y x * ev U x * ev V x)%Re by rewrite /y /yprod -/U -/V -/Y !evE.
have E0 : ev Epoly x = ((lam + mu) * ev y x + ev (dv (Y * (a * V + b * U))) x)%Re by rewrite /Epoly qdy evD evZ.
rewrite E0 ey; clear E0 ey; clearbody a b; rewrite !dvE !evE.
transitivity ((lam + mu) * (1 - x * x) * (ev Y x * ev U x * ev V x) + ((1 - x * x) * ev (dv Y) x * (ev a x * ev V x + ev b x * ev U x)
  + ev Y x * ((1 - x * x) * ev (dv a) x * ev V x + ev a x * ((1 - x * x) * ev (dv V) x) + ((1 - x * x) * ev (dv b) x * ev U x + ev b x * ((1 - x * x) * ev (dv U) x)))))%Re; first by ring.
rewrite e ea eb fa fb; ring.
Qed.
Lemma rr_qq n : rr ^+ n = ((-1) ^ n)%Re *: (qq ^+ n).
Proof.
apply: poly_ext => x; rewrite evZ !evXn /rr evN -Rpow_mult_distr; congr (_ ^ _)%Re; ring.
Qed.
Lemma y_form : y = ((-1) ^ m)%Re *: (rr ^+ m * (U * V)).
Proof.
apply: poly_ext => x; rewrite evZ evM rr_qq evZ /y /yprod -/U -/V -/Y !evE.
have := pow1_sq m; set s := ((-1) ^ m)%Re => hs.
transitivity (s * s * (ev Y x * ev U x * ev V x))%Re; first by rewrite hs; ring.
rewrite -/Y; ring.
Qed.
(** - a, non-negative for x > 1 *)
Definition na (n : nat) : PR := rr * dv (dvn m (leg n)) + mm *: ('X * dvn m (leg n)).
Lemma naE n : na n = - aof m n.
Proof. by apply: poly_ext => x; rewrite evN aofE /na /rr !evE ev_qq -/mm; ring. Qed.
Lemma posd_na n : posd (na n).
Proof.
apply: posdD; first by apply: posdM; [exact: posd_rr|apply: posd_dv; apply: posd_dvn; exact: posd_leg].
by apply: posdZ; [exact: INRp|apply: posdM; [exact: posdX|apply: posd_dvn; exact: posd_leg]].
Qed.
Lemma posd_U n : posd (dvn m (leg n)). Proof. by apply: posd_dvn; exact: posd_leg. Qed.
Lemma y_sign : posd (rr ^+ m * (U * V)) /\ wit m (rr ^+ m * (U * V)).
Proof.
have p1 := posd_exp m posd_rr; have p2 := posdM (posd_U l) (posd_U lp); split; first exact: posdM.
rewrite -[m]addn0; apply: witM => //; first by rewrite addn0.
- by rewrite addn0; apply: wit_exp; [exact: posd_rr|exact: wit_rr].
- by apply: (@witM 0 0); [exact: posd_U|exact: posd_U|exact: wit_leg2|exact: wit_leg2].
Qed.
(** ** the sums *)
Lemma y_sum : y = \sum_(p < (l + lp).+1) cprod l lp m p *: leg p.
Proof.
have [hs _] := yprod_degc h1 h2.
by have [e _] := @legendre_expansion (yprod l lp m) (l + lp).+1 (eq_leq hs); rewrite /y {1}e.
Qed.
Lemma dvq_sum n (c : nat -> R) (F : nat -> PR) : dv (qq * dv (\sum_(i < n) c i *: F i)) = \sum_(i < n) c i *: dv (qq * dv (F i)).
Proof.
elim: n => [|n IH]; first by rewrite !big_ord0 dv0 mulr0 dv0.
by rewrite !big_ord_recr /= dvD mulrDr dvD IH dvZ -scalerAr dvZ.
Qed.
Lemma E_sum : Epoly = \sum_(p < (l + lp).+1) ((lam + mu - INR p * (INR p + 1)) * cprod l lp m p)%Re *: leg p.
Proof.
rewrite /Epoly y_sum dvq_sum scaler_sumr -big_split /=; apply: eq_bigr => p _.
apply: poly_ext => x; rewrite evD !evZ leg_ode; ring.
Qed.
Lemma sum_mixed x : (0 < x)%Re -> sum_f_R0 (fun p => cprod l lp m p * sph_k p x)%Re (l + lp) = (PI / 2 * exp (- x) * lap x y)%Re.
Proof.
move=> hx; rewrite sum_f_R0_big y_sum (@lap_sum x _ (fun p => cprod l lp m p *: leg p)) // RmultE big_distrr /=; apply: eq_bigr => p _.
rewrite sph_k_lap // lapZ //; have r (u v w : R) : (u * (v * w) = v * (u * w))%Re by ring.
exact: r.
Qed.
Lemma sum_same x : (0 < x)%Re -> sum_f_R0 (fun p => (lam + mu - INR p * (INR p + 1)) * cprod l lp m p * sph_k p x)%Re (l + lp) = (PI / 2 * exp (- x) * lap x Epoly)%Re.
Proof.
move=> hx; rewrite sum_f_R0_big E_sum (@lap_sum x _ (fun p => ((lam + mu - INR p * (INR p + 1)) * cprod l lp m p)%Re *: leg p)) // RmultE big_distrr /=; apply: eq_bigr => p _.
rewrite sph_k_lap // lapZ //; have r (u v w : R) : (u * (v * w) = v * (u * w))%Re by ring.
exact: r.
Qed.
End Product.

Lemma E_sign l lp m : (m <= l)%N -> (m <= lp)%N -> (0 < l)%N -> (0 < lp)%N -> exists Z j, [/\ Epoly l lp m = ((-1) ^ m.+1)%Re *: Z, posd Z & wit j Z].
Proof.
case: m => [|m] g1 g2 l0 lp0.
- pose W := dv (leg l) * dv (leg lp).
  have pW : posd W by apply: posdM; apply: posd_dv; exact: posd_leg.
  have pz : posd (rr * W) by apply: posdM => //; exact: posd_rr.
  exists (2%Re *: (rr * W)), 1%N; split; [|by apply: posdZ; [lra|]|].
  + apply: poly_ext; apply: (ev_mul_cancel qq_neq0) => x; rewrite ev_qq qE expr0 ev1 !aofE /rr /W !evE ev_qq /=; ring.
  + apply: witZ; first lra.
    apply: (@witM 1 0); [exact: posd_rr|done|exact: wit_rr|].
    by apply: (@witM 0 0); [apply: posd_dv; exact: posd_leg|apply: posd_dv; exact: posd_leg|exact: (@wit_leg2 1)|exact: (@wit_leg2 1)].
- pose U := dvn m.+1 (leg l); pose V := dvn m.+1 (leg lp); pose n1 := na m.+1 l; pose n2 := na m.+1 lp; pose mm := INR m.+1.
  pose W := (mm * mm)%Re *: (U * V) + n1 * n2.
  have m0 : (0 < mm)%Re by rewrite /mm S_INR; have := INRp m; lra.
  have pU : posd (U * V) by apply: posdM; exact: posd_U.
  have pW : posd W by apply: posdD; [apply: posdZ; [nra|]|apply: posdM; exact: posd_na].
  have pz : posd (rr ^+ m * W) by apply: posdM => //; apply: posd_exp; exact: posd_rr.
  exists (2%Re *: (rr ^+ m * W)), (m + 0)%N; split; [|by apply: posdZ; [lra|]|].
  + apply: poly_ext; apply: (ev_mul_cancel qq_neq0) => x; rewrite ev_qq qE !evZ evM rr_qq evZ.
    have -> : ev W x = (mm * mm * (ev U x * ev V x) + ev (aof m.+1 l) x * ev (aof m.+1 lp) x)%Re.
      by rewrite /W /n1 /n2 !naE !(evD, evZ, evM, evN); ring.
    rewrite -/U -/V -/mm exprS evM ev_qq.
    have := pow1_sq m; set s := ((-1) ^ m)%Re => hs.
    have -> : ((-1) ^ m.+2 = s)%Re by rewrite /s /=; ring.
    set w := (mm * mm * _ + _)%Re; set q := ev (qq ^+ m) x.
    transitivity (s * s * ((1 - x * x) * (2 * q * w)))%Re; first by rewrite hs; ring.
    ring.
  + apply: witZ; first lra.
    apply: witM => //; [by apply: posd_exp; exact: posd_rr|by apply: wit_exp; [exact: posd_rr|exact: wit_rr]|].
    rewrite /W addrC; apply: witD; first by apply: posdM; exact: posd_na.
    apply: witZ; first nra.
    by apply: (@witM 0 0); [exact: posd_U|exact: posd_U|exact: wit_leg2|exact: wit_leg2].
Qed.

(** ** lap and x lap never increase *)
Lemma lap_anti x y p : (0 < x)%Re -> (x <= y)%Re -> posd p -> (lap y p <= lap x p)%Re.
Proof.
move=> hx hy hp; rewrite /lap /lapN.
have key : forall N, (\sum_(j < N) (ev (dvn j p) 1 * (/ y) ^ j.+1)%Re <= \sum_(j < N) (ev (dvn j p) 1 * (/ x) ^ j.+1)%Re)%Re.
  elim=> [|N IH]; first by rewrite !big_ord0; apply: Rle_refl.
  rewrite !big_ord_recr /=; apply: Rplus_le_compat => //; apply: Rmult_le_compat_l; first exact: hp.
  apply: (pow_incr _ _ N.+1); split; first by left; apply: Rinv_0_lt_compat; lra.
  by apply: Rinv_le_contravar.
exact: key.
Qed.
Lemma lapx_anti x y p : (0 < x)%Re -> (x <= y)%Re -> posd p -> (y * lap y p <= x * lap x p)%Re.
Proof.
move=> hx hy hp; have hy0 : (0 < y)%Re by lra.
have e1 := lap_dv hx p; have e2 := lap_dv hy0 p; have := lap_anti hx hy (posd_dv hp); lra.
Qed.
(** decreasing functions, as e^(-x) lap x p and x e^(-x) lap x p *)
Definition falls (f : R -> R) : Prop := (forall x, 0 < x -> 0 < f x)%Re /\ (forall x y, 0 < x -> x < y -> f y < f x)%Re.
Lemma falls_lap p j : posd p -> wit j p -> falls (fun x => exp (- x) * lap x p)%Re /\ falls (fun x => x * (exp (- x) * lap x p))%Re.
Proof.
move=> hp hw; have P0 x : (0 < x)%Re -> (0 < lap x p)%Re by move=> hx; exact: lap_pos hx _ _ hp hw.
have ex x := exp_pos (- x); have ei x y : (x < y)%Re -> (exp (- y) < exp (- x))%Re by move=> h; apply: exp_increasing; lra.
split; split=> x; [move=> hx|move=> y hx hxy|move=> hx|move=> y hx hxy].
- exact: Rmult_lt_0_compat (ex x) (P0 x hx).
- have hy : (0 < y)%Re by lra. 
  apply: (Rlt_le_trans _ (exp (- x) * lap y p)%Re); first by apply: Rmult_lt_compat_r; [exact: P0|exact: ei].
  by apply: Rmult_le_compat_l; [left; exact: ex|apply: lap_anti => //; lra].
- by apply: Rmult_lt_0_compat => //; exact: Rmult_lt_0_compat (ex x) (P0 x hx).
- have hy : (0 < y)%Re by lra.
  have r (u v w : R) : (u * (v * w) = v * (u * w))%Re by ring.
  rewrite (r y) (r x); apply: (Rlt_le_trans _ (exp (- x) * (y * lap y p))%Re).
  + by apply: Rmult_lt_compat_r; [apply: Rmult_lt_0_compat => //; exact: P0|exact: ei].
  + by apply: Rmult_le_compat_l; [left; exact: ex|apply: lapx_anti => //; lra].
Qed.
Lemma falls_scal c f : (0 < c)%Re -> falls f -> falls (fun x => c * f x)%Re.
Proof.
move=> hc [h1 h2]; split=> [x /h1 h|x y hx hxy]; first exact: Rmult_lt_0_compat.
by apply: Rmult_lt_compat_l => //; exact: h2.
Qed.
Lemma falls_ext f g : (forall x, (0 < x)%Re -> f x = g x) -> falls f -> falls g.
Proof. by move=> e [h1 h2]; split=> [x hx|x y hx hxy]; rewrite -!e //; [exact: h1|exact: h2|lra]. Qed.

Lemma same_form l lp m : (m <= l)%N -> (m <= lp)%N -> (0 < l)%N -> (0 < lp)%N -> exists P, falls P /\ forall x, (0 < x)%Re ->
  sum_f_R0 (fun p => (INR l * (INR l + 1) + INR lp * (INR lp + 1) - INR p * (INR p + 1)) * cprod l lp m p * sph_k p x)%Re (l + lp) = ((-1) ^ m.+1 * P x)%Re.
Proof.
move=> h1 h2 l0 lp0; have [Z [j [e hp hw]]] := E_sign h1 h2 l0 lp0; have pp := PI_RGT_0; have [f1 _] := falls_lap hp hw.
exists (fun x => PI / 2 * (exp (- x) * lap x Z))%Re; split; first by apply: falls_scal => //; lra.
move=> x hx; rewrite sum_same // e lapZ //; ring.
Qed.
Lemma mixed_form l lp m : (m <= l)%N -> (m <= lp)%N -> exists Q, falls (fun x => x * Q x)%Re /\ forall x, (0 < x)%Re ->
  sum_f_R0 (fun p => cprod l lp m p * sph_k p x)%Re (l + lp) = ((-1) ^ m * Q x)%Re.
Proof.
move=> h1 h2; have [hp hw] := y_sign h1 h2; have pp := PI_RGT_0; have [_ f2] := falls_lap hp hw.
exists (fun x => PI / 2 * (exp (- x) * lap x (rr ^+ m * (dvn m (leg l) * dvn m (leg lp)))))%Re; split.
- have p2 : (0 < PI / 2)%Re by lra.
  apply: falls_ext (falls_scal p2 f2) => x _; ring.
- move=> x hx; rewrite sum_mixed // y_form lapZ //; ring.
Qed.
