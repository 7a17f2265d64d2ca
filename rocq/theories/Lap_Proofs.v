(** * k_l as a Laplace transform of the Legendre polynomial; sums of k_p weighted with Gaunt coefficients *)
From Coq Require Import Reals Lra Psatz.
From Coquelicot Require Import Coquelicot.
From mathcomp Require Import ssreflect ssrfun ssrbool eqtype ssrnat seq choice fintype bigop ssralg poly.
From Verif Require Import RStruct Bessel_Spec Bessel_Proofs Gaunt_Spec Gaunt_Proofs2 Gaunt_Proofs3 Gaunt_Proofs4 Gaunt_Proofs5 Gaunt_Proofs6 Gaunt_Proofs7.
Set Implicit Arguments.
Unset Strict Implicit.
Unset Printing Implicit Defensive.
Import GRing.Theory.
Delimit Scope R_scope with Re.
Local Open Scope ring_scope.

(** ** polynomials all of whose derivatives at 1 are non-negative *)
Definition posd (p : PR) : Prop := forall j, (0 <= ev (dvn j p) 1)%Re.
Definition wit (j : nat) (p : PR) : Prop := (0 < ev (dvn j p) 1)%Re.
Lemma dvnS j p : dvn j.+1 p = dvn j (dv p). Proof. by rewrite /dvn iterSr. Qed.
Lemma dvnD j p q : dvn j (p + q) = dvn j p + dvn j q.
Proof. by elim: j p q => [|j IH] p q //; rewrite !dvnS dvD IH. Qed.
Lemma dvnZ j (a : R) p : dvn j (a *: p) = a *: dvn j p.
Proof. by elim: j p => [|j IH] p //; rewrite !dvnS dvZ IH. Qed.
Lemma dvn0 j : dvn j 0 = 0.
Proof. by elim: j => [|j IH] //; rewrite dvnS dv0 IH. Qed.
Lemma dvn_add i j p : dvn i (dvn j p) = dvn (i + j) p.
Proof. by rewrite /dvn iterD. Qed.
Lemma posd_dv p : posd p -> posd (dv p).
Proof. by move=> h j; rewrite -dvnS. Qed.
Lemma posd_dvn k p : posd p -> posd (dvn k p).
Proof. by move=> h j; rewrite dvn_add. Qed.
Lemma posdD p q : posd p -> posd q -> posd (p + q).
Proof. by move=> h1 h2 j; rewrite dvnD evD; apply: Rplus_le_le_0_compat. Qed.
Lemma posdZ (a : R) p : (0 <= a)%Re -> posd p -> posd (a *: p).
Proof. by move=> h1 h2 j; rewrite dvnZ evZ; apply: Rmult_le_pos. Qed.
Lemma posd1 : posd 1.
Proof. by case=> [|j]; rewrite ?dvnS ?dv1 ?dvn0 ?ev0; [rewrite /= ev1; lra|lra]. Qed.
Lemma posdX : posd 'X.
Proof. by case=> [|j]; [rewrite /= evX; lra|rewrite dvnS dvX; apply: posd1]. Qed.
Lemma posdM p q : posd p -> posd q -> posd (p * q).
Proof.
move=> hp hq j; elim: j p q hp hq => [|j IH] p q hp hq; first by rewrite /= evM; apply: Rmult_le_pos; [apply: (hp 0%N)|apply: (hq 0%N)].
by rewrite dvnS dvM dvnD evD; apply: Rplus_le_le_0_compat; apply: IH => //; apply: posd_dv.
Qed.
Lemma witM i j p q : posd p -> posd q -> wit i p -> wit j q -> wit (i + j) (p * q).
Proof.
rewrite /wit; move: {2}(i + j)%N (erefl (i + j)%N) => n; elim: n i j p q => [|n IH] i j p q e hp hq hi hj.
  by move/eqP: e; rewrite addn_eq0 => /andP [/eqP ei /eqP ej]; move: hi hj; rewrite ei ej /= evM; apply: Rmult_lt_0_compat.
rewrite e dvnS dvM dvnD evD.
case: i e hi => [|i] e hi.
  case: j e hj => [//|j]; rewrite !add0n dvnS => -[e] hj; have := IH 0%N j p (dv q) e hp (posd_dv hq) hi hj.
  have := @posdM (dv p) q (posd_dv hp) hq n; rewrite add0n e; lra.
move: e hi; rewrite addSn dvnS => -[e] hi; have := IH i j (dv p) q e (posd_dv hp) hq hi hj.
have := @posdM p (dv q) hp (posd_dv hq) n; rewrite e; lra.
Qed.
Lemma posd_exp p n : posd p -> posd (p ^+ n).
Proof. by move=> h; elim: n => [|n IH]; [rewrite expr0; apply: posd1|rewrite exprS; apply: posdM]. Qed.
Lemma wit_exp p n : posd p -> wit 1 p -> wit n (p ^+ n).
Proof.
move=> h w; elim: n => [|n IH]; first by rewrite expr0 /wit /= ev1; lra.
by rewrite exprS -[n.+1]add1n; apply: witM => //; apply: posd_exp.
Qed.
Lemma witD j p q : posd p -> wit j q -> wit j (p + q).
Proof. by move=> h w; rewrite /wit dvnD evD; have := h j; move: w; rewrite /wit; lra. Qed.
Lemma witZ j (a : R) p : (0 < a)%Re -> wit j p -> wit j (a *: p).
Proof. by move=> h w; rewrite /wit dvnZ evZ; apply: Rmult_lt_0_compat. Qed.

Lemma leg_dpoly n : dv (leg n.+2) = dv (leg n) + (2 * INR n + 3)%Re *: leg n.+1.
Proof. by apply: poly_ext => x; rewrite evD evZ; have := leg_d n x; lra. Qed.
Lemma posd_leg2 n : posd (leg n) /\ posd (leg n.+1).
Proof.
elim: n => [|n [h1 h2]]; first by rewrite leg0 leg1; split; [exact: posd1|exact: posdX].
split=> // -[|j]; first by rewrite /=; have [_ ->] := leg_at_1 n.+1; lra.
rewrite dvnS leg_dpoly; apply: posdD; first exact: posd_dv.
by apply: posdZ => //; have := INRp n; lra.
Qed.
Lemma posd_leg n : posd (leg n). Proof. by case: (posd_leg2 n). Qed.
Lemma wit_leg2 m : forall n, (m <= n)%N -> wit 0 (dvn m (leg n)).
Proof.
rewrite /wit /=; elim: m => [|m IH] n hn; first by rewrite /=; have [-> _] := leg_at_1 n; lra.
case: n hn => [//|[|n]] hn.
  by case: m IH hn => [|//] _ _; rewrite dvnS leg1 dvX /= ev1; lra.
rewrite dvnS leg_dpoly dvnD dvnZ evD evZ.
have h1 := @posd_dv _ (posd_leg n) m; have h2 := IH n.+1 hn; have h3 := INRp n.
have : (0 < (2 * INR n + 3) * ev (dvn m (leg n.+1)) 1)%Re by apply: Rmult_lt_0_compat; lra.
lra.
Qed.
(** x^2 - 1 *)
Definition rr : PR := - qq.
Lemma dv_rr : dv rr = 2%Re *: 'X.
Proof. by apply: poly_ext => x; rewrite /rr dvN dv_qq !evE; ring. Qed.
Lemma posd_rr : posd rr.
Proof.
case=> [|j]; first by rewrite /= /rr evN ev_qq; lra.
by rewrite dvnS dv_rr; apply: posdZ; [lra|apply: posdX].
Qed.
Lemma wit_rr : wit 1 rr.
Proof. by rewrite /wit dvnS dv_rr /= evZ evX; lra. Qed.

(** ** the functional: e^x times the integral of e^(-xt) p(t) over t > 1 *)
Section Lap.
Context (x : R) (hx : (0 < x)%Re).
Definition lapN (N : nat) (p : PR) : R := \sum_(j < N) (ev (dvn j p) 1 * (/ x) ^ j.+1)%Re.
Definition lap (p : PR) : R := lapN (size p) p.
Lemma dvn_high j (p : PR) : (size p <= j)%N -> dvn j p = 0.
Proof. by move=> h; apply/eqP; rewrite -size_poly_leq0; apply: leq_trans (size_dvn _ _) _; rewrite leqn0 subn_eq0. Qed.
Lemma lapE N (p : PR) : (size p <= N)%N -> lap p = lapN N p.
Proof.
move=> h; rewrite /lap /lapN -(subnKC h) big_split_ord /= [X in _ = _ + X]big1 ?addr0 // => i _.
by rewrite dvn_high ?leq_addr // ev0 Rmult_0_l.
Qed.
Lemma lapN_D N p q : lapN N (p + q) = (lapN N p + lapN N q)%Re.
Proof. by rewrite /lapN RplusE -big_split /=; apply: eq_bigr => i _; rewrite dvnD evD Rmult_plus_distr_r. Qed.
Lemma lapN_Z N (a : R) p : lapN N (a *: p) = (a * lapN N p)%Re.
Proof. by rewrite /lapN RmultE big_distrr /=; apply: eq_bigr => i _; rewrite dvnZ evZ Rmult_assoc. Qed.
Lemma lapD p q : lap (p + q) = (lap p + lap q)%Re.
Proof. by rewrite (@lapE (maxn (size p) (size q)) (p + q)) ?size_add // lapN_D -!lapE ?leq_maxl ?leq_maxr. Qed.
Lemma lapZ (a : R) p : lap (a *: p) = (a * lap p)%Re.
Proof. by rewrite (@lapE (size p) (a *: p)) ?size_scale_leq // lapN_Z. Qed.
Lemma lap0 : lap 0 = 0%Re.
Proof. by rewrite /lap size_poly0 /lapN big_ord0. Qed.
Lemma lap_sum n (F : nat -> PR) : lap (\sum_(i < n) F i) = \sum_(i < n) lap (F i).
Proof. by elim: n => [|n IH]; [rewrite !big_ord0 lap0|rewrite !big_ord_recr /= lapD IH]. Qed.
Lemma lap_dv p : (lap (dv p) = x * lap p - ev p 1)%Re.
Proof.
rewrite (@lapE (size p).+1 p) // (@lapE (size p) (dv p)); last by apply: leq_trans (size_dv _) _; exact: leq_pred.
rewrite /lapN big_ord_recl.
set S := \sum_(j < size p) _.
have -> : \sum_(i < size p) (ev (dvn (lift ord0 i) p) 1 * (/ x) ^ (lift ord0 i).+1)%Re = (/ x * S)%Re.
  rewrite RmultE /S big_distrr /=; apply: eq_bigr => i _.
  have e := dvnS i p; rewrite /= in e; rewrite e.
  have r (a b c : R) : (a * (b * (b * c)) = b * (a * (b * c)))%Re by ring.
  exact: r.
have r (a b : R) : (b = x * (a * (/ x * 1) + / x * b) - a)%Re by field; lra.
exact: r.
Qed.
Lemma lap_pos p j : posd p -> wit j p -> (0 < lap p)%Re.
Proof.
move=> hp hw; have ix := Rinv_0_lt_compat x hx.
have hj : (j < size p)%N by rewrite ltnNge; apply/negP => h; move: hw; rewrite /wit dvn_high // ev0; lra.
rewrite /lap /lapN (bigD1 (Ordinal hj)) //= -[X in (_ < X)%Re]RplusE.
have h1 : (0 < ev (dvn j p) 1 * (/ x * (/ x) ^ j))%Re by apply: Rmult_lt_0_compat => //; apply: Rmult_lt_0_compat => //; apply: pow_lt.
apply: Rplus_lt_le_0_compat => //; elim/big_ind: _ => [|a b|i _]; first exact: Rle_refl.
  by move=> ha hb; apply: Rplus_le_le_0_compat.
by apply: Rmult_le_pos => //; apply: Rmult_le_pos; [lra|apply: pow_le; lra].
Qed.
Lemma lap1 : lap 1 = (/ x)%Re.
Proof. have := lap_dv 1; rewrite dv1 lap0 ev1 => h. apply: (Rmult_eq_reg_l x); last lra. rewrite Rinv_r; lra. Qed.
Lemma lapX : lap 'X = (/ x + / x * / x)%Re.
Proof.
have := lap_dv 'X; rewrite dvX lap1 evX => h. apply: (Rmult_eq_reg_l x); last lra.
have -> : (x * (/ x + / x * / x) = 1 + / x)%Re by field; lra.
lra.
Qed.
Lemma sph_k_lap2 n : sph_k n x = (PI / 2 * exp (- x) * lap (leg n))%Re /\ sph_k n.+1 x = (PI / 2 * exp (- x) * lap (leg n.+1))%Re.
Proof.
elim: n => [|n [h1 h2]].
  rewrite leg0 leg1 lap1 lapX sph_k_0 // sph_k_1 //; split; field; lra.
split=> //; rewrite sph_k_rec // h1 h2.
have e := lap_dv (leg n.+2); rewrite leg_dpoly lapD lapZ (lap_dv (leg n)) in e.
have [_ e1] := leg_at_1 n.+1; have [e2 _] := leg_at_1 n; rewrite e1 e2 in e.
apply: (Rmult_eq_reg_l x); last lra.
have -> : (x * (PI / 2 * exp (- x) * lap (leg n.+2)) = PI / 2 * exp (- x) * (x * lap (leg n.+2)))%Re by ring.
have -> : (x * lap (leg n.+2) = x * lap (leg n) + (2 * INR n + 3) * lap (leg n.+1))%Re by lra.
field; lra.
Qed.
Lemma sph_k_lap n : sph_k n x = (PI / 2 * exp (- x) * lap (leg n))%Re.
Proof. by case: (sph_k_lap2 n). Qed.
End Lap.
