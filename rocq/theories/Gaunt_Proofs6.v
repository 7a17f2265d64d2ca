(** * Orthogonality of Legendre polynomials; vanishing coefficients of the product *)
From Coq Require Import Reals Lra Psatz.
From Coquelicot Require Import Coquelicot.
From mathcomp Require Import ssreflect ssrfun ssrbool eqtype ssrnat seq choice fintype bigop ssralg poly.
From Verif Require Import RStruct Gaunt_Spec Gaunt_Proofs2 Gaunt_Proofs3 Gaunt_Proofs4 Gaunt_Proofs5.
Set Implicit Arguments.
Unset Strict Implicit.
Unset Printing Implicit Defensive.
Import GRing.Theory.
Delimit Scope R_scope with Re.
Local Open Scope ring_scope.

Lemma leg_at_1 n : ev (leg n) 1%Re = 1%Re /\ ev (leg n.+1) 1%Re = 1%Re.
Proof.
elim: n => [|n [IH1 IH2]]; first by rewrite leg0 leg1 ev1 evX.
split=> //. have := leg_rec n 1%Re. rewrite IH1 IH2 => e. have := INRp n => h.
apply: (Rmult_eq_reg_l (INR n + 2)%Re); [rewrite e; ring|lra].
Qed.
Lemma leg_at_m1 n : ev (leg n) (-1)%Re = ((-1) ^ n)%Re /\ ev (leg n.+1) (-1)%Re = ((-1) ^ n.+1)%Re.
Proof.
elim: n => [|n [IH1 IH2]]; first by rewrite leg0 leg1 ev1 evX /=; split=> //; ring.
split=> //. have := leg_rec n (-1)%Re. rewrite IH1 IH2 => e. have := INRp n => h.
apply: (Rmult_eq_reg_l (INR n + 2)%Re); last lra. rewrite e /=; ring.
Qed.
Lemma pow1_sq n : ((-1) ^ n * (-1) ^ n = 1)%Re.
Proof.
rewrite -Rpow_mult_distr. have -> : (-1 * -1 = 1)%Re by ring.
exact: pow1.
Qed.

Lemma itg_ext p q : (forall x, ev p x = ev q x) -> itg p = itg q.
Proof. by move=> h; rewrite (poly_ext h). Qed.

Lemma leg_selfadjoint n j : itg (dv (qq * dv (leg n)) * leg j) = itg (leg n * dv (qq * dv (leg j))).
Proof.
rewrite itg_parts !evM !ev_qq.
have -> : ((1 - 1 * 1) * ev (dv (leg n)) 1 * ev (leg j) 1 - (1 - -1 * -1) * ev (dv (leg n)) (-1) * ev (leg j) (-1) = 0)%Re by ring.
have -> : itg (leg n * dv (qq * dv (leg j))) = itg (dv (qq * dv (leg j)) * leg n) by rewrite mulrC.
rewrite itg_parts !evM !ev_qq.
have -> : ((1 - 1 * 1) * ev (dv (leg j)) 1 * ev (leg n) 1 - (1 - -1 * -1) * ev (dv (leg j)) (-1) * ev (leg n) (-1) = 0)%Re by ring.
by congr (_ - _)%Re; apply: itg_ext => x; rewrite !evM; ring.
Qed.
Lemma leg_orth n j : n <> j -> itg (leg n * leg j) = 0%Re.
Proof.
move=> hne. have := leg_selfadjoint n j.
have e k : dv (qq * dv (leg k)) = (- (INR k * (INR k + 1)))%Re *: leg k.
  by apply: poly_ext => y; rewrite leg_ode evZ.
rewrite !e -scalerAl -scalerAr !itgZ => h.
have h2 : ((INR n - INR j) * (INR n + INR j + 1) * itg (leg n * leg j) = 0)%Re.
  set I := itg _ in h *.
  have -> : ((INR n - INR j) * (INR n + INR j + 1) * I = - (INR j * (INR j + 1)) * I - - (INR n * (INR n + 1)) * I)%Re by ring.
  rewrite h; ring.
have hn := INRp n; have hj := INRp j.
case: (Rmult_integral _ _ h2) => // h3. exfalso.
case: (Rmult_integral _ _ h3) => h4; last lra.
by apply: hne; apply: INR_eq; lra.
Qed.
Lemma leg_norm n : itg (leg n * leg n) = (2 / (2 * INR n + 1))%Re.
Proof.
case: n => [|n].
  rewrite leg0 mulr1 -dvX itg_deriv !evX /=; field.
have hI : ((INR n + 1) * itg (leg n.+1 * leg n.+1) = itg ('X * (dv (leg n.+1) * leg n.+1)) - itg (dv (leg n) * leg n.+1))%Re.
  rewrite -itgZ -itgB; apply: itg_ext => x; rewrite !evE.
  have e := leg_b n x. rewrite -Rmult_assoc -e; ring.
have h0 : itg (dv (leg n) * leg n.+1) = 0%Re.
  case: n {hI} => [|n]; first by rewrite leg0 dv1 mul0r itg0.
  have [c hc] : exists c : nat -> R, dv (leg n.+1) = \sum_(j < n.+1) c j *: leg j.
    apply: (@basis_span leg) => [j|]; first exact: (proj1 (leg_degc j)).
    by rewrite (proj1 (degc_dv (leg_degc n.+1))).
  rewrite hc mulr_suml itg_sum big1 // => i _.
  rewrite -scalerAl itgZ leg_orth ?Rmult_0_r //. move=> e. by have := ltn_ord i; rewrite e ltnNge leqnSn.
have h1 : itg ('X * (dv (leg n.+1) * leg n.+1)) = (1 - itg (leg n.+1 * leg n.+1) / 2)%Re.
  have e : itg (dv ('X * (leg n.+1 * leg n.+1))) = (itg (leg n.+1 * leg n.+1) + 2 * itg ('X * (dv (leg n.+1) * leg n.+1)))%Re.
    by rewrite -itgZ -itgD; apply: itg_ext => x; rewrite !dvE !evE; ring.
  move: e; rewrite itg_deriv !evM !evX (proj2 (leg_at_1 n)) (proj2 (leg_at_m1 n)) pow1_sq => e. lra.
rewrite h0 h1 in hI. have h := INRp n. rewrite S_INR.
set I := itg _ in hI *. apply: (Rmult_eq_reg_l (2 * (INR n + 1) + 1)%Re); last lra.
field_simplify; lra.
Qed.
Lemma leg_orth_low n (r : PR) : (size r <= n)%N -> itg (leg n * r) = 0%Re.
Proof.
move=> hr. have [c ->] := basis_span (fun j => proj1 (leg_degc j)) hr.
rewrite mulr_sumr itg_sum big1 // => i _. rewrite -scalerAr itgZ leg_orth ?Rmult_0_r // => e.
by have := ltn_ord i; rewrite -e ltnn.
Qed.

(** ** repeated integration by parts *)
Lemma qqn_dv k (G : PR) : exists G', dv (qq ^+ k.+1 * G) = qq ^+ k * G'.
Proof.
exists ((INR k.+1 *: dv qq) * G + qq * dv G).
apply: poly_ext => x. rewrite exprS.
rewrite !dvM !evE ev_qq.
have e := dv_qqn k x. rewrite S_INR dv_qq !evE.
rewrite e; ring.
Qed.
Lemma parts_n m (V F G : PR) : F = qq ^+ m * G -> itg (dvn m V * F) = ((-1) ^ m * itg (V * dvn m F))%Re.
Proof.
elim: m F G => [|m IH] F G hF; first by rewrite /= Rmult_1_l.
have [G' hG'] := qqn_dv m G.
have -> : dvn m.+1 V = dv (dvn m V) by [].
have -> : dvn m.+1 F = dvn m (dv F) by rewrite /dvn iterSr.
rewrite itg_parts.
have z x : (1 - x * x = 0)%Re -> ev (dvn m V * F) x = 0%Re.
  by move=> hx; rewrite hF exprS !evM ev_qq hx; ring.
rewrite !z; try ring. rewrite (IH (dv F) G') /=; last by rewrite hF.
ring.
Qed.
Lemma size_dvn m (p : PR) : (size (dvn m p) <= size p - m)%N.
Proof.
elim: m => [|m IH]; first by rewrite subn0.
apply: leq_trans (size_dv _) _. by rewrite subnS -!subn1 leq_sub2r.
Qed.
Lemma yprod_orth l lp m p : (m <= l)%N -> (p + l < lp)%N -> itg (yprod l lp m * leg p) = 0%Re.
Proof.
move=> hm hp.
set F := qq ^+ m * (dvn m (leg l) * leg p).
have -> : yprod l lp m * leg p = dvn m (leg lp) * F by rewrite /yprod /F; apply: poly_ext => x; rewrite !evE; ring.
rewrite (@parts_n m (leg lp) F (dvn m (leg l) * leg p)) //.
rewrite leg_orth_low ?Rmult_0_r //.
apply: leq_trans (size_dvn _ _) _.
have [hs _] := degcM (degc_exp m degc_qq) (degcM (degc_dvn hm (leg_degc l)) (leg_degc p)).
rewrite hs leq_subLR. move: hp; rewrite -(ltn_add2l m) => hp.
apply: leq_trans hp. rewrite ltnS. rewrite muln2 -addnn -!addnA leq_add2l addnA subnKC // addnC //.
Qed.
(** ** coefficients *)
Definition coefP (y : PR) (p : nat) : R := ((2 * INR p + 1) / 2 * itg (y * leg p))%Re.
Lemma legendre_expansion (y : PR) N : (size y <= N)%N ->
  y = \sum_(n < N) coefP y n *: leg n /\ forall n, (N <= n)%N -> coefP y n = 0.
Proof.
move=> hy. have [c hc] := basis_span (fun j => proj1 (leg_degc j)) hy.
have hcoef p : (p < N)%N -> coefP y p = c p.
  move=> hp. rewrite /coefP {1}hc mulr_suml itg_sum (bigD1 (Ordinal hp)) //= big1.
  - rewrite addr0 -scalerAl itgZ leg_norm. have := INRp p => h. 
    apply: (_ : ((2 * INR p + 1) / 2 * (c p * (2 / (2 * INR p + 1))) = c p)%Re). field; lra.
  - move=> i hi. rewrite -scalerAl itgZ leg_orth ?Rmult_0_r // => e.
    by move/eqP: hi; apply; apply: val_inj.
split.
- rewrite {1}hc; apply: eq_bigr => i _. by rewrite hcoef.
- move=> n hn. rewrite /coefP mulrC leg_orth_low ?Rmult_0_r //. exact: leq_trans hy hn.
Qed.
