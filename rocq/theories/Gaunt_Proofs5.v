(** * Expansion in Legendre polynomials: degrees, bases, and the recurrence of the coefficients *)
From Coq Require Import Reals Lra Psatz.
From Coquelicot Require Import Coquelicot.
From mathcomp Require Import ssreflect ssrfun ssrbool eqtype ssrnat seq choice fintype bigop ssralg poly.
From Verif Require Import RStruct Gaunt_Spec Gaunt_Proofs2 Gaunt_Proofs3 Gaunt_Proofs4.
Set Implicit Arguments.
Unset Strict Implicit.
Unset Printing Implicit Defensive.
Import GRing.Theory.
Delimit Scope R_scope with Re.
Local Open Scope ring_scope.

(** ** polynomials of degree n with leading coefficient c *)
Definition degc (p : PR) (n : nat) (c : R) : Prop := size p = n.+1 /\ p`_n = c.
Lemma degc_neq0 p n c : degc p n c -> c <> 0%Re.
Proof.
move=> [h1 h2] h3. have: lead_coef p == 0 by rewrite /lead_coef h1 /= h2 h3.
by rewrite lead_coef_eq0 -size_poly_eq0 h1.
Qed.
Lemma degc_intro (p : PR) n c : (size p <= n.+1)%N -> p`_n = c -> c <> 0%Re -> degc p n c.
Proof.
move=> h1 h2 h3; split=> //. apply/eqP; rewrite eqn_leq h1 /= ltnNge; apply/negP => h4.
by apply: h3; rewrite -h2; exact: nth_default.
Qed.
Lemma degcM p q n k c d : degc p n c -> degc q k d -> degc (p * q) (n + k) (c * d)%Re.
Proof.
move=> hp hq; have np := degc_neq0 hp; have nq := degc_neq0 hq.
move: hp hq => [h1 h2] [h3 h4].
have p0 : p != 0 by rewrite -size_poly_eq0 h1. have q0 : q != 0 by rewrite -size_poly_eq0 h3.
have hs : size (p * q) = (n + k).+1 by rewrite size_mul // h1 h3 addnS.
split=> //. have := lead_coefM p q. by rewrite /lead_coef hs h1 h3 /= h2 h4.
Qed.
Lemma mulrnR (c : R) n : c *+ n = (INR n * c)%Re.
Proof. elim: n => [|n IH]; first by rewrite mulr0n /= Rmult_0_l. rewrite mulrS IH S_INR -RplusE; apply: (_ : (c + INR n * c = (INR n + 1) * c)%Re); ring. Qed.
Lemma size_dv (p : PR) : (size (dv p) <= (size p).-1)%N.
Proof.
case: (boolP (p == 0)) => [/eqP ->|h]; first by rewrite dv0 size_poly0.
have := lt_size_deriv h. rewrite /dv; case: (size p) => //.
Qed.
Lemma degc_dv p n c : degc p n.+1 c -> degc (dv p) n ((INR n + 1) * c)%Re.
Proof.
move=> hp; have nc := degc_neq0 hp; case: hp => h1 h2; apply: degc_intro.
- by apply: leq_trans (size_dv p) _; rewrite h1.
- by rewrite /dv coef_deriv h2 mulrnR S_INR.
- have := INRp n => hn. apply: Rmult_integral_contrapositive_currified => //; lra.
Qed.
Lemma degcZ p n c k : k <> 0%Re -> degc p n c -> degc (k *: p) n (k * c)%Re.
Proof.
move=> hk hp; have nc := degc_neq0 hp; case: hp => h1 h2; apply: degc_intro.
- by apply: leq_trans (size_scale_leq _ _) _; rewrite h1.
- by rewrite coefZ h2.
- exact: Rmult_integral_contrapositive_currified.
Qed.
Lemma degc_qq : degc qq 2 (-1)%Re.
Proof.
have e : qq = - 'X^2 + 1 by apply: poly_ext => x; rewrite ev_qq !evE; ring.
apply: degc_intro.
- by apply: leq_trans (_ : size qq <= 3)%N _ => //; rewrite e; apply: leq_trans (size_add _ _) _; rewrite size_opp size_polyXn size_poly1.
- by rewrite e coefD coefN coefXn coef1 /= addr0.
- lra.
Qed.
Lemma degc1 : degc 1 0 1%Re. Proof. by split; rewrite ?size_poly1 ?coef1. Qed.
Lemma degc_exp p n c k : degc p n c -> degc (p ^+ k) (k * n) (c ^ k)%Re.
Proof.
move=> h; elim: k => [|k IH]; first by rewrite expr0 mul0n; exact: degc1.
by rewrite exprS mulSn; exact: degcM.
Qed.

(** ** leading coefficient of P_n: (2n)! / (2^n n!^2) *)
Fixpoint kap (n : nat) : R := match n with O => 1%Re | S k => ((2 * INR k + 1) / (INR k + 1) * kap k)%Re end.
Lemma kap_pos n : (0 < kap n)%Re.
Proof.
elim: n => [|n IH] /=; first lra. have := INRp n => h.
apply: Rmult_lt_0_compat => //. apply: Rdiv_lt_0_compat; lra.
Qed.
Lemma leg_deg n : degc (leg n) n (kap n) /\ degc (leg n.+1) n.+1 (kap n.+1).
Proof.
elim: n => [|n [IH1 IH2]].
  split; first exact: degc1.
  have -> : kap 1 = 1%Re by rewrite /=; lra.
  by rewrite leg1; apply: degc_intro; rewrite ?size_polyX ?coefX //=; lra.
split=> //. have h := INRp n. have kp := kap_pos n.+2.
apply: degc_intro; last lra.
- rewrite legS; apply: leq_trans (size_scale_leq _ _) _; apply: leq_trans (size_add _ _) _.
  rewrite geq_max size_opp; apply/andP; split; apply: leq_trans (size_scale_leq _ _) _.
  + by rewrite mulrC; apply: leq_trans (size_mul_leq _ _) _; rewrite size_polyX (proj1 IH2) addn2.
  + by rewrite (proj1 IH1); do 2 apply: leqW.
- have -> : kap n.+2 = ((2 * INR n.+1 + 1) / (INR n.+1 + 1) * kap n.+1)%Re by [].
  rewrite legS coefZ coefB !coefZ coefXM [(_ == _)]/= (proj2 IH2).
  have -> : (leg n)`_n.+2 = 0 by apply: nth_default; rewrite (proj1 IH1); exact: leqnSn.
  rewrite mulr0 subr0 S_INR.
  apply: (_ : (/ (INR n + 2) * ((2 * INR n + 3) * kap n.+1) = (2 * (INR n + 1) + 1) / (INR n + 1 + 1) * kap n.+1)%Re).
  field; lra.
Qed.
Lemma leg_degc n : degc (leg n) n (kap n). Proof. exact: (proj1 (leg_deg n)). Qed.
Lemma kap_fact n : (kap n * (2 ^ n * INR (fact n) ^ 2) = INR (fact (2 * n)))%Re.
Proof.
elim: n => [|n IH]; first by rewrite /= ; ring.
have -> : (2 * n.+1 = (2 * n).+2)%N by rewrite mulnS.
rewrite (fact_simpl (2 * n).+1) (fact_simpl (2 * n)) (fact_simpl n) !mult_INR -IH.
rewrite !S_INR. have -> : INR (2 * n)%N = (2 * INR n)%Re by rewrite mult_INR.
rewrite /= ; have := INRp n => h. field; lra.
Qed.
Lemma degc_dvn p n c k : (k <= n)%N -> degc p n c -> degc (dvn k p) (n - k) (INR (fact n) / INR (fact (n - k)) * c)%Re.
Proof.
move=> hk hp; elim: k hk => [|k IH] hk.
  rewrite subn0 /Rdiv Rinv_r; last exact: INR_fact_neq_0. by rewrite Rmult_1_l.
have e : (n - k = (n - k.+1).+1)%N by rewrite subnSK.
have := IH (ltnW hk). rewrite e => /degc_dv.
have -> : ((INR (n - k.+1) + 1) * (INR (fact n) / INR (fact (n - k.+1).+1) * c) = INR (fact n) / INR (fact (n - k.+1)) * c)%Re => //.
rewrite fact_simpl mult_INR S_INR. have := INRp (n - k.+1); have := INR_fact_neq_0 (n - k.+1) => h1 h2. field; split; [exact: h1|lra].
Qed.

(** ** bases *)
Section basis.
Context (B : nat -> PR) (hB : forall j, size (B j) = j.+1).
Lemma B_lead j : (B j)`_j != 0.
Proof. by have := lead_coef_eq0 (B j); rewrite /lead_coef hB /= => ->; rewrite -size_poly_eq0 hB. Qed.
Lemma basis_span N (p : PR) : (size p <= N)%N -> exists c : nat -> R, p = \sum_(j < N) c j *: B j.
Proof.
elim: N p => [|N IH] p hp.
  exists (fun _ => 0); rewrite big_ord0. by apply/eqP; rewrite -size_poly_leq0.
set k := p`_N / (B N)`_N.
have hs : (size (p - k *: B N)%R <= N)%N.
  apply/leq_sizeP => j hj. rewrite coefB coefZ.
  case: (ltngtP N j) hj => // [hlt|<-] _.
  - rewrite !nth_default ?mulr0 ?subr0 ?hB //. exact: leq_trans hp hlt.
  - by rewrite /k divfK ?B_lead // subrr.
have [c hc] := IH _ hs.
exists (fun j => if j == N then k else c j).
rewrite big_ord_recr /= eqxx. rewrite -[LHS](subrK (k *: B N)) hc. congr (_ + _).
apply: eq_bigr => i _. by rewrite ltn_eqF.
Qed.
Lemma basis_indep N (c : nat -> R) : \sum_(j < N) c j *: B j = 0 -> forall j, (j < N)%N -> c j = 0.
Proof.
elim: N => [|N IH] h j hj //.
have hN : c N = 0.
  have := congr1 (fun p : PR => p`_N) h. rewrite big_ord_recr /= coefD coef_sum big1 ?add0r.
  - rewrite coefZ coef0 => /eqP. by rewrite mulf_eq0 (negbTE (B_lead N)) orbF => /eqP.
  - move=> i _. by rewrite coefZ nth_default ?mulr0 // hB.
move: hj; rewrite ltnS leq_eqVlt => /orP[/eqP -> //|hj].
apply: IH => //. by move: h; rewrite big_ord_recr /= hN scale0r addr0.
Qed.
End basis.

(** ** the recurrence *)
Section recurrence.
Context (s d2 m2 a2 b2 : R) (hs : (a2 + b2 = 2 * s + 1)%Re) (hd : (a2 * b2 = d2)%Re).
Context (c : nat -> R).
Let al (n : nat) := xal a2 b2 (INR n).
Definition Rj (j : nat) : R := (al (j + 1) * c j - (4 * m2 + al (j + 2) + al (j + 3)) * c (j + 2)%N + al (j + 4) * c (j + 4)%N)%Re.
Definition bdry (M : nat) (x : R) : R :=
  (c M * al (M + 1) * ev (lQ (M + 2)) x + c (M + 1)%N * al (M + 2) * ev (lQ (M + 3)) x
   + c (M + 2)%N * (al (M + 3) * ev (lQ (M + 4)) x - (al (M + 3) + al (M + 2) + 4 * m2) * ev (lQ (M + 2)) x)
   + c (M + 3)%N * (al (M + 4) * ev (lQ (M + 5)) x - (al (M + 4) + al (M + 3) + 4 * m2) * ev (lQ (M + 3)) x))%Re.
Lemma lQ0 x : ev (lQ 0) x = 0%Re. Proof. by rewrite /lQ leg0 !dvE evE. Qed.
Lemma lQ1 x : ev (lQ 1) x = 0%Re. Proof. by rewrite /lQ leg1 !dvE evE. Qed.
Lemma sum_recr n (F : nat -> PR) : \sum_(i < n.+1) F i = \sum_(i < n) F i + F n.
Proof. by rewrite big_ord_recr. Qed.
Lemma Eop_expand M x : ev (Eop s d2 m2 (\sum_(n < M + 4) c n *: leg n)) x =
  (ev (\sum_(j < M) Rj j *: lQ (j + 2)) x + bdry M x)%Re.
Proof.
elim: M => [|M IH].
  rewrite big_ord0 add0n Eop_sum !big_ord_recr big_ord0 /= add0r !evD !evZ.
  rewrite (Eop_leg_0 m2 hs hd) (Eop_leg_1 m2 hs hd) !(Eop_leg m2 hs hd) /bdry !add0n ev0 lQ0 lQ1 /al.
  have -> : INR 1 = 1%Re by []. have -> : INR 2 = 2%Re by rewrite /=; ring.
  ring.
rewrite addSn (sum_recr _ (fun n => c n *: leg n)) EopD EopZ evD IH evZ.
have -> : Eop s d2 m2 (leg (M + 4)) = Eop s d2 m2 (leg (M + 2).+2) by rewrite !addnS !addn0.
rewrite (Eop_leg m2 hs hd) (sum_recr _ (fun j => Rj j *: lQ (j + 2))) evD evZ.
set S := ev _ x. rewrite /bdry /Rj /al.
have -> : (M + 2).+4 = (M + 6)%N by rewrite !addnS addn0.
have -> : (M + 2).+3 = (M + 5)%N by rewrite !addnS addn0.
have -> : (M + 2).+2 = (M + 4)%N by rewrite !addnS addn0.
have -> : (M.+1 + 1 = M + 2)%N by rewrite !addnS addn0 addn0.
have -> : (M.+1 + 2 = M + 3)%N by rewrite !addnS !addn0.
have -> : (M.+1 + 3 = M + 4)%N by rewrite !addnS !addn0.
have -> : (M.+1 + 4 = M + 5)%N by rewrite !addnS !addn0.
have -> : (M.+1 + 5 = M + 6)%N by rewrite !addnS !addn0.
have -> : M.+1 = (M + 1)%N by rewrite addn1.
ring.
Qed.
Lemma size_lQ j : size (lQ (j + 2)) = j.+1.
Proof.
rewrite addn2 /lQ. by have [] := degc_dv (degc_dv (leg_degc j.+2)).
Qed.
Theorem legendre_recurrence N : (forall n, (N <= n)%N -> c n = 0) ->
  Eop s d2 m2 (\sum_(n < N) c n *: leg n) = 0 -> forall j, Rj j = 0%Re.
Proof.
move=> hc hE j.
set M := (N + j).+1.
have e : \sum_(n < M + 4) c n *: leg n = \sum_(n < N) c n *: leg n.
  have hle : (N <= M + 4)%N by rewrite /M addSn -addnA -addnS leq_addr.
  rewrite (big_ord_widen _ (fun n => c n *: leg n) hle) [RHS]big_mkcond /=. apply: eq_bigr => i _.
  by case: ltnP => // h; rewrite hc // scale0r.
have hb : forall x, ev (\sum_(j < M) Rj j *: lQ (j + 2)) x = ev 0 x.
  move=> x. have := Eop_expand M x. rewrite e hE ev0 /bdry.
  have h k : c (M + k)%N = 0 by apply: hc; rewrite /M addSn -addnA -addnS leq_addr.
  have := h 0%N; rewrite addn0 => ->. rewrite !h; set S := ev _ x. rewrite -[GRing.zero _]/0%Re. lra.
have := @basis_indep (fun j => lQ (j + 2)) size_lQ M Rj (poly_ext hb). apply.
by rewrite /M ltnS leq_addl.
Qed.
End recurrence.
