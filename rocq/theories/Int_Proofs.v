(** * Integrals of polynomials against e^(xt) over [-1, 1] *)
From Coq Require Import Reals Lra Psatz.
From Coquelicot Require Import Coquelicot.
From mathcomp Require Import ssreflect ssrfun ssrbool eqtype ssrnat seq choice fintype bigop ssralg poly.
From Verif Require Import RStruct Bessel_Spec Bessel_Proofs Bessel_Proofs2 Gaunt_Spec Gaunt_Proofs2 Gaunt_Proofs3 Gaunt_Proofs4 Gaunt_Proofs5 Gaunt_Proofs6 Gaunt_Proofs7.
Set Implicit Arguments.
Unset Strict Implicit.
Unset Printing Implicit Defensive.
Import GRing.Theory.
Delimit Scope R_scope with Re.
Local Open Scope ring_scope.

(** ** Taylor's formula for the exponential *)
Lemma exp_lin_n (u : R) n s : is_derive_n (fun s => exp (u * s)) n s (u ^ n * exp (u * s))%Re.
Proof.
elim: n s => [|n IH] s /=; first by ring.
apply: (is_derive_ext (fun t => (u ^ n * exp (u * t))%Re)) => [t|]; first by rewrite (is_derive_n_unique _ _ _ _ (IH t)).
auto_derive => //; ring.
Qed.
Lemma exp_taylor (u : R) n : (Rabs (exp u - sum_f_R0 (fun k => u ^ k / INR (fact k)) n) <= Rabs u ^ n.+1 / INR (fact n.+1) * exp (Rabs u))%Re.
Proof.
have h01 : (0 < 1)%Re by lra.
have [t _ k _|z [hz e]] := @Taylor_Lagrange (fun s => exp (u * s)) n 0 1 h01.
  case: k => [//|k]; exists (u ^ k.+1 * exp (u * t))%Re; exact: (exp_lin_n u k.+1 t).
rewrite Rmult_1_r in e; rewrite e.
have -> : sum_f_R0 (fun m => (1 - 0) ^ m / INR (fact m) * Derive_n (fun s => exp (u * s)) m 0)%Re n = sum_f_R0 (fun k => u ^ k / INR (fact k))%Re n.
  apply: PartSum.sum_eq => i _; rewrite (is_derive_n_unique _ _ _ _ (exp_lin_n u i 0)) Rmult_0_r exp_0 Rminus_0_r pow1; field; exact: INR_fact_neq_0.
rewrite (is_derive_n_unique _ _ _ _ (exp_lin_n u n.+1 z)) Rminus_0_r pow1.
have fp := INR_fact_lt_0 n.+1.
have -> : (sum_f_R0 (fun k => u ^ k / INR (fact k)) n + 1 / INR (fact n.+1) * (u ^ n.+1 * exp (u * z)) - sum_f_R0 (fun k => u ^ k / INR (fact k)) n =
  / INR (fact n.+1) * u ^ n.+1 * exp (u * z))%Re by field; lra.
rewrite !Rabs_mult -RPow_abs Rabs_inv (Rabs_right (INR _)); last lra.
rewrite (Rabs_right (exp _)); last by left; exact: exp_pos.
have -> : (Rabs u ^ n.+1 / INR (fact n.+1) * exp (Rabs u) = / INR (fact n.+1) * Rabs u ^ n.+1 * exp (Rabs u))%Re by field; lra.
rewrite -[(Rabs u * Rabs u ^ n)%Re]/(Rabs u ^ n.+1)%Re.
apply: Rmult_le_compat_l; first by apply: Rmult_le_pos; [left; apply: Rinv_0_lt_compat|apply: pow_le; exact: Rabs_pos].
case: (Req_dec (u * z) (Rabs u)) => [->|ne]; first exact: Rle_refl.
left; apply: exp_increasing; case: (Rcase_abs u) => hu; [rewrite Rabs_left // in ne *|rewrite Rabs_right // in ne *]; nra.
Qed.

(** ** the functional *)
Definition jf (x : R) (p : PR) (t : R) : R := (ev p t * exp (x * t))%Re.
Lemma jf_continuous x p t : continuous (jf x p) t.
Proof.
apply: (continuous_mult (ev p) (fun t => exp (x * t))); first exact: ev_continuous.
apply: ex_derive_continuous; auto_derive; done.
Qed.
Lemma jf_ex x p a b : ex_RInt (jf x p) a b.
Proof. apply: ex_RInt_continuous => z _; exact: jf_continuous. Qed.
Definition J (x : R) (p : PR) : R := RInt (jf x p) (-1)%Re 1%Re.
Lemma JD x p q : J x (p + q) = (J x p + J x q)%Re.
Proof.
apply: (eq_trans (RInt_ext (jf x (p + q)) (fun t => plus (jf x p t) (jf x q t)) _ _ _)); first by move=> t _; rewrite /jf evD /plus /=; ring.
exact: (RInt_plus (V := R_CompleteNormedModule) _ _ _ _ (jf_ex _ _ _ _) (jf_ex _ _ _ _)).
Qed.
Lemma JZ x c p : J x (c *: p) = (c * J x p)%Re.
Proof.
apply: (eq_trans (RInt_ext (jf x (c *: p)) (fun t => scal c (jf x p t)) _ _ _)); first by move=> t _; rewrite /jf evZ /scal /= /mult /=; ring.
exact: (RInt_scal (V := R_CompleteNormedModule) _ _ _ c (jf_ex _ _ _ _)).
Qed.
Lemma J0 x : J x 0 = 0%Re.
Proof. rewrite -(scale0r 0) JZ; apply: Rmult_0_l. Qed.
Lemma J_sum x n (F : nat -> PR) : J x (\sum_(i < n) F i) = \sum_(i < n) J x (F i).
Proof. elim: n => [|n IH]; first by rewrite !big_ord0 J0. by rewrite !big_ord_recr /= JD IH. Qed.
Lemma J_parts x p : (x * J x p = ev p 1 * exp x - ev p (-1) * exp (- x) - J x (dv p))%Re.
Proof.
have e : is_RInt (fun t => plus (scal x (jf x p t)) (jf x (dv p) t)) (-1)%Re 1%Re (ev p 1 * exp x - ev p (-1) * exp (- x))%Re.
  have -> : (ev p 1 * exp x - ev p (-1) * exp (- x) = minus (jf x p 1) (jf x p (-1)))%Re.
    rewrite /jf /minus /plus /opp /= !Rmult_1_r; congr (_ + - (_ * exp _))%Re; ring.
  apply: is_RInt_derive => t _.
  - have d := ev_is_derive p t; rewrite /jf; auto_derive; first by exists (ev (dv p) t).
    rewrite (is_derive_unique (fun t => ev p t) t _ d) /plus /scal /= /mult /=; ring.
  - apply: (continuous_plus (fun t => scal x (jf x p t)) (jf x (dv p))); last exact: jf_continuous.
    apply: continuous_scal_r; exact: jf_continuous.
have e1 := is_RInt_unique _ _ _ _ e.
rewrite (RInt_plus (V := R_CompleteNormedModule)) in e1; [|by apply: ex_RInt_scal; exact: jf_ex|exact: jf_ex].
rewrite (RInt_scal (V := R_CompleteNormedModule)) in e1; last exact: jf_ex.
rewrite -/(J x p) -/(J x (dv p)) /plus /scal /= /mult /= in e1; lra.
Qed.

(** ** moments *)
Definition mom (n : nat) (p : PR) : R := itg ('X ^+ n * p).
Lemma momD n p q : mom n (p + q) = (mom n p + mom n q)%Re. Proof. by rewrite /mom mulrDr itgD. Qed.
Lemma momZ n c p : mom n (c *: p) = (c * mom n p)%Re. Proof. by rewrite /mom -scalerAr itgZ. Qed.
Lemma momS n p : mom n.+1 p = mom n ('X * p). Proof. by rewrite /mom exprSr mulrA. Qed.
Lemma mom0 p : mom 0 p = itg p. Proof. by rewrite /mom expr0 mul1r. Qed.
Lemma jf_bound p : exists C, (0 <= C)%Re /\ forall t, (-1 <= t <= 1)%Re -> (Rabs (ev p t) <= C)%Re.
Proof.
elim/poly_ind: p => [|p c [C [hC IH]]].
- by exists 0%Re; split=> [|t _]; [lra|rewrite ev0 Rabs_R0; lra].
- exists (C + Rabs c)%Re; split=> [|t ht]; first by have := Rabs_pos c; lra.
  rewrite !evE; apply: (Rle_trans _ _ _ (Rabs_triang _ _)); apply: Rplus_le_compat_r.
  rewrite Rabs_mult; have h := IH t ht; have h2 : (Rabs t <= 1)%Re by apply: Rabs_le; lra.
  have := Rabs_pos (ev p t); have := Rabs_pos t; nra.
Qed.
Definition part (x : R) (p : PR) (n : nat) : R := sum_f_R0 (fun k => x ^ k / INR (fact k) * mom k p)%Re n.
Lemma partS x p n : part x p n.+1 = (part x p n + x ^ n.+1 / INR (fact n.+1) * mom n.+1 p)%Re. Proof. by []. Qed.
Definition tay (x : R) (p : PR) (n : nat) : PR := p * \sum_(k < n.+1) (x ^ k / INR (fact k))%Re *: 'X ^+ k.
Lemma itg_tay x p n : itg (tay x p n) = part x p n.
Proof.
rewrite /tay /part mulr_sumr itg_sum sum_f_R0_big; apply: eq_bigr => k _.
by rewrite -scalerAr itgZ /mom mulrC.
Qed.
Lemma ev_tay x p n t : ev (tay x p n) t = (ev p t * sum_f_R0 (fun k => (x * t) ^ k / INR (fact k)) n)%Re.
Proof.
rewrite /tay evM (ev_sum n.+1 (fun k => (x ^ k / INR (fact k))%Re *: 'X ^+ k)) sum_f_R0_big; congr (_ * _)%Re; apply: eq_bigr => k _.
rewrite evZ evXn evX Rpow_mult_distr; field; exact: INR_fact_neq_0.
Qed.
Lemma part_close x p : exists C, (0 <= C)%Re /\ forall n, (Rabs (J x p - part x p n) <= C * (Rabs x ^ n.+1 / INR (fact n.+1)))%Re.
Proof.
have [C [hC hb]] := jf_bound p; exists (2 * (C * exp (Rabs x)))%Re; split.
  by have := exp_pos (Rabs x); nra.
move=> n; rewrite -itg_tay /itg /J.
have fp := INR_fact_lt_0 n.+1; have xp := pow_le (Rabs x) n.+1 (Rabs_pos x).
rewrite -[(_ - _)%Re]/(minus (RInt (jf x p) (-1)%Re 1%Re) (RInt (ev (tay x p n)) (-1)%Re 1%Re)).
rewrite -(RInt_minus (V := R_CompleteNormedModule)); [|exact: jf_ex|exact: ev_ex_RInt].
set B := (Rabs x ^ n.+1 / INR (fact n.+1))%Re.
have hB : (0 <= B)%Re by apply: Rmult_le_pos => //; left; apply: Rinv_0_lt_compat.
have -> : (2 * (C * exp (Rabs x)) * B = (1 - -1) * (C * exp (Rabs x) * B))%Re by ring.
apply: abs_RInt_le_const; [lra|by apply: (ex_RInt_minus (V := R_NormedModule)); [exact: jf_ex|exact: ev_ex_RInt]|].
move=> t ht; rewrite /minus /plus /opp /= ev_tay /jf.
have -> : (ev p t * exp (x * t) + - (ev p t * sum_f_R0 (fun k => (x * t) ^ k / INR (fact k)) n) =
  ev p t * (exp (x * t) - sum_f_R0 (fun k => (x * t) ^ k / INR (fact k)) n))%Re by ring.
rewrite Rabs_mult.
have h1 := hb t ht; have h2 := exp_taylor (x * t) n.
have hx : (Rabs (x * t) <= Rabs x)%Re.
  rewrite Rabs_mult; have : (Rabs t <= 1)%Re by apply: Rabs_le; lra. have := Rabs_pos x; have := Rabs_pos t; nra.
have h3 : (Rabs (x * t) ^ n.+1 / INR (fact n.+1) * exp (Rabs (x * t)) <= B * exp (Rabs x))%Re.
  apply: Rmult_le_compat; [|by left; exact: exp_pos| |].
  - by apply: Rmult_le_pos; [apply: pow_le; exact: Rabs_pos|left; apply: Rinv_0_lt_compat].
  - by apply: Rmult_le_compat_r; [left; apply: Rinv_0_lt_compat|apply: pow_incr; split=> //; exact: Rabs_pos].
  - by case: hx => [h|->]; [left; exact: exp_increasing|exact: Rle_refl].
have -> : (C * exp (Rabs x) * B = C * (B * exp (Rabs x)))%Re by ring.
apply: Rmult_le_compat => //; [exact: Rabs_pos|exact: Rabs_pos|lra].
Qed.
Lemma part_lim x p : is_lim_seq (part x p) (J x p).
Proof.
have [C [hC hb]] := part_close x p.
have z : is_lim_seq (fun n => (C * (Rabs x ^ n.+1 / INR (fact n.+1)))%Re) 0%Re.
  rewrite -(Rmult_0_r C); apply: is_lim_seq_mult'; first exact: is_lim_seq_const.
  apply: (proj1 (is_lim_seq_incr_1 (fun n => (Rabs x ^ n / INR (fact n))%Re) (Finite 0))).
  apply: (proj2 (is_lim_seq_Reals _ _)); exact: cv_speed_pow_fact.
have d : is_lim_seq (fun n => (J x p - part x p n)%Re) 0%Re.
  apply: (is_lim_seq_le_le (fun n => (- (C * (Rabs x ^ n.+1 / INR (fact n.+1))))%Re) _ (fun n => (C * (Rabs x ^ n.+1 / INR (fact n.+1)))%Re)) => //.
  - by move=> n; have := hb n; move/Rabs_le_between.
  - rewrite -Ropp_0; exact: (proj1 (is_lim_seq_opp _ (Finite 0)) z).
apply: (is_lim_seq_ext (fun n => (J x p - (J x p - part x p n))%Re)) => [n|]; first by ring.
have L := (is_lim_seq_minus' (fun _ => J x p) _ (J x p) 0%Re (is_lim_seq_const _) d).
by rewrite Rminus_0_r in L.
Qed.
(** non-negative moments, one of them positive *)
Lemma J_grows p n x y : (forall k, (0 <= mom k p)%Re) -> (0 < mom n.+1 p)%Re -> (0 <= x)%Re -> (x < y)%Re -> (0 <= J x p < J y p)%Re.
Proof.
move=> h0 hn hx hxy; split.
- apply: (is_lim_seq_le (fun _ => 0%Re) (part x p) 0%Re (J x p)); [|exact: is_lim_seq_const|exact: part_lim].
  move=> k; apply cond_pos_sum => i; apply: Rmult_le_pos => //; apply: Rmult_le_pos; first exact: pow_le.
  by left; apply: Rinv_0_lt_compat; exact: INR_fact_lt_0.
- pose d := ((y ^ n.+1 - x ^ n.+1) / INR (fact n.+1) * mom n.+1 p)%Re.
  have hp k : (x ^ k <= y ^ k)%Re by apply: pow_incr; lra.
  have hd : (0 < d)%Re.
    apply: Rmult_lt_0_compat => //; apply: Rmult_lt_0_compat; last by apply: Rinv_0_lt_compat; exact: INR_fact_lt_0.
    have : (x ^ n < y ^ n \/ x ^ n = y ^ n)%Re := hp n. have py : (0 < y ^ n)%Re by apply: pow_lt; lra.
    have px : (0 <= x ^ n)%Re by exact: pow_le. rewrite /=; case=> h; nra.
  have step k : (part x p k <= part y p k)%Re.
    apply sum_Rle => i _; apply: Rmult_le_compat_r => //; apply: Rmult_le_compat_r => //; left; apply: Rinv_0_lt_compat; exact: INR_fact_lt_0.
  have gap k : (part x p (n.+1 + k) + d <= part y p (n.+1 + k))%Re.
    elim: k => [|k IH].
    + rewrite addn0 !partS /d; have := step n.
      have f := INR_fact_neq_0 n.+1; set A := part x p n; set B := part y p n.
      have -> : ((y ^ n.+1 - x ^ n.+1) / INR (fact n.+1) * mom n.+1 p = y ^ n.+1 / INR (fact n.+1) * mom n.+1 p - x ^ n.+1 / INR (fact n.+1) * mom n.+1 p)%Re by field.
      lra.
    + rewrite addnS; move: IH; move: (n.+1 + k)%N => i IH; rewrite !partS.
      have : (x ^ i.+1 / INR (fact i.+1) * mom i.+1 p <= y ^ i.+1 / INR (fact i.+1) * mom i.+1 p)%Re.
        apply: Rmult_le_compat_r => //; apply: Rmult_le_compat_r => //; left; apply: Rinv_0_lt_compat; exact: INR_fact_lt_0.
      lra.
  have h : (J x p + d <= J y p)%Re.
    apply: (is_lim_seq_le (fun k => (part x p (k + n.+1)%coq_nat + d)%Re) (fun k => part y p (k + n.+1)%coq_nat) (J x p + d)%Re (J y p)).
    + by move=> k; have := gap k; rewrite addnC.
    + apply: (is_lim_seq_plus' (fun k => part x p (k + n.+1)%coq_nat) (fun _ => d) (J x p) d); last exact: is_lim_seq_const.
      apply (is_lim_seq_incr_n (part x p) n.+1); exact: part_lim.
    + apply (is_lim_seq_incr_n (part y p) n.+1); exact: part_lim.
  lra.
Qed.

(** ** i_p as an integral *)
Lemma sph_i_J n x : (0 < x)%Re -> (sph_i n x = J x (leg n) / 2)%Re /\ (sph_i n.+1 x = J x (leg n.+1) / 2)%Re.
Proof.
move=> hx; elim: n => [|n [IH0 IH1]].
- have e0 := J_parts x (leg 0); have e1 := J_parts x (leg 1).
  rewrite leg0 ?dv1 !ev1 J0 in e0; rewrite leg1 dvX !evX in e1.
  rewrite sph_i_0 // sph_i_1 // leg0 leg1 /sinh /cosh.
  have f0 : (J x 1 = (exp x - exp (- x)) / x)%Re by apply: (Rmult_eq_reg_l x); [field_simplify; lra|lra].
  have f1 : (J x 'X = (exp x + exp (- x) - J x 1) / x)%Re by apply: (Rmult_eq_reg_l x); [field_simplify; lra|lra].
  by rewrite f1 f0; split; field; lra.
- split=> //.
  have r := sph_i_rec n x hx.
  have e2 := J_parts x (leg n.+2); have e0 := J_parts x (leg n).
  rewrite !(leg_at_1 _).1 !(leg_at_m1 _).1 in e0 e2.
  have ed : J x (dv (leg n.+2)) = (J x (dv (leg n)) + (2 * INR n + 3) * J x (leg n.+1))%Re.
    rewrite -JZ -JD; congr (J x _); apply: poly_ext => t; rewrite evD evZ; have := leg_d n t; lra.
  have sg : ((-1) ^ n.+2 = (-1) ^ n)%Re by rewrite /=; ring.
  rewrite sg ed in e2.
  have : (x * J x (leg n.+2) = x * J x (leg n) - (2 * INR n + 3) * J x (leg n.+1))%Re by lra.
  move=> e3; have e4 : (J x (leg n.+2) = J x (leg n) - (2 * INR n + 3) / x * J x (leg n.+1))%Re.
    by apply: (Rmult_eq_reg_l x); [rewrite e3; field; lra|lra].
  rewrite e4; rewrite IH0 IH1 in r; lra.
Qed.
