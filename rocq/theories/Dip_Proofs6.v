(** * The dipole truncation at finite and at large distances *)
From Coq Require Import Reals.
From Coq Require Import List Lia Lra ZArith.
From mathcomp Require Import all_ssreflect ssralg fingroup perm matrix mxalgebra poly mxpoly.
From Verif Require Import Base RStruct Mat_Model Mat_Spec Mat_Proofs Bessel_Model Bessel_Spec Scat_Model Scat_Spec Scat_Proofs Scat_Proofs7 Scat_Proofs8 Scat_Proofs9 Trans_Model Trans_Spec Trans_Proofs3 Lin_Model Lin_Spec RT_Model RT_Spec RT_Spec2 RT_Proofs RT_Proofs2 RT_Props2
  Dip_Spec Dip_Proofs Dip_Proofs2 Dip_Proofs3 Dip_Proofs4.
Set Implicit Arguments.
Unset Strict Implicit.
Import GRing.Theory.
Local Open Scope ring_scope.
Delimit Scope R_scope with Re.

Definition mA (mieb : list R -> nat -> Z -> res (list (list R) * list (list R))) (c : config) := entry TE (mieA mieb c) 0%N.
Definition mA' (mieb : list R -> nat -> Z -> res (list (list R) * list (list R))) (c : config) := entry TM (mieA mieb c) 0%N.
Definition mB (mieb : list R -> nat -> Z -> res (list (list R) * list (list R))) (c : config) := entry TE (mieB mieb c) 0%N.
Definition mB' (mieb : list R -> nat -> Z -> res (list (list R) * list (list R))) (c : config) := entry TM (mieB mieb c) 0%N.

Section Dip.
Context (mieb : list R -> nat -> Z -> res (list (list R) * list (list R))) (c : RT_Model.config) (m1 m2 : material) (ra rb : R) (e : list osc) (b : bprops).
Context (HC : two_spheres c m1 m2 ra rb e b) (hx : c_ext c = true) (hl : c_lmax c = 1%N) (hs : c_lssmax c = 1%N).

Lemma med_pos k : (0 < k)%Re -> (0 < eps_spec e k)%Re /\ (0 < mu_val b k)%Re.
Proof. by move=> hk; have [_ [_ [hm _]]] := HC; have [_ [_ [_ [_ [_ [h _]]]]]] := @insulator_flags _ _ _ hm; exact: h. Qed.

Lemma dip_det m L k : m = 0%N \/ m = 1%N -> (0 < L)%Re -> (0 < k)%Re -> let x := (k * L * sqrt (eps_spec e k))%Re in
  \det (1%:M - trip mieb (at_distance c L) (Z.of_nat m) k) =
  (1 - dX (mA mieb c k) (mA' mieb c k) (mB mieb c k) (mB' mieb c k) (if m == 0%N then t0 x else t1 x) (if m == 0%N then 0 else t2 x)
     + dY (mA mieb c k) (mA' mieb c k) (mB mieb c k) (mB' mieb c k) (if m == 0%N then t0 x else t1 x) (if m == 0%N then 0 else t2 x))%Re.
Proof.
move=> hm hL hk x; have [_ [_ [hme _]]] := HC; have [he _] := med_pos hk.
have hh : has (c_med c) (eps_spec e) (mu_val b) by have [_ [_ [_ [_ h]]]] := @insulator_flags _ _ _ hme.
have lm : lmin (Z.of_nat m) = 1%N by case: hm => ->.
have hn1 : n1 (at_distance c L) (Z.of_nat m) = 1%N by rewrite /n1 /= lm hl.
have hn2 : n2 (at_distance c L) (Z.of_nat m) = 1%N by rewrite /n2 /= lm hs.
rewrite /trip (@one_order _ _ _ hn1 hn2) //.
have hz : Z.of_nat m = 0%Z \/ Z.of_nat m = 1%Z \/ Z.of_nat m = (-1)%Z by case: hm => ->; [left|right; left].
have [v1 [v2 [v3 v4]]] := @dipole_coefficients (c_med c) (eps_spec e) (mu_val b) 1%N 1%N (Z.of_nat m) k L hh hk he hL (le_n 1) (le_n 1) hz.
rewrite /rt_with /= lm hx hl hs.
have -> : (1 - 1 + 0)%coq_nat = 0%N by [].
have -> : (1 + 0)%coq_nat = 1%N by [].
have eA : entry TE (mieA mieb (at_distance c L)) 0 k = mA mieb c k by [].
have eA' : entry TM (mieA mieb (at_distance c L)) 0 k = mA' mieb c k by [].
have eB : entry TE (mieB mieb (at_distance c L)) 0 k = mB mieb c k by [].
have eB' : entry TM (mieB mieb (at_distance c L)) 0 k = mB' mieb c k by [].
rewrite eA eA' eB eB' {}v1 {}v2 {}v3 {}v4 -/x /dX /dY.
by case: hm => -> /=; ring.
Qed.

(** the scaled coefficients *)
Definition sc (r : R) (f : R -> R) (k : R) : R := (f k / (k * r * refr (eps_spec e) (mu_val b) k) ^ 3)%Re.
Definition tv (m : nat) (x : R) : R := if m == 0%N then tau0 x else tau1 x.
Definition tw (m : nat) (x : R) : R := if m == 0%N then 0%Re else tau2 x.
Definition dXm (m : nat) (y k : R) : R := (sqrt (mu_val b k) ^ 6 * dX (sc ra (mA mieb c) k) (sc ra (mA' mieb c) k) (sc rb (mB mieb c) k) (sc rb (mB' mieb c) k) (tv m (y * sqrt (eps_spec e k))) (tw m (y * sqrt (eps_spec e k))))%Re.
Definition dYm (m : nat) (y k : R) : R := (sqrt (mu_val b k) ^ 12 * dY (sc ra (mA mieb c) k) (sc ra (mA' mieb c) k) (sc rb (mB mieb c) k) (sc rb (mB' mieb c) k) (tv m (y * sqrt (eps_spec e k))) (tw m (y * sqrt (eps_spec e k))))%Re.
Lemma dip_det_scaled m L k : m = 0%N \/ m = 1%N -> (0 < L)%Re -> (0 < k)%Re -> let d := ((ra * rb / L ^ 2) ^ 3)%Re in
  \det (1%:M - trip mieb (at_distance c L) (Z.of_nat m) k) = (1 - d * dXm m (k * L) k + d ^ 2 * dYm m (k * L) k)%Re.
Proof.
move=> hm hL hk d; rewrite (dip_det hm hL hk); have [he hu] := med_pos hk; have [_ [_ [_ [pa [pb _]]]]] := HC.
have ps := sqrt_lt_R0 _ he; have pq := sqrt_lt_R0 _ hu.
have rf : refr (eps_spec e) (mu_val b) k = (sqrt (eps_spec e k) * sqrt (mu_val b k))%Re by rewrite /refr sqrt_mult; [|lra|lra].
rewrite /dXm /dYm /d -(@det_scaled k ra rb L (sqrt (eps_spec e k)) (sqrt (mu_val b k))) //.
have un r f : (0 < r)%Re -> ((k * r * (sqrt (eps_spec e k) * sqrt (mu_val b k))) ^ 3 * sc r f k = f k)%Re.
  move=> pr; rewrite /sc rf; field; repeat split; lra.
rewrite !un //; set x := (k * L * sqrt (eps_spec e k))%Re.
have px : (0 < x)%Re by apply: Rmult_lt_0_compat => //; apply: Rmult_lt_0_compat.
have [T0 [T1 T2]] := t_tau x px; rewrite T0 T1 T2 /tv /tw.
by case: hm => -> /=; rewrite ?Rdiv_0_l //; unfold Rdiv; rewrite ?Rmult_0_l.
Qed.

Context (pe pm pe' pm' : R) (P1 : polarizability e b m1 pe pm) (P2 : polarizability e b m2 pe' pm') (hmu : mu_val b 0 = 1%Re).
Context (I : nat -> R -> R) (d : R) (HB : good_bes mieb I d).
Definition dipm (m : nat) (x : R) : R := if m == 0%N then dip0 (pe * pe' + pm * pm')%Re x else dip1 (pe * pe' + pm * pm')%Re (pe * pm' + pm * pe')%Re x.
Lemma tv_cont m x : continuity_pt (tv m) x /\ continuity_pt (tw m) x.
Proof.
have [h0 [h1 h2]] := tau_cont x; rewrite /tv /tw; case: (m == 0%N); split=> //.
by apply: continuity_pt_const => a a'.
Qed.
Definition dYlim (m : nat) (x : R) : R := dY (2 / 3 * pm)%Re (2 / 3 * pe)%Re (2 / 3 * pm')%Re (2 / 3 * pe')%Re (tv m x) (tw m x).
Lemma dip_lim m (y : R -> R) y0 : m = 0%N \/ m = 1%N -> lim0 y y0 ->
  lim0 (fun k => dXm m (y k) k) (dipm m (y0 * sqrt (eps_spec e 0))%Re) /\ lim0 (fun k => dYm m (y k) k) (dYlim m (y0 * sqrt (eps_spec e 0))%Re).
Proof.
have [e1 [e2 [hme [pa [pb pL]]]]] := HC => hm Ly.
have h1l : (1 <= c_lmax c)%coq_nat by rewrite hl.
have h1s : (1 <= c_lssmax c)%coq_nat by rewrite hs.
have [LA LA'] := @mie_dipole m1 (c_med c) e b ra (c_lmax c) pe pm pa hme P1 h1l mieb I d HB.
have [LB LB'] := @mie_dipole m2 (c_med c) e b rb (c_lssmax c) pe' pm' pb hme P2 h1s mieb I d HB.
have [_ [_ [_ [hb _]]]] := @insulator_flags _ _ _ hme; have [_ [HP [HN _]]] := hme.
have [_ [Le [Lu [pe0 pu0]]]] := @insulator_arg e b 1%Re Rlt_0_1 HP HN hb.
have Ls : lim0 (fun k => sqrt (eps_spec e k)) (sqrt (eps_spec e 0)) by apply: (lim0_comp sqrt) => //; apply: continuity_pt_sqrt; lra.
have Lq : lim0 (fun k => sqrt (mu_val b k)) 1%Re.
  by rewrite -sqrt_1 -hmu; apply: (lim0_comp sqrt) => //; apply: continuity_pt_sqrt; lra.
have [c1 c2] := tv_cont m (y0 * sqrt (eps_spec e 0))%Re.
have eA k : entry TE (fun ks => mie mieb ks 0 (Z.of_nat (c_lmax c)) ra m1 (c_med c)) 0 k = mA mieb c k by rewrite /mA /entry /mieA e1.
have eA' k : entry TM (fun ks => mie mieb ks 0 (Z.of_nat (c_lmax c)) ra m1 (c_med c)) 0 k = mA' mieb c k by rewrite /mA' /entry /mieA e1.
have eB k : entry TE (fun ks => mie mieb ks 0 (Z.of_nat (c_lssmax c)) rb m2 (c_med c)) 0 k = mB mieb c k by rewrite /mB /entry /mieB e2 hx.
have eB' k : entry TM (fun ks => mie mieb ks 0 (Z.of_nat (c_lssmax c)) rb m2 (c_med c)) 0 k = mB' mieb c k by rewrite /mB' /entry /mieB e2 hx.
have SA : lim0 (sc ra (mA mieb c)) (2 / 3 * pm)%Re by apply: (lim0_ext _ _ _ _ LA) => k _; rewrite eA.
have SA' : lim0 (sc ra (mA' mieb c)) (2 / 3 * pe)%Re by apply: (lim0_ext _ _ _ _ LA') => k _; rewrite eA'.
have SB : lim0 (sc rb (mB mieb c)) (2 / 3 * pm')%Re by apply: (lim0_ext _ _ _ _ LB) => k _; rewrite eB.
have SB' : lim0 (sc rb (mB' mieb c)) (2 / 3 * pe')%Re by apply: (lim0_ext _ _ _ _ LB') => k _; rewrite eB'.
have [hX hY] := @lim_dX _ _ _ _ _ _ y _ _ _ _ _ y0 SA SA' SB SB' Lq Ls Ly (tv m) (tw m) c1 c2.
split; last exact: hY.
have [D0 D1] := dX_dip pe pm pe' pm' (y0 * sqrt (eps_spec e 0))%Re.
apply: lim0_eq; last exact: hX.
by rewrite /dipm /tv /tw; case: hm => -> /=.
Qed.

Local Notation rr := (ra * rb)%Re.
Lemma far_freq m y eps : m = 0%N \/ m = 1%N -> (0 < y)%Re -> (0 < eps)%Re -> exists L0, (0 < L0)%Re /\ forall L, (L0 <= L)%Re -> let D := \det (1%:M - trip mieb (at_distance c L) (Z.of_nat m) (y / L)%Re) in
  (0 < D)%Re /\ (Rabs (ln D / (rr / L ^ 2) ^ 3 + dipm m (y * sqrt (eps_spec e 0))) < eps)%Re.
Proof.
move=> hm hy he; have [_ [_ [_ [pa [pb _]]]]] := HC; have hr : (0 < rr)%Re by apply: Rmult_lt_0_compat.
have [hX hY] := @dip_lim m (fun _ => y) y hm (lim0_const y).
have [L0 [p0 h]] := @far_ln _ _ _ _ y rr eps hX hY hy hr he.
exists L0; split=> // L hL; have [h1 h2] := h L hL; have pL : (0 < L)%Re by lra.
have E : (y / L * L = y)%Re by field; lra.
rewrite (@dip_det_scaled m L (y / L)%Re hm pL) ?E //; exact: Rdiv_lt_0_compat.
Qed.
Lemma far_static m eps : m = 0%N \/ m = 1%N -> (0 < eps)%Re -> exists L0, (0 < L0)%Re /\ forall L, (L0 <= L)%Re -> exists D,
  lim0 (fun k => \det (1%:M - trip mieb (at_distance c L) (Z.of_nat m) k)) D /\ (0 < D)%Re /\ (Rabs (ln D / (rr / L ^ 2) ^ 3 + dipm m 0) < eps)%Re.
Proof.
move=> hm he; have [_ [_ [_ [pa [pb _]]]]] := HC; have hr : (0 < rr)%Re by apply: Rmult_lt_0_compat.
have [L0 [p0 h]] := @far_ln_static (dipm m 0) (dYlim m 0) rr eps hr he.
exists L0; split=> // L hL; have pL : (0 < L)%Re by lra.
have [h1 h2] := h L hL; eexists; split; last by split; [exact h1|exact h2].
have Ly : lim0 (fun k => k * L)%Re 0%Re by apply: lim0_eq; last exact: (lim0_mult _ _ _ _ lim0_id (lim0_const L)); rewrite Rmult_0_l.
have [hX hY] := @dip_lim m _ 0%Re hm Ly; rewrite Rmult_0_l in hX hY.
set dd := ((rr / L ^ 2) ^ 3)%Re.
apply: (lim0_ext (fun k => 1 - dd * dXm m (k * L) k + dd ^ 2 * dYm m (k * L) k)%Re).
  by move=> k hk; rewrite (@dip_det_scaled m L k hm pL hk).
apply: lim0_plus; last by apply: lim0_mult => //; apply: lim0_const.
by apply: lim0_minus; [exact: lim0_const|apply: lim0_mult => //; apply: lim0_const].
Qed.
End Dip.
