(** * Property C93: the dipole truncation and the large-distance limit of tests/test_functional.py *)
From Coq Require Import Reals.
From Coquelicot Require Import Coquelicot.
From Coq Require Import List Lia Lra ZArith.
From mathcomp Require Import all_ssreflect ssralg fingroup perm matrix mxalgebra poly mxpoly.
From Verif Require Import Base RStruct Mat_Model Mat_Spec Mat_Proofs Thermo_Model Thermo_Proofs Geo_Model Geo_Spec Bessel_Model Bessel_Spec Scat_Model Scat_Spec Scat_Proofs Scat_Proofs7 Scat_Proofs8 Scat_Proofs9 Trans_Model Trans_Spec Trans_Proofs3 Lin_Model Lin_Spec RT_Model RT_Spec RT_Spec2 RT_Proofs RT_Proofs2 RT_Proofs3 RT_Props2
  Run_Model Run_Spec Run_Proofs Run_Proofs4 Run_Proofs9 Run_Props Run_Props2 Dip_Spec Dip_Proofs Dip_Proofs2 Dip_Proofs3 Dip_Proofs4 Dip_Proofs5 Dip_Proofs6 Dip_Proofs7 Dip_Proofs8.
Set Implicit Arguments.
Unset Strict Implicit.
Import GRing.Theory.
Local Open Scope ring_scope.
Delimit Scope R_scope with Re.

(** ** the translation coefficients between two dipoles *)
Theorem C93_translation : forall med e u lmax lssmax (m : Z) (k L : R), has med e u -> (0 < k)%Re -> (0 < L)%Re -> (1 <= lmax)%coq_nat -> (1 <= lssmax)%coq_nat -> m = 0%Z \/ m = 1%Z \/ m = (-1)%Z ->
  let x := (k * L * sqrt (e k))%Re in let V pick := coefficient pick trans_bessels lmax lssmax m med L true 1 1 k in
  let v := (if Z.eqb m 0 then 3 * exp (- x) * (/ x ^ 2 + / x ^ 3) else - (3 / 2) * exp (- x) * (/ x + / x ^ 2 + / x ^ 3))%Re in
  let w := (IZR m * (3 / 2 * exp (- x) * (/ x + / x ^ 2)))%Re in
  [/\ V v_EEab = v, V v_EEba = v, V v_EMab = w & V v_EMba = (- w)%Re].
Proof.
move=> med e u lmax lssmax m k L hh hk hL h1 h2 hm x V v w.
have he : (0 < e k)%Re by have [_ [h _]] := hh; have [] := h k hk.
by have [v1 [v2 [v3 v4]]] := @dipole_coefficients med e u lmax lssmax m k L hh hk he hL h1 h2 hm.
Qed.

(** ** the Mie coefficients of order one are the polarizabilities *)
Lemma good_both mieb : mieb = mie_bessels \/ mieb = exact_bessels -> exists I d, good_bes mieb I d.
Proof. by case=> ->; [eexists; eexists; exact code_good|eexists; eexists; exact exact_good]. Qed.
Theorem C93_polarizability : forall mieb m1 med e b r lmax pe pm, mieb = mie_bessels \/ mieb = exact_bessels -> (0 < r)%Re -> insulator med e b -> polarizability e b m1 pe pm -> (1 <= lmax)%coq_nat ->
  let x k := (k * r * sqrt (eps_spec e k * mu_val b k))%Re in let F := fun ks => mie mieb ks 0 (Z.of_nat lmax) r m1 med in
  limit0 (fun k => entry TE F 0 k / x k ^ 3)%Re (2 / 3 * pm)%Re /\ limit0 (fun k => entry TM F 0 k / x k ^ 3)%Re (2 / 3 * pe)%Re.
Proof.
move=> mieb m1 med e b r lmax pe pm hb hr hme hp hl x F; have [I [d hI]] := good_both hb.
by have [h1 h2] := @mie_dipole m1 med e b r lmax pe pm hr hme hp hl mieb I d hI.
Qed.

(** ** the determinants for lmax = lssmax = 1 *)
Theorem C93_determinant : forall mieb c m1 m2 ra rb e b m (L k : R), two_spheres c m1 m2 ra rb e b -> c_ext c = true -> c_lmax c = 1%N -> c_lssmax c = 1%N -> (m <= 1)%coq_nat -> (0 < L)%Re -> (0 < k)%Re ->
  let x := (k * L * sqrt (eps_spec e k))%Re in
  let v := (if m == 0%N then 3 * exp (- x) * (/ x ^ 2 + / x ^ 3) else - (3 / 2) * exp (- x) * (/ x + / x ^ 2 + / x ^ 3))%Re in
  let w := (if m == 0%N then 0 else 3 / 2 * exp (- x) * (/ x + / x ^ 2))%Re in
  let a := entry TE (mieA mieb c) 0 k in let a' := entry TM (mieA mieb c) 0 k in let a2 := entry TE (mieB mieb c) 0 k in let a2' := entry TM (mieB mieb c) 0 k in
  \det (1%:M - trip mieb (at_distance c L) (Z.of_nat m) k) = (1 - ((a * a2 + a' * a2') * v ^ 2 - (a * a2' + a' * a2) * w ^ 2) + a * a' * a2 * a2' * (v ^ 2 - w ^ 2) ^ 2)%Re.
Proof.
move=> mieb c m1 m2 ra rb e b m L k HC hx hl hs hm hL hk x v w a a' a2 a2'.
have hm' : m = 0%N \/ m = 1%N by lia.
exact: (@dip_det mieb c m1 m2 ra rb e b HC hx hl hs m L k hm' hL hk).
Qed.

(** ** large distances *)
Section Far.
Context (mieb : list R -> nat -> Z -> res (list (list R) * list (list R))) (c : RT_Model.config) (m1 m2 : material) (ra rb : R) (e : list osc) (b : bprops) (pe pm pe' pm' : R).
Context (hmb : mieb = mie_bessels \/ mieb = exact_bessels) (HC : two_spheres c m1 m2 ra rb e b) (P1 : polarizability e b m1 pe pm) (P2 : polarizability e b m2 pe' pm').
Context (hx : c_ext c = true) (hmu : mu_val b 0 = 1%Re) (hl : c_lmax c = 1%N) (hs : c_lssmax c = 1%N).
Local Notation s := (pe * pe' + pm * pm')%Re.
Local Notation t := (pe * pm' + pm * pe')%Re.
Local Notation n0 := (sqrt (eps_spec e 0)).
Local Notation dm := (dipm pe pm pe' pm').

Lemma pol_static m1' p p' : polarizability e b m1' p p' -> static_sphere m1'.
Proof. by case=> [|m e1 b1 h|m e1 b1 h]; [left|right; left; exists e1, b1|right; right; exists e1, b1]. Qed.
Lemma dip_split x : (dip s t x = dm 0%N x + 2 * dm 1%N x)%Re.
Proof. by []. Qed.
Lemma dip0_nz y : (0 < y)%Re -> s <> 0%Re -> dm 0%N (y * n0)%Re <> 0%Re.
Proof.
move=> hy h0; rewrite /dipm /= /dip0; have p := exp_pos (- (2 * (y * n0)))%Re; have q := sqrt_pos (eps_spec e 0).
have z : (0 <= y * n0)%Re by apply: Rmult_le_pos; lra.
apply: Rmult_integral_contrapositive_currified; last lra.
apply: Rmult_integral_contrapositive_currified; first by apply: Rmult_integral_contrapositive_currified => //; lra.
by apply: pow_nonzero; lra.
Qed.

(** all determinants of a calculation at once *)
Definition near (nu h : R) (L : R) (n : nat) : Prop :=
  let D m := \det (1%:M - trip mieb (at_distance c L) (Z.of_nat m) (nu / L * INR n)%Re) in
  forall m, m = 0%N \/ m = 1%N -> [/\ (0 < D m)%Re, (Rabs (ln (D m) / (ra * rb / L ^ 2) ^ 3 + dm m (nu * INR n * n0)) < h)%Re & m = 0%N -> ln (D m) <> 0%Re].
Lemma near_all nu h N : (0 < nu)%Re -> (0 < h)%Re -> s <> 0%Re -> exists L0, (0 < L0)%Re /\ forall L, (L0 <= L)%Re -> forall n, (1 <= n)%coq_nat /\ (n <= N)%coq_nat -> near nu h L n.
Proof.
move=> hn hh h0; have [I [d hI]] := good_both hmb.
apply: (far_all (fun n L => near nu h L n)) => n hn1.
have hy : (0 < nu * INR n)%Re by apply: Rmult_lt_0_compat => //; apply: lt_0_INR; lia.
have he0 : (0 < Rmin h (Rabs (dm 0%N (nu * INR n * n0))))%Re by apply: Rmin_glb_lt => //; apply: Rabs_pos_lt; exact: dip0_nz.
have [L1 [p1 h1]] := @far_freq mieb c m1 m2 ra rb e b HC hx hl hs pe pm pe' pm' P1 P2 hmu I d hI 0%N _ _ (or_introl erefl) hy he0.
have [L2 [p2 h2]] := @far_freq mieb c m1 m2 ra rb e b HC hx hl hs pe pm pe' pm' P1 P2 hmu I d hI 1%N _ _ (or_intror erefl) hy hh.
exists (Rmax L1 L2); have a1 := Rmax_l L1 L2; have a2 := Rmax_r L1 L2; split; first lra.
move=> L hL D m hm; have E : (nu / L * INR n = nu * INR n / L)%Re by rewrite /Rdiv; ring.
rewrite /D E; case: hm => ->.
- have hL1 : (L1 <= L)%Re by lra.
  have [q1 q2] := h1 L hL1; have r1 := Rmin_l h (Rabs (dm 0%N (nu * INR n * n0))); have r2 := Rmin_r h (Rabs (dm 0%N (nu * INR n * n0))).
  split; [exact q1|lra|move=> _ hz; move: q2; rewrite hz /Rdiv Rmult_0_l Rplus_0_l => q2; lra].
- have hL2 : (L2 <= L)%Re by lra.
  by have [q1 q2] := h2 L hL2; split.
Qed.
Lemma rsum1 (f : nat -> R) : rsum f 1 = (f 0%N + 2 * f 1%N)%Re.
Proof. by rewrite /rsum /Rsum /=; ring. Qed.

Lemma far_free_energy precision conv nu tau nmax eps : s <> 0%Re -> (conv < 1)%Re -> (0 < nu)%Re -> (0 < eps)%Re ->
  exists L0, (0 < L0)%Re /\ forall L, (L0 <= L)%Re -> forall td, ready mieb (at_distance c L) td nmax -> t_deltaT td = (nu / L)%Re -> t_Tmax td = (tau / L)%Re -> t_analytic td = true ->
  exists Nf, forall fuel, (Nf <= fuel)%N -> forall unk garbage empty, exists td' F,
    [/\ free_energy (ops unk fuel mieb trans_bessels (at_distance c L) precision conv false garbage) empty td = (td', Ok F), List.length F = Z.to_nat (pyround (tau / nu)) &
        forall i : nat, (i < List.length F)%coq_nat -> exists x, List.nth_error F i = Some x /\
          (Rabs (L * x / (ra * rb / L ^ 2) ^ 3 + dip_sum (dip s t) (INR i.+1 * nu * n0) (PeanoNat.Nat.div nmax i.+1) / n0) < eps)%Re].
Proof.
move=> h0 hc hnu he; have [I [d hI]] := good_both hmb; have [I0 [d0' hI0]] := good_both (or_introl (erefl mie_bessels)).
have [c1e [c2e [cme [pa [pb _]]]]] := HC.
have S1 := pol_static P1; have S2 := pol_static P2.
have hn0 : (0 < n0)%Re.
  have [_ [_ [_ [hb _]]]] := @insulator_flags _ _ _ cme; have [_ [HP [HN _]]] := cme.
  by have [_ [_ [_ [p _]]]] := @insulator_arg e b 1%Re Rlt_0_1 HP HN hb; exact: sqrt_lt_R0.
pose K := Z.to_nat (pyround (tau / nu)).
pose h := (eps / (3 * ((INR K + 1) * nu * (INR nmax + 2))))%Re.
have pK := pos_INR K; have pN := pos_INR nmax.
have pden : (0 < 3 * ((INR K + 1) * nu * (INR nmax + 2)))%Re.
  by apply: Rmult_lt_0_compat; [lra|apply: Rmult_lt_0_compat; [apply: Rmult_lt_0_compat; lra|lra]].
have hh : (0 < h)%Re by apply: Rdiv_lt_0_compat.
have [L1 [p1 H1]] := @near_all nu h nmax hnu hh h0.
have [L2 [p2 H2]] := @far_static mie_bessels c m1 m2 ra rb e b HC hx hl hs pe pm pe' pm' P1 P2 hmu I0 d0' hI0 0%N h (or_introl erefl) hh.
have [L3 [p3 H3]] := @far_static mie_bessels c m1 m2 ra rb e b HC hx hl hs pe pm pe' pm' P1 P2 hmu I0 d0' hI0 1%N h (or_intror erefl) hh.
have [k0 [pk0 Hk0]] := code_small _ _ _ _ _ _ _ HC S1 S2 hx.
pose L4 := (nu * (INR nmax + 1) / k0)%Re.
have p4 : (0 < L4)%Re by apply: Rdiv_lt_0_compat => //; apply: Rmult_lt_0_compat; lra.
exists (L1 + L2 + L3 + L4)%Re; split; first lra.
move=> L hL td hR hdT hTm hA.
have pL : (0 < L)%Re by lra.
have HL : two_spheres (at_distance c L) m1 m2 ra rb e b by exact: (conj c1e (conj c2e (conj cme (conj pa (conj pb pL))))).
have hlA : c_lmax (at_distance c L) = 1%N by [].
have hsA : c_lssmax (at_distance c L) = 1%N by [].
have hxA : c_ext (at_distance c L) = true by [].
have hL1 : (L1 <= L)%Re by lra.
have hL2 : (L2 <= L)%Re by lra.
have hL3 : (L3 <= L)%Re by lra.
have [D0 [z1 [z2 z3]]] := H2 L hL2; have [D1 [y1 [y2 y3]]] := H3 L hL3; have Hn := H1 L hL1.
pose dd m : R := if m == 0%N then D0 else D1.
have hd m : (m <= c_lmax (at_distance c L))%coq_nat -> limit0 (fun k => \det (1%:M - trip mie_bessels (at_distance c L) (Z.of_nat m) k)) (dd m) /\ (0 < dd m)%Re.
  rewrite hlA => hm; have : m = 0%N \/ m = 1%N by lia.
  by case=> ->.
have hel q : freqs (t_deltaT td) nmax q <> nil -> elementwise_at mieb (at_distance c L) (freqs (t_deltaT td) nmax q).
  move=> hne; case: hmb => ->; last exact: (exact_at _ _ (trans_at_ext _ _ hxA)).
  have [|g1 g2] := Hk0 _ hne; last by split; [exact: g1|left].
  move=> k /(freqs_in _ _ _ _) [n [[hn1 hn2] ->]]; rewrite hdT.
  have pn : (0 < INR n)%Re by apply: lt_0_INR; lia.
  have qn : (INR n <= INR nmax)%Re by apply: le_INR.
  split; first by apply: Rmult_lt_0_compat => //; apply: Rdiv_lt_0_compat.
  apply: (Rmult_le_reg_r L) => //; have -> : (nu / L * INR n * L = nu * INR n)%Re by field; lra.
  have hl4 : (L4 <= L)%Re by lra.
  have : (L4 * k0 <= L * k0)%Re by apply: Rmult_le_compat_r; lra.
  have -> : (L4 * k0 = nu * (INR nmax + 1))%Re by rewrite /L4; field; lra.
  move=> hq; have : (nu * INR n <= nu * (INR nmax + 1))%Re by apply: Rmult_le_compat_l; lra.
  by lra.
have hreg n m : (1 <= n)%coq_nat /\ (n <= nmax)%coq_nat -> (m <= c_lmax (at_distance c L))%coq_nat -> \det (1%:M - trip mieb (at_distance c L) (Z.of_nat m) (t_deltaT td * INR n)%Re) <> 0.
  rewrite hlA hdT => hn hm; have hm' : m = 0%N \/ m = 1%N by lia.
  by have [q _ _] := Hn n hn m hm'; move: q; set DD := \det _ => q hz; rewrite hz in q; exact: (Rlt_irrefl _ q).
have [hl1 hl2] : (1 <= c_lmax (at_distance c L))%coq_nat /\ (c_lmax (at_distance c L) <= c_lssmax (at_distance c L))%coq_nat by rewrite hlA hsA.
have [cut0 [cut [Nf [hc0 hcut hN]]]] := @C66_free_energy mieb (at_distance c L) m1 m2 ra rb e b precision conv dd td nmax HL S1 S2 hxA hmu hl1 hl2 hc hR hA hel hd hreg.
rewrite hlA in hc0 hcut.
have E0 : cut0 = 1%N by exact: stops_one_k0 hc0.
have E1 n : (1 <= n)%coq_nat /\ (n <= nmax)%coq_nat -> cut (PeanoNat.Nat.div n 50) = 1%N.
  move=> hn; have hin := freqs_has (t_deltaT td) nmax n hn.
  have hne : freqs (t_deltaT td) nmax (PeanoNat.Nat.div n 50) <> nil by move=> hz; rewrite hz in hin.
  have [q1 _ q3] := Hn n hn 0%N (or_introl erefl).
  apply: (stops_one _ _ _ _ _ (ln (Rabs (\det (1%:M - trip mieb (at_distance c L) (Z.of_nat 0) (t_deltaT td * INR n)%Re)))) (hcut _ hne) hin).
  - by apply: (@lnd_real mieb (at_distance c L) 0%N); apply: hreg => //; rewrite hlA; lia.
  - by rewrite hdT Rabs_pos_eq; [exact: q3|left; exact: q1].
exists Nf => fuel hf unk garbage empty; have [td' [F [F1 _ F3 F4]]] := hN fuel hf unk garbage empty.
have FK : List.length F = K by rewrite F3 hdT hTm /K; congr (Z.to_nat (pyround _)); field; lra.
exists td', F; split=> // i hi.
have hi1 : (1 <= i.+1)%coq_nat /\ (i.+1 <= List.length F)%coq_nat by lia.
have si : (i.+1 - 1)%coq_nat = i by lia.
have := F4 _ hi1; rewrite si => ->; eexists; split; first reflexivity.
rewrite /sliced_sum E0 rsum1 hdT.
set N := PeanoNat.Nat.div nmax i.+1; set iR := INR i.+1; set del := ((ra * rb / L ^ 2) ^ 3)%Re.
have pi : (0 < iR)%Re by apply: lt_0_INR; lia.
have hiK : (iR <= INR K)%Re by apply: le_INR; lia.
have hNn : (INR N <= INR nmax)%Re by apply: le_INR; apply: PeanoNat.Nat.div_le_upper_bound; nia.
have pNN := pos_INR N.
have pdel : (0 < del)%Re by apply: pow_lt; apply: Rdiv_lt_0_compat; [exact: Rmult_lt_0_compat|exact: pow_lt].
set f := fun j : nat => rsum _ _.
pose f' j := (f j / del)%Re; pose g j := dip s t (INR j * (iR * nu * n0))%Re.
have hj j : (1 <= j)%coq_nat /\ (j <= N)%coq_nat -> (Rabs (f' j + g j) <= 3 * h)%Re.
  move=> [hj1 hj2]; have hij : (1 <= Nat.mul i.+1 j)%coq_nat /\ (Nat.mul i.+1 j <= nmax)%coq_nat.
    have u1 := PeanoNat.Nat.mul_div_le nmax i.+1 (PeanoNat.Nat.neq_succ_0 i); rewrite -/N in u1.
    have u2 : (Nat.mul i.+1 j <= Nat.mul i.+1 N)%coq_nat by apply: PeanoNat.Nat.mul_le_mono_l.
    have u3 : (Nat.mul 1 1 <= Nat.mul i.+1 j)%coq_nat by apply: PeanoNat.Nat.mul_le_mono; lia.
    by split; lia.
  rewrite /f' /f /g; rewrite (E1 _ hij) rsum1.
  have -> : (INR j * (INR i.+1 * (nu / L)) = nu / L * INR (Nat.mul i.+1 j))%Re by rewrite mult_INR; ring.
  have [q1 q2 _] := Hn _ hij 0%N (or_introl erefl); have [q3 q4 _] := Hn _ hij 1%N (or_intror erefl).
  move: q1 q2 q3 q4; set A := \det _; set B := \det _ => q1 q2 q3 q4.
  rewrite (Rabs_pos_eq A) ?(Rabs_pos_eq B); [|lra|lra].
  rewrite dip_split.
  have -> : (INR j * (iR * nu * n0) = nu * INR (Nat.mul i.+1 j) * n0)%Re by rewrite mult_INR /iR; ring.
  move: q2 q4; rewrite -/del; set X := dm 0%N _; set Y := dm 1%N _ => q2 q4.
  have -> : ((ln A + 2 * ln B) / del + (X + 2 * Y) = (ln A / del + X) + 2 * (ln B / del + Y))%Re by rewrite /Rdiv; ring.
  apply: Rle_trans; first exact: Rabs_triang.
  by rewrite Rabs_mult (Rabs_pos_eq 2); lra.
have S0 := sum_close f' g (3 * h)%Re N hj.
have Sf : Rsum (List.map f' (List.seq 1 N)) = (Rsum (List.map f (List.seq 1 N)) / del)%Re.
  rewrite /f'; elim: (List.seq 1 N) => [|a l IH]; first by rewrite /Rsum /= /Rdiv Rmult_0_l.
  by move: IH; rewrite /Rsum /= => ->; rewrite /Rdiv; ring.
have Z0 : (Rabs ((ln (dd 0%N) + 2 * ln (dd 1%N)) / del + dip s t 0) <= 3 * h)%Re.
  have -> : dd 0%N = D0 by [].
  have -> : dd 1%N = D1 by [].
  move: z3 y3; rewrite -/del dip_split; set X := dm 0%N _; set Y := dm 1%N _ => z3 y3.
  have -> : ((ln D0 + 2 * ln D1) / del + (X + 2 * Y) = (ln D0 / del + X) + 2 * (ln D1 / del + Y))%Re by rewrite /Rdiv; ring.
  apply: Rle_trans; first exact: Rabs_triang.
  by rewrite Rabs_mult (Rabs_pos_eq 2); lra.
rewrite /dip_sum -(Rsum_from1 g) -/iR.
have -> : (L * (iR * (nu / L) * ((ln (dd 0%N) + 2 * ln (dd 1%N)) / 2 + Rsum (List.map f (List.seq 1 N)))) / del + iR * nu * n0 * (dip s t 0 / 2 + Rsum (List.map g (List.seq 1 N))) / n0
   = iR * nu * (((ln (dd 0%N) + 2 * ln (dd 1%N)) / del + dip s t 0) / 2 + (Rsum (List.map f' (List.seq 1 N)) + Rsum (List.map g (List.seq 1 N)))))%Re.
  by rewrite Sf; field; repeat split; lra.
have piv : (0 < iR * nu)%Re by apply: Rmult_lt_0_compat.
rewrite Rabs_mult (Rabs_pos_eq (iR * nu)); last lra.
set U := (_ / 2 + _)%Re.
have hU : (Rabs U <= 3 * h * (INR nmax + 1))%Re.
  rewrite /U; apply: Rle_trans; first exact: Rabs_triang.
  have b1 : (INR N * (3 * h) <= INR nmax * (3 * h))%Re by apply: Rmult_le_compat_r; lra.
  by rewrite /Rdiv Rabs_mult (Rabs_pos_eq (/ 2)); lra.
apply: (@Rle_lt_trans _ ((INR K + 1) * nu * (3 * h * (INR nmax + 1)))%Re).
  apply: Rmult_le_compat => //; [lra|exact: Rabs_pos|].
  by apply: Rmult_le_compat_r; lra.
have -> : eps = ((INR K + 1) * nu * (3 * h * (INR nmax + 2)))%Re.
  by rewrite /h; field; repeat split; lra.
apply: Rmult_lt_compat_l; first by apply: Rmult_lt_0_compat; lra.
by apply: Rmult_lt_compat_l; lra.
Qed.
End Far.

Theorem C93_far_frequency : forall mieb c m1 m2 ra rb e b pe pm pe' pm' (y eps : R), mieb = mie_bessels \/ mieb = exact_bessels -> two_spheres c m1 m2 ra rb e b ->
  polarizability e b m1 pe pm -> polarizability e b m2 pe' pm' -> c_ext c = true -> mu_val b 0 = 1%Re -> c_lmax c = 1%N -> c_lssmax c = 1%N -> (0 < y)%Re -> (0 < eps)%Re ->
  exists L0, (0 < L0)%Re /\ forall L, (L0 <= L)%Re -> let D m := \det (1%:M - trip mieb (at_distance c L) (Z.of_nat m) (y / L)%Re) in let x := (y * sqrt (eps_spec e 0))%Re in
    [/\ (0 < D 0%N)%Re, (0 < D 1%N)%Re, (Rabs (ln (D 0%N) / (ra * rb / L ^ 2) ^ 3 + dip0 (pe * pe' + pm * pm') x) < eps)%Re &
       (Rabs (ln (D 1%N) / (ra * rb / L ^ 2) ^ 3 + dip1 (pe * pe' + pm * pm') (pe * pm' + pm * pe') x) < eps)%Re].
Proof.
move=> mieb c m1 m2 ra rb e b pe pm pe' pm' y eps hmb HC P1 P2 hx hmu hl hs hy he; have [I [d hI]] := good_both hmb.
have [L1 [p1 h1]] := @far_freq mieb c m1 m2 ra rb e b HC hx hl hs pe pm pe' pm' P1 P2 hmu I d hI 0%N _ _ (or_introl erefl) hy he.
have [L2 [p2 h2]] := @far_freq mieb c m1 m2 ra rb e b HC hx hl hs pe pm pe' pm' P1 P2 hmu I d hI 1%N _ _ (or_intror erefl) hy he.
exists (Rmax L1 L2); have a1 := Rmax_l L1 L2; have a2 := Rmax_r L1 L2; split; first lra.
move=> L hL D x.
have hL1 : (L1 <= L)%Re by lra.
have hL2 : (L2 <= L)%Re by lra.
have [q1 q2] := h1 L hL1; have [q3 q4] := h2 L hL2.
by split; [exact q1|exact q3|exact q2|exact q4].
Qed.
Theorem C93_far_static : forall mieb c m1 m2 ra rb e b pe pm pe' pm' (eps : R), mieb = mie_bessels \/ mieb = exact_bessels -> two_spheres c m1 m2 ra rb e b ->
  polarizability e b m1 pe pm -> polarizability e b m2 pe' pm' -> c_ext c = true -> mu_val b 0 = 1%Re -> c_lmax c = 1%N -> c_lssmax c = 1%N -> (0 < eps)%Re ->
  exists L0, (0 < L0)%Re /\ forall L, (L0 <= L)%Re -> forall m, (m <= 1)%coq_nat -> exists D, [/\ limit0 (fun k => \det (1%:M - trip mieb (at_distance c L) (Z.of_nat m) k)) D, (0 < D)%Re &
    (Rabs (ln D / (ra * rb / L ^ 2) ^ 3 + (if m == 0%N then 4 else 1) * (pe * pe' + pm * pm')) < eps)%Re].
Proof.
move=> mieb c m1 m2 ra rb e b pe pm pe' pm' eps hmb HC P1 P2 hx hmu hl hs he; have [I [d hI]] := good_both hmb.
have [L1 [p1 h1]] := @far_static mieb c m1 m2 ra rb e b HC hx hl hs pe pm pe' pm' P1 P2 hmu I d hI 0%N _ (or_introl erefl) he.
have [L2 [p2 h2]] := @far_static mieb c m1 m2 ra rb e b HC hx hl hs pe pm pe' pm' P1 P2 hmu I d hI 1%N _ (or_intror erefl) he.
exists (Rmax L1 L2); have a1 := Rmax_l L1 L2; have a2 := Rmax_r L1 L2; split; first lra.
move=> L hL m hm.
have hL1 : (L1 <= L)%Re by lra.
have hL2 : (L2 <= L)%Re by lra.
have [D [q1 [q2 q3]]] := h1 L hL1; have [D' [r1 [r2 r3]]] := h2 L hL2.
have hm' : m = 0%N \/ m = 1%N by lia.
have e0 : exp (- (2 * 0))%Re = 1%Re by rewrite Rmult_0_r Ropp_0 exp_0.
case: hm' => ->; [exists D|exists D']; split=> //.
- by move: q3; rewrite /dipm /= /dip0 e0; congr (Rabs (_ + _) < _)%Re; ring.
- by move: r3; rewrite /dipm /= /dip1 e0; congr (Rabs (_ + _) < _)%Re; ring.
Qed.

Theorem C93_free_energy : forall mieb c m1 m2 ra rb e b pe pm pe' pm' (precision conv nu tau eps : R) nmax, mieb = mie_bessels \/ mieb = exact_bessels -> two_spheres c m1 m2 ra rb e b ->
  polarizability e b m1 pe pm -> polarizability e b m2 pe' pm' -> c_ext c = true -> mu_val b 0 = 1%Re -> c_lmax c = 1%N -> c_lssmax c = 1%N ->
  (pe * pe' + pm * pm' <> 0)%Re -> (conv < 1)%Re -> (0 < nu)%Re -> (0 < eps)%Re -> let n0 := sqrt (eps_spec e 0) in
  exists L0, (0 < L0)%Re /\ forall L, (L0 <= L)%Re -> forall td, ready mieb (at_distance c L) td nmax -> t_deltaT td = (nu / L)%Re -> t_Tmax td = (tau / L)%Re -> t_analytic td = true ->
  exists Nf, forall fuel, (Nf <= fuel)%N -> forall unk garbage empty, exists td' F,
    [/\ free_energy (ops unk fuel mieb trans_bessels (at_distance c L) precision conv false garbage) empty td = (td', Ok F), List.length F = Z.to_nat (pyround (tau / nu)) &
        forall i : nat, (i < List.length F)%coq_nat -> exists x, List.nth_error F i = Some x /\
          (Rabs (L * x / (ra * rb / L ^ 2) ^ 3 + dip_sum (dip (pe * pe' + pm * pm') (pe * pm' + pm * pe')) (INR i.+1 * nu * n0) (PeanoNat.Nat.div nmax i.+1) / n0) < eps)%Re].
Proof. by move=> mieb c m1 m2 ra rb e b pe pm pe' pm' precision conv nu tau eps nmax hmb HC P1 P2 hx hmu hl hs h0 hc hn he n0; exact: (@far_free_energy mieb c m1 m2 ra rb e b pe pm pe' pm' hmb HC P1 P2 hx hmu hl hs precision conv nu tau nmax eps). Qed.

(** ** the Matsubara sums in closed form *)
Theorem C93_matsubara_sum : forall s t nu : R, (0 < nu)%Re -> is_lim_seq (dip_sum (dip s t) nu) (far_closed s t nu).
Proof. exact dip_sum_limit. Qed.
Theorem C93_constants : forall s t : R, limit0 (far_closed s t) ((23 * s - 7 * t) / 2)%Re /\ is_lim (fun nu => far_closed s t nu / nu)%Re p_infty (3 * s)%Re.
Proof. by move=> s t; split; [exact: far_closed_zero|exact: far_closed_hot]. Qed.

Lemma sum_uniform s t nu n0 eps K : (0 < nu)%Re -> (0 < n0)%Re -> (0 < eps)%Re -> exists N0, forall N, (N0 <= N)%coq_nat -> forall i : nat, (i < K)%coq_nat ->
  (Rabs (dip_sum (dip s t) (INR i.+1 * nu * n0) (PeanoNat.Nat.div N i.+1) - far_closed s t (INR i.+1 * nu * n0)) < eps)%Re.
Proof.
move=> hnu hn0 he; elim: K => [|K [N0 IH]]; first by exists 0%N => N _ i; lia.
have hp : (0 < INR K.+1 * nu * n0)%Re by apply: Rmult_lt_0_compat => //; apply: Rmult_lt_0_compat => //; apply: lt_0_INR; lia.
have /is_lim_seq_Reals h := @dip_sum_limit s t _ hp.
have [N1 h1] := h eps he.
exists (Nat.max N0 (Nat.mul K.+1 N1.+1)) => N hN i hi.
case: (PeanoNat.Nat.eq_dec i K) => [->|hd]; last by apply: IH; lia.
apply: h1; apply: PeanoNat.Nat.div_le_lower_bound; first lia.
by have := PeanoNat.Nat.mul_le_mono_l _ _ K.+1 (le_S _ _ (le_n N1)); lia.
Qed.
(** ** perfect reflectors in vacuum: the analytic result of the functional test *)
Theorem C93_mirrors : forall mieb c ra rb e b (precision conv nu tau eps : R), mieb = mie_bessels \/ mieb = exact_bessels -> two_spheres c PEC PEC ra rb e b ->
  c_ext c = true -> mu_val b 0 = 1%Re -> eps_spec e 0 = 1%Re -> c_lmax c = 1%N -> c_lssmax c = 1%N -> (conv < 1)%Re -> (0 < nu)%Re -> (0 < eps)%Re ->
  exists N0, forall nmax, (N0 <= nmax)%coq_nat ->
  exists L0, (0 < L0)%Re /\ forall L, (L0 <= L)%Re -> forall td, ready mieb (at_distance c L) td nmax -> t_deltaT td = (nu / L)%Re -> t_Tmax td = (tau / L)%Re -> t_analytic td = true ->
  exists Nf, forall fuel, (Nf <= fuel)%N -> forall unk garbage empty, exists td' F,
    [/\ free_energy (ops unk fuel mieb trans_bessels (at_distance c L) precision conv false garbage) empty td = (td', Ok F), List.length F = Z.to_nat (pyround (tau / nu)) &
        forall i : nat, (i < List.length F)%coq_nat -> exists x, List.nth_error F i = Some x /\ (Rabs (x / (- (ra * rb / L ^ 2) ^ 3 / L) - far_analytic (INR i.+1 * nu)) < eps)%Re].
Proof.
move=> mieb c ra rb e b precision conv nu tau eps hmb HC hx hmu he0 hl hs hc hnu he.
have he2 : (0 < eps / 2)%Re by lra.
have [N0 hN0] := @sum_uniform (5 / 4)%Re (-1)%Re nu 1%Re (eps / 2)%Re (Z.to_nat (pyround (tau / nu))) hnu Rlt_0_1 he2.
exists N0 => nmax hnm.
have h0 : (1 * 1 + - / 2 * - / 2 <> 0)%Re by lra.
have [L0 [p0 h]] := @C93_free_energy mieb c PEC PEC ra rb e b _ _ _ _ precision conv nu tau (eps / 2)%Re nmax hmb HC (pol_pec e b) (pol_pec e b) hx hmu hl hs h0 hc hnu he2.
have [_ [_ [_ [pa [pb _]]]]] := HC.
exists L0; split=> // L hL td hR hdT hTm hA; have [Nf hN] := h L hL td hR hdT hTm hA.
exists Nf => fuel hf unk garbage empty; have [td' [F [F1 F2 F3]]] := hN fuel hf unk garbage empty; exists td', F; split=> // i hi.
have [x [X1 X2]] := F3 i hi; exists x; split=> //.
have pL : (0 < L)%Re by lra.
have pd : (0 < (ra * rb / L ^ 2) ^ 3)%Re by apply: pow_lt; apply: Rdiv_lt_0_compat; [exact: Rmult_lt_0_compat|exact: pow_lt].
have hi' : (i < Z.to_nat (pyround (tau / nu)))%coq_nat by rewrite -F2.
have := hN0 nmax hnm i hi'; move: X2; rewrite he0 sqrt_1 !Rmult_1_r Rdiv_1 -far_closed_mirrors.
have -> : (1 + - / 2 * - / 2 = 5 / 4)%Re by field.
have -> : (1 * - / 2 + - / 2 = -1)%Re by field.
move: pd; set dd := ((ra * rb / L ^ 2) ^ 3)%Re => pd; set S := dip_sum _ _ _ => X2 X3.
have -> : (x / (- dd / L) - far_closed (5 / 4) (-1) (INR i.+1 * nu) = - (L * x / dd + S) + (S - far_closed (5 / 4) (-1) (INR i.+1 * nu)))%Re by field; split; lra.
apply: Rle_lt_trans; first exact: Rabs_triang.
by rewrite Rabs_Ropp; lra.
Qed.
Theorem C93_test_formula : forall nu : R, far_closed (5 / 4) (-1) nu = far_analytic nu /\ ((0 < nu)%Re -> is_derive far_analytic nu (far_entropy nu)).
Proof. by move=> nu; split; [exact: far_closed_mirrors|exact: far_entropy_derive]. Qed.

(** non-vacuity: the configuration of the functional test *)
Definition functional_config : RT_Model.config :=
  {| c_1 := Solid PEC 0.9%Re; c_2 := Solid PEC 0.6%Re; c_med := Lorentz nil None; c_L := 40%Re; c_lmax := 1%N; c_lssmax := 1%N; c_ext := true; c_mat := fun _ => PEC |}.
Example C93_example : two_spheres functional_config PEC PEC 0.9%Re 0.6%Re nil None /\ polarizability nil None PEC 1%Re (- / 2)%Re /\ mu_val None 0 = 1%Re /\ eps_spec nil 0 = 1%Re /\ (1 * 1 + - / 2 * - / 2 <> 0)%Re.
Proof.
split; last by split; [exact: pol_pec|split; [by []|split; [by rewrite /eps_spec /=; lra|lra]]].
split; first by []. split; first by [].
split; first by split; [by []|split; [constructor|split; [by []|by []]]].
split; first by rewrite /=; lra. split; rewrite /=; lra.
Qed.
Example C93_functional_test : exists N0, forall nmax, (N0 <= nmax)%coq_nat -> exists L0, (0 < L0)%Re /\ forall L, (L0 <= L)%Re -> exists Nf, forall fuel, (Nf <= fuel)%N -> forall unk garbage empty, exists td' F,
  [/\ free_energy (ops unk fuel mie_bessels trans_bessels (at_distance functional_config L) 1e-5 1e-10 false garbage) empty (task (0.4 / L) (40 / L) nmax true) = (td', Ok F), List.length F = 100%N &
      forall i : nat, (i < List.length F)%coq_nat -> exists x, List.nth_error F i = Some x /\ (Rabs (x / (- (0.9 * 0.6 / L ^ 2) ^ 3 / L) - far_analytic (INR i.+1 * 0.4)) < 1e-4)%Re].
Proof.
have [HC [_ [hmu [he _]]]] := C93_example.
have q1 : (1e-10 < 1)%Re by lra.
have q2 : (0 < 0.4)%Re by lra.
have q3 : (0 < 1e-4)%Re by lra.
have E4 : (40 / 0.4)%Re = IZR 100 by lra.
have E : Z.to_nat (pyround (40 / 0.4)) = 100%N by rewrite E4 pyround_IZR.
have [N0 h] := @C93_mirrors mie_bessels functional_config _ _ _ _ 1e-5%Re 1e-10%Re 0.4%Re 40%Re 1e-4%Re (or_introl erefl) HC erefl hmu he erefl erefl q1 q2 q3.
exists N0 => nmax hn; have [L0 [p0 hL]] := h nmax hn; exists L0; split=> // L hl; rewrite -E; apply: (hL L hl) => //.
by apply: task_ready; apply: Rdiv_lt_0_compat; lra.
Qed.
Print Assumptions C93_translation.
Print Assumptions C93_polarizability.
Print Assumptions C93_determinant.
Print Assumptions C93_far_frequency.
Print Assumptions C93_far_static.
Print Assumptions C93_free_energy.
Print Assumptions C93_matsubara_sum.
Print Assumptions C93_constants.
Print Assumptions C93_mirrors.
Print Assumptions C93_test_formula.
