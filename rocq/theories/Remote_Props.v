(** * Property C97: the large-distance limit for all truncations *)
From Coq Require Import Reals.
From Coquelicot Require Import Coquelicot.
From Coq Require Import List Lia Lra ZArith.
From mathcomp Require Import all_ssreflect ssralg fingroup perm matrix mxalgebra poly mxpoly.
From Verif Require Import Base RStruct Mat_Model Mat_Spec Mat_Proofs Thermo_Model Thermo_Proofs Geo_Model Geo_Spec Bessel_Model Bessel_Spec Scat_Model Scat_Spec Scat_Proofs Scat_Proofs7 Scat_Proofs8 Scat_Proofs9 Trans_Model Trans_Spec Trans_Proofs3 Lin_Model Lin_Spec RT_Model RT_Spec RT_Spec2 RT_Proofs RT_Proofs2 RT_Proofs3 RT_Props RT_Props2
  Run_Model Run_Spec Run_Proofs Run_Proofs4 Run_Proofs9 Run_Props Run_Props2 Dip_Spec Dip_Proofs Dip_Proofs2 Dip_Proofs3 Dip_Proofs4 Dip_Proofs5 Dip_Proofs6 Dip_Proofs7 Dip_Proofs8 Dip_Props Remote_Proofs2 Remote_Proofs5.
Set Implicit Arguments.
Unset Strict Implicit.
Import GRing.Theory.
Local Open Scope ring_scope.
Delimit Scope R_scope with Re.

(** the contribution of the order m at leading order: only m = 0 and m = 1 have one *)
Definition leading (s t : R) (m : nat) (x : R) : R := match m with 0 => dip0 s x | 1 => dip1 s t x | _ => 0%Re end.
Lemma leading_far pe pm pe' pm' m x : far_value pe pm pe' pm' (Z.of_nat m) x = leading (pe * pe' + pm * pm') (pe * pm' + pm * pe') m x.
Proof. by rewrite /far_value Nat2Z.id; case: m => [|[|m]]. Qed.

(** ** sums over the orders *)
Lemma rsum_div (f : nat -> R) (d : R) M : rsum (fun m => f m / d)%Re M = (rsum f M / d)%Re.
Proof.
rewrite /rsum; have -> : Rsum (List.map (fun m => f m / d)%Re (List.seq 1 M)) = (Rsum (List.map f (List.seq 1 M)) / d)%Re; last by rewrite /Rdiv; ring.
elim: (List.seq 1 M) => [|a l IH]; first by rewrite /Rsum /= /Rdiv Rmult_0_l.
by move: IH; rewrite /Rsum /= => ->; rewrite /Rdiv; ring.
Qed.
Lemma rsum_leading s t x M : (1 <= M)%coq_nat -> rsum (fun m => leading s t m x) M = dip s t x.
Proof.
move=> hM; rewrite /rsum /dip; have -> : Rsum (List.map (fun m => leading s t m x) (List.seq 1 M)) = dip1 s t x => //.
case: M hM => [|M _]; first lia.
have -> : List.seq 1 M.+1 = (1%N :: List.seq 2 M)%list by [].
rewrite /Rsum [List.map _ _]/= [LHS]/=; have -> : List.fold_right Rplus 0%Re (List.map (fun m => leading s t m x) (List.seq 2 M)) = 0%Re; last by ring.
have : forall j, (2 <= j)%coq_nat -> List.fold_right Rplus 0%Re (List.map (fun m => leading s t m x) (List.seq j M)) = 0%Re; last by apply; lia.
elim: M => [|M IH] j hj //=; rewrite IH; last lia.
by case: j hj => [|[|j]] hj /=; [lia|lia|ring].
Qed.
Lemma rsum_near (f : nat -> R) s t x h M lm : (1 <= M)%coq_nat -> (M <= lm)%coq_nat -> (forall m, (m <= M)%coq_nat -> (Rabs (f m + leading s t m x) <= h)%Re) ->
  (Rabs (rsum f M + dip s t x) <= (2 * INR lm + 1) * h)%Re.
Proof.
move=> h1 h2 H; rewrite -(rsum_leading s t x h1) /rsum.
have H0 := H 0%N (Nat.le_0_l M); have hh : (0 <= h)%Re by apply: Rle_trans H0; exact: Rabs_pos.
have S := @sum_close f (fun m => leading s t m x) h M (fun j hj => H j (proj2 hj)).
have hl : (INR M * h <= INR lm * h)%Re by apply: Rmult_le_compat_r => //; apply: le_INR.
move: S H0; set A := Rsum _; set B := Rsum _; set u := leading s t 0 x => S H0.
have -> : (f 0%N + 2 * A + (u + 2 * B) = (f 0%N + u) + 2 * (A + B))%Re by ring.
apply: Rle_trans; first exact: Rabs_triang.
by rewrite Rabs_mult (Rabs_pos_eq 2); lra.
Qed.
Lemma stops_ge precision lm f ks M k x : (1 <= lm)%coq_nat -> stops_at precision lm f ks M -> List.In k ks -> f 0%N k = Fin x -> x <> 0%Re -> (1 <= M)%coq_nat /\ (M <= lm)%coq_nat.
Proof.
move=> hl [hM [_ hS]] hin hf hx; split; last exact hM.
case: (PeanoNat.Nat.eq_dec M 0) => [h0|]; last lia.
have hS' : (M < lm)%coq_nat by lia.
exfalso; case: (hS hS') => [Z|[Z _]]; last lia.
have [i [Hi Ei]] := List.In_nth _ _ 0%Re hin.
have := Z i Hi; rewrite h0 (List.nth_indep _ NaN (msum (fun m => f m 0%Re) 0)); last by rewrite List.map_length.
rewrite (List.map_nth (fun k => msum (fun m => f m k) 0)) Ei /msum /weighted /= hf => [[E]].
exact: hx.
Qed.
Lemma stops_ge_k0 precision lm f M : (1 <= lm)%coq_nat -> stops_at_k0 precision lm f M -> (1 <= M)%coq_nat /\ (M <= lm)%coq_nat.
Proof.
move=> hl [hM [_ hS]]; split; last exact hM.
case: (PeanoNat.Nat.eq_dec M 0) => [h0|]; last lia.
by have hS' : (M < lm)%coq_nat by [lia]; have [h _] := hS hS'; lia.
Qed.
Lemma far_orders (P : nat -> R -> Prop) N : (forall m, (m <= N)%coq_nat -> exists L0, (0 < L0)%Re /\ forall L, (L0 <= L)%Re -> P m L) ->
  exists L0, (0 < L0)%Re /\ forall L, (L0 <= L)%Re -> forall m, (m <= N)%coq_nat -> P m L.
Proof.
move=> H; have [|L0 [p0 h]] := @far_all (fun n => P n.-1) N.+1.
  by move=> n [h1 h2]; apply: H; lia.
exists L0; split; first exact p0.
by move=> L hL m hm; apply: (h L hL m.+1); lia.
Qed.

Lemma pick_upto (P : nat -> R -> Prop) N : (forall m, (m <= N)%coq_nat -> exists D, P m D) -> exists f : nat -> R, forall m, (m <= N)%coq_nat -> P m (f m).
Proof.
elim: N => [|N IH] H.
  have [D h] := H 0%N (le_n 0); exists (fun _ => D) => m hm; have -> : m = 0%N by lia.
  exact h.
have [f hf] := IH (fun m hm => H m (le_S _ _ hm)); have [D h] := H N.+1 (le_n _).
exists (fun m => if PeanoNat.Nat.eqb m N.+1 then D else f m) => m hm.
case E : (PeanoNat.Nat.eqb m N.+1); first by move/PeanoNat.Nat.eqb_eq: E => ->.
by move/PeanoNat.Nat.eqb_neq: E => E; apply: hf; lia.
Qed.

(** ** large distances *)
Section Far.
Context (mieb : list R -> nat -> Z -> res (list (list R) * list (list R))) (c : RT_Model.config) (m1 m2 : material) (ra rb : R) (e : list osc) (b : bprops) (pe pm pe' pm' : R).
Context (hmb : mieb = mie_bessels \/ mieb = exact_bessels) (HC : two_spheres c m1 m2 ra rb e b) (P1 : polarizability e b m1 pe pm) (P2 : polarizability e b m2 pe' pm').
Context (hx : c_ext c = true) (hmu : mu_val b 0 = 1%Re) (hl : (1 <= c_lmax c)%coq_nat) (hs : (c_lmax c <= c_lssmax c)%coq_nat).
Local Notation s := (pe * pe' + pm * pm')%Re.
Local Notation t := (pe * pm' + pm * pe')%Re.
Local Notation n0 := (sqrt (eps_spec e 0)).
Local Notation dm := (leading s t).

(** all determinants of a calculation at once *)
Lemma far_frequency y eps : (0 < y)%Re -> (0 < eps)%Re -> exists L0, (0 < L0)%Re /\ forall L, (L0 <= L)%Re -> forall m, (m <= c_lmax c)%coq_nat ->
  let D := \det (1%:M - trip mieb (at_distance c L) (Z.of_nat m) (y / L)%Re) in (0 < D)%Re /\ (Rabs (ln D / (ra * rb / L ^ 2) ^ 3 + dm m (y * n0)) < eps)%Re.
Proof.
move=> hy he; have [I [d hI]] := good_both hmb.
apply: (@far_orders (fun m L => let D := \det (1%:M - trip mieb (at_distance c L) (Z.of_nat m) (y / L)%Re) in (0 < D)%Re /\ (Rabs (ln D / (ra * rb / L ^ 2) ^ 3 + dm m (y * n0)) < eps)%Re)).
move=> m hm; rewrite -leading_far.
apply: (@all_freq mieb I d hI c m1 m2 ra rb e b HC pe pm pe' pm' P1 P2 hmu hx (Z.of_nat m) y eps) => //; first lia; first by rewrite Nat2Z.id.
by lia.
Qed.
Lemma far_zero eps : (0 < eps)%Re -> exists L0, (0 < L0)%Re /\ forall L, (L0 <= L)%Re -> forall m, (m <= c_lmax c)%coq_nat ->
  exists D, [/\ limit0 (fun k => \det (1%:M - trip mie_bessels (at_distance c L) (Z.of_nat m) k)) D, (0 < D)%Re & (Rabs (ln D / (ra * rb / L ^ 2) ^ 3 + dm m 0) < eps)%Re].
Proof.
move=> he.
apply: (@far_orders (fun m L => exists D, [/\ limit0 (fun k => \det (1%:M - trip mie_bessels (at_distance c L) (Z.of_nat m) k)) D, (0 < D)%Re & (Rabs (ln D / (ra * rb / L ^ 2) ^ 3 + dm m 0) < eps)%Re])).
move=> m hm; rewrite -leading_far.
apply: (@all_static c m1 m2 ra rb e b HC pe pm pe' pm' P1 P2 hmu hx (pol_static P1) (pol_static P2) (Z.of_nat m) eps) => //.
by rewrite /some_orders; lia.
Qed.
Definition near (nu h : R) (L : R) (n : nat) : Prop :=
  let D m := \det (1%:M - trip mieb (at_distance c L) (Z.of_nat m) (nu / L * INR n)%Re) in
  (forall m, (m <= c_lmax c)%coq_nat -> (0 < D m)%Re /\ (Rabs (ln (D m) / (ra * rb / L ^ 2) ^ 3 + dm m (nu * INR n * n0)) < h)%Re) /\ ln (D 0%N) <> 0%Re.
Lemma near_all nu h N : (0 < nu)%Re -> (0 < h)%Re -> s <> 0%Re -> exists L0, (0 < L0)%Re /\ forall L, (L0 <= L)%Re -> forall n, (1 <= n)%coq_nat /\ (n <= N)%coq_nat -> near nu h L n.
Proof.
move=> hn hh h0.
apply: (far_all (fun n L => near nu h L n)) => n hn1.
have hy : (0 < nu * INR n)%Re by apply: Rmult_lt_0_compat => //; apply: lt_0_INR; lia.
have he0 : (0 < Rmin h (Rabs (dm 0%N (nu * INR n * n0))))%Re by apply: Rmin_glb_lt => //; apply: Rabs_pos_lt; exact: (@dip0_nz e pe pm pe' pm' _ hy h0).
have [L1 [p1 h1]] := far_frequency hy he0.
exists L1; split; first exact p1.
move=> L hL; rewrite /near; have E : (nu / L * INR n = nu * INR n / L)%Re by rewrite /Rdiv; ring.
have r1 := Rmin_l h (Rabs (dm 0%N (nu * INR n * n0))); have r2 := Rmin_r h (Rabs (dm 0%N (nu * INR n * n0))).
rewrite E; split.
- by move=> m hm; have [q1 q2] := h1 L hL m hm; split; [exact q1|lra].
- have [q1 q2] := h1 L hL 0%N (Nat.le_0_l _); move=> hz; move: q2; rewrite hz /Rdiv Rmult_0_l Rplus_0_l => q2; lra.
Qed.

Lemma far_free_energy precision conv nu tau nmax eps : s <> 0%Re -> (conv < 1)%Re -> (0 < nu)%Re -> (0 < eps)%Re ->
  exists L0, (0 < L0)%Re /\ forall L, (L0 <= L)%Re -> forall td, ready mieb (at_distance c L) td nmax -> t_deltaT td = (nu / L)%Re -> t_Tmax td = (tau / L)%Re -> t_analytic td = true ->
  exists Nf, forall fuel, (Nf <= fuel)%N -> forall unk garbage empty, exists td' F,
    [/\ free_energy (ops unk fuel mieb trans_bessels (at_distance c L) precision conv false garbage) empty td = (td', Ok F), List.length F = Z.to_nat (pyround (tau / nu)) &
        forall i : nat, (i < List.length F)%coq_nat -> exists x, List.nth_error F i = Some x /\
          (Rabs (L * x / (ra * rb / L ^ 2) ^ 3 + dip_sum (dip s t) (INR i.+1 * nu * n0) (PeanoNat.Nat.div nmax i.+1) / n0) < eps)%Re].
Proof.
move=> h0 hc hnu he; have [I [d hI]] := good_both hmb; have [I0 [d0' hI0]] := good_both (or_introl (erefl mie_bessels)).
have [c1e [c2e [cme [pa [pb _]]]]] := HC.
have S1 := pol_static P1; have S2 := pol_static P2.
have hn0 : (0 < n0)%Re.
  have [_ [_ [_ [hb _]]]] := @insulator_flags _ _ _ cme; have [_ [HP [HN _]]] := cme.
  by have [_ [_ [_ [p _]]]] := @insulator_arg e b 1%Re Rlt_0_1 HP HN hb; exact: sqrt_lt_R0.
pose K := Z.to_nat (pyround (tau / nu)).
pose Q := (2 * INR (c_lmax c) + 1)%Re.
pose h := (eps / (Q * ((INR K + 1) * nu * (INR nmax + 2))))%Re.
have pQ : (0 < Q)%Re by rewrite /Q; have := pos_INR (c_lmax c); lra.
have pK := pos_INR K; have pN := pos_INR nmax.
have pden : (0 < Q * ((INR K + 1) * nu * (INR nmax + 2)))%Re.
  by apply: Rmult_lt_0_compat; [lra|apply: Rmult_lt_0_compat; [apply: Rmult_lt_0_compat; lra|lra]].
have hh : (0 < h)%Re by apply: Rdiv_lt_0_compat.
have [L1 [p1 H1]] := @near_all nu h nmax hnu hh h0.
have [L2 [p2 H2]] := far_zero hh.
have [k0 [pk0 Hk0]] := code_small _ _ _ _ _ _ _ HC S1 S2 hx.
pose L4 := (nu * (INR nmax + 1) / k0)%Re.
have p4 : (0 < L4)%Re by apply: Rdiv_lt_0_compat => //; apply: Rmult_lt_0_compat; lra.
exists (L1 + L2 + L4)%Re; split; first lra.
move=> L hL td hR hdT hTm hA.
have pL : (0 < L)%Re by lra.
have HL : two_spheres (at_distance c L) m1 m2 ra rb e b by exact: (conj c1e (conj c2e (conj cme (conj pa (conj pb pL))))).
have hxA : c_ext (at_distance c L) = true by [].
have hL1 : (L1 <= L)%Re by lra.
have hL2 : (L2 <= L)%Re by lra.
have Hn := H1 L hL1.
have [dd hdd] : exists dd : nat -> R, forall m, (m <= c_lmax c)%coq_nat -> [/\ limit0 (fun k => \det (1%:M - trip mie_bessels (at_distance c L) (Z.of_nat m) k)) (dd m), (0 < dd m)%Re & (Rabs (ln (dd m) / (ra * rb / L ^ 2) ^ 3 + dm m 0) < h)%Re].
  exact: (@pick_upto (fun m D => [/\ limit0 (fun k => \det (1%:M - trip mie_bessels (at_distance c L) (Z.of_nat m) k)) D, (0 < D)%Re & (Rabs (ln D / (ra * rb / L ^ 2) ^ 3 + dm m 0) < h)%Re]) _ (H2 L hL2)).
have hd m : (m <= c_lmax (at_distance c L))%coq_nat -> limit0 (fun k => \det (1%:M - trip mie_bessels (at_distance c L) (Z.of_nat m) k)) (dd m) /\ (0 < dd m)%Re.
  by move=> hm; have [u1 u2 _] := hdd m hm; exact: (conj u1 u2).
have hel q : freqs (t_deltaT td) nmax q <> nil -> elementwise_at mieb (at_distance c L) (freqs (t_deltaT td) nmax q).
  move=> hne; case: hmb => ->; last exact: (exact_at _ _ (trans_at_ext _ _ hxA)).
  have [|g1 g2] := Hk0 _ hne; last by split; [exact: g1|left].
  move=> k /(freqs_in _ _ _ _) [n [[hn1 hn2] ->]]; rewrite hdT.
  have pn : (0 < INR n)%Re by apply: lt_0_INR; lia.
  have qn : (INR n <= INR nmax)%Re by apply: le_INR.
  split; first by apply: Rmult_lt_0_compat => //; apply: Rdiv_lt_0_compat.
  apply: (Rmult_le_reg_r L) => //; have -> : (nu / L * INR n * L = nu * INR n)%Re by field; lra.
  have hl4 : (L4 <= L)%Re by lra.
  have : (L4 * k0 <= L * k0)%Re by apply: Rmult_le_compat_r; lra.
  have -> : (L4 * k0 = nu * (INR nmax + 1))%Re by rewrite /L4; field; lra.
  move=> hq; have : (nu * INR n <= nu * (INR nmax + 1))%Re by apply: Rmult_le_compat_l; lra.
  by lra.
have hreg n m : (1 <= n)%coq_nat /\ (n <= nmax)%coq_nat -> (m <= c_lmax (at_distance c L))%coq_nat -> \det (1%:M - trip mieb (at_distance c L) (Z.of_nat m) (t_deltaT td * INR n)%Re) <> 0.
  rewrite hdT => hn hm; have [hq _] := Hn n hn; have [q _] := hq m hm.
  by move: q; set DD := \det _ => q hz; rewrite hz in q; exact: (Rlt_irrefl _ q).
have [cut0 [cut [Nf [hc0 hcut hN]]]] := @C66_free_energy mieb (at_distance c L) m1 m2 ra rb e b precision conv dd td nmax HL S1 S2 hxA hmu hl hs hc hR hA hel hd hreg.
have [E0 E0'] : (1 <= cut0)%coq_nat /\ (cut0 <= c_lmax c)%coq_nat by exact: (@stops_ge_k0 _ _ _ _ hl hc0).
have E1 n : (1 <= n)%coq_nat /\ (n <= nmax)%coq_nat -> (1 <= cut (PeanoNat.Nat.div n 50))%coq_nat /\ (cut (PeanoNat.Nat.div n 50) <= c_lmax c)%coq_nat.
  move=> hn; have hin := freqs_has (t_deltaT td) nmax n hn.
  have hne : freqs (t_deltaT td) nmax (PeanoNat.Nat.div n 50) <> nil by move=> hz; rewrite hz in hin.
  have [q1 q3] := Hn n hn; have [q _] := q1 0%N (Nat.le_0_l _).
  apply: (@stops_ge _ _ _ _ _ _ (ln (Rabs (\det (1%:M - trip mieb (at_distance c L) (Z.of_nat 0) (t_deltaT td * INR n)%Re)))) hl (hcut _ hne) hin).
  - by apply: (@lnd_real mieb (at_distance c L) 0%N); apply: hreg => //; exact: Nat.le_0_l.
  - by rewrite hdT Rabs_pos_eq; [exact: q3|left; exact: q].
exists Nf => fuel hf unk garbage empty; have [td' [F [F1 _ F3 F4]]] := hN fuel hf unk garbage empty.
have FK : List.length F = K by rewrite F3 hdT hTm /K; congr (Z.to_nat (pyround _)); field; lra.
exists td', F; split=> // i hi.
have hi1 : (1 <= i.+1)%coq_nat /\ (i.+1 <= List.length F)%coq_nat by lia.
have si : (i.+1 - 1)%coq_nat = i by lia.
have := F4 _ hi1; rewrite si => ->; eexists; split; first reflexivity.
rewrite /sliced_sum hdT.
set N := PeanoNat.Nat.div nmax i.+1; set iR := INR i.+1; set del := ((ra * rb / L ^ 2) ^ 3)%Re.
have pi : (0 < iR)%Re by apply: lt_0_INR; lia.
have hiK : (iR <= INR K)%Re by apply: le_INR; lia.
have hNn : (INR N <= INR nmax)%Re by apply: le_INR; apply: PeanoNat.Nat.div_le_upper_bound; nia.
have pNN := pos_INR N.
have pdel : (0 < del)%Re by apply: pow_lt; apply: Rdiv_lt_0_compat; [exact: Rmult_lt_0_compat|exact: pow_lt].
set f := fun j : nat => rsum _ _.
pose f' j := (f j / del)%Re; pose g j := dip s t (INR j * (iR * nu * n0))%Re.
have hj j : (1 <= j)%coq_nat /\ (j <= N)%coq_nat -> (Rabs (f' j + g j) <= Q * h)%Re.
  move=> [hj1 hj2]; have hij : (1 <= Nat.mul i.+1 j)%coq_nat /\ (Nat.mul i.+1 j <= nmax)%coq_nat.
    have u1 := PeanoNat.Nat.mul_div_le nmax i.+1 (PeanoNat.Nat.neq_succ_0 i); rewrite -/N in u1.
    have u2 : (Nat.mul i.+1 j <= Nat.mul i.+1 N)%coq_nat by apply: PeanoNat.Nat.mul_le_mono_l.
    have u3 : (Nat.mul 1 1 <= Nat.mul i.+1 j)%coq_nat by apply: PeanoNat.Nat.mul_le_mono; lia.
    by split; lia.
  rewrite /f' /f /g -rsum_div; have [c1 c2] := E1 _ hij.
  have -> : (INR j * (INR i.+1 * (nu / L)) = nu / L * INR (Nat.mul i.+1 j))%Re by rewrite mult_INR; ring.
  have -> : (INR j * (iR * nu * n0) = nu * INR (Nat.mul i.+1 j) * n0)%Re by rewrite mult_INR /iR; ring.
  apply: (rsum_near c1 c2) => m hm; have hm' : (m <= c_lmax c)%coq_nat by lia.
  have [Hq _] := Hn _ hij; have [q1 q2] := Hq m hm'.
  by move: q1 q2; set A := \det _ => q1 q2; rewrite (Rabs_pos_eq A); [left; exact q2|left; exact q1].
have S0 := sum_close f' g (Q * h)%Re N hj.
have Sf : Rsum (List.map f' (List.seq 1 N)) = (Rsum (List.map f (List.seq 1 N)) / del)%Re.
  rewrite /f'; elim: (List.seq 1 N) => [|a l IH]; first by rewrite /Rsum /= /Rdiv Rmult_0_l.
  by move: IH; rewrite /Rsum /= => ->; rewrite /Rdiv; ring.
pose z := rsum (fun m => ln (dd m)) cut0.
have Z0 : (Rabs (z / del + dip s t 0) <= Q * h)%Re.
  rewrite /z -rsum_div; apply: (rsum_near E0 E0') => m hm; have hm' : (m <= c_lmax c)%coq_nat by lia.
  by have [_ _ u] := hdd m hm'; left; exact u.
have pQh : (0 < Q * h)%Re by apply: Rmult_lt_0_compat.
rewrite -/z.
rewrite /dip_sum -(Rsum_from1 g) -/iR.
have -> : (L * (iR * (nu / L) * (z / 2 + Rsum (List.map f (List.seq 1 N)))) / del + iR * nu * n0 * (dip s t 0 / 2 + Rsum (List.map g (List.seq 1 N))) / n0
   = iR * nu * ((z / del + dip s t 0) / 2 + (Rsum (List.map f' (List.seq 1 N)) + Rsum (List.map g (List.seq 1 N)))))%Re.
  by rewrite Sf; field; repeat split; lra.
have piv : (0 < iR * nu)%Re by apply: Rmult_lt_0_compat.
rewrite Rabs_mult (Rabs_pos_eq (iR * nu)); last lra.
set U := (_ / 2 + _)%Re.
have hU : (Rabs U <= Q * h * (INR nmax + 1))%Re.
  rewrite /U; apply: Rle_trans; first exact: Rabs_triang.
  have b1 : (INR N * (Q * h) <= INR nmax * (Q * h))%Re by apply: Rmult_le_compat_r; lra.
  by rewrite /Rdiv Rabs_mult (Rabs_pos_eq (/ 2)); lra.
apply: (@Rle_lt_trans _ ((INR K + 1) * nu * (Q * h * (INR nmax + 1)))%Re).
  apply: Rmult_le_compat => //; [lra|exact: Rabs_pos|].
  by apply: Rmult_le_compat_r; lra.
have -> : eps = ((INR K + 1) * nu * (Q * h * (INR nmax + 2)))%Re.
  by rewrite /h; field; repeat split; lra.
apply: Rmult_lt_compat_l; first by apply: Rmult_lt_0_compat; lra.
by apply: Rmult_lt_compat_l; lra.
Qed.
End Far.

Theorem C97_far_frequency : forall mieb c m1 m2 ra rb e b pe pm pe' pm' (y eps : R), mieb = mie_bessels \/ mieb = exact_bessels -> two_spheres c m1 m2 ra rb e b ->
  polarizability e b m1 pe pm -> polarizability e b m2 pe' pm' -> c_ext c = true -> mu_val b 0 = 1%Re -> (1 <= c_lmax c)%coq_nat -> (c_lmax c <= c_lssmax c)%coq_nat -> (0 < y)%Re -> (0 < eps)%Re ->
  exists L0, (0 < L0)%Re /\ forall L, (L0 <= L)%Re -> forall m, (m <= c_lmax c)%coq_nat -> let D := \det (1%:M - trip mieb (at_distance c L) (Z.of_nat m) (y / L)%Re) in
    (0 < D)%Re /\ (Rabs (ln D / (ra * rb / L ^ 2) ^ 3 + leading (pe * pe' + pm * pm') (pe * pm' + pm * pe') m (y * sqrt (eps_spec e 0))) < eps)%Re.
Proof. by move=> mieb c m1 m2 ra rb e b pe pm pe' pm' y eps hmb HC P1 P2 hx hmu hl hs hy he; exact: (@far_frequency mieb c m1 m2 ra rb e b pe pm pe' pm' hmb HC P1 P2 hx hmu hl hs y eps hy he). Qed.
Theorem C97_far_static : forall c m1 m2 ra rb e b pe pm pe' pm' (eps : R), two_spheres c m1 m2 ra rb e b ->
  polarizability e b m1 pe pm -> polarizability e b m2 pe' pm' -> c_ext c = true -> mu_val b 0 = 1%Re -> (1 <= c_lmax c)%coq_nat -> (c_lmax c <= c_lssmax c)%coq_nat -> (0 < eps)%Re ->
  exists L0, (0 < L0)%Re /\ forall L, (L0 <= L)%Re -> forall m, (m <= c_lmax c)%coq_nat ->
    exists D, [/\ limit0 (fun k => \det (1%:M - trip mie_bessels (at_distance c L) (Z.of_nat m) k)) D, (0 < D)%Re &
      (Rabs (ln D / (ra * rb / L ^ 2) ^ 3 + match m with 0 => 4 * (pe * pe' + pm * pm') | 1 => pe * pe' + pm * pm' | _ => 0 end) < eps)%Re].
Proof.
move=> c m1 m2 ra rb e b pe pm pe' pm' eps HC P1 P2 hx hmu hl hs he.
have [L0 [p0 h]] := @far_zero c m1 m2 ra rb e b pe pm pe' pm' HC P1 P2 hx hmu hl hs eps he.
exists L0; split; first exact p0.
move=> L hL m hm; have [D [d1 d2 d3]] := h L hL m hm; exists D; split; [exact d1|exact d2|].
have e0 : exp (- (2 * 0))%Re = 1%Re by rewrite Rmult_0_r Ropp_0 exp_0.
move: d3; case: m {hm d1} => [|[|m]]; rewrite /leading /dip0 /dip1 ?e0; congr (Rabs (_ + _) < _)%Re; ring.
Qed.
Theorem C97_free_energy : forall mieb c m1 m2 ra rb e b pe pm pe' pm' (precision conv nu tau eps : R) nmax, mieb = mie_bessels \/ mieb = exact_bessels -> two_spheres c m1 m2 ra rb e b ->
  polarizability e b m1 pe pm -> polarizability e b m2 pe' pm' -> c_ext c = true -> mu_val b 0 = 1%Re -> (1 <= c_lmax c)%coq_nat -> (c_lmax c <= c_lssmax c)%coq_nat ->
  (pe * pe' + pm * pm' <> 0)%Re -> (conv < 1)%Re -> (0 < nu)%Re -> (0 < eps)%Re -> let n0 := sqrt (eps_spec e 0) in
  exists L0, (0 < L0)%Re /\ forall L, (L0 <= L)%Re -> forall td, ready mieb (at_distance c L) td nmax -> t_deltaT td = (nu / L)%Re -> t_Tmax td = (tau / L)%Re -> t_analytic td = true ->
  exists Nf, forall fuel, (Nf <= fuel)%N -> forall unk garbage empty, exists td' F,
    [/\ free_energy (ops unk fuel mieb trans_bessels (at_distance c L) precision conv false garbage) empty td = (td', Ok F), List.length F = Z.to_nat (pyround (tau / nu)) &
        forall i : nat, (i < List.length F)%coq_nat -> exists x, List.nth_error F i = Some x /\
          (Rabs (L * x / (ra * rb / L ^ 2) ^ 3 + dip_sum (dip (pe * pe' + pm * pm') (pe * pm' + pm * pe')) (INR i.+1 * nu * n0) (PeanoNat.Nat.div nmax i.+1) / n0) < eps)%Re].
Proof. by move=> mieb c m1 m2 ra rb e b pe pm pe' pm' precision conv nu tau eps nmax hmb HC P1 P2 hx hmu hl hs h0 hc hn he n0; exact: (@far_free_energy mieb c m1 m2 ra rb e b pe pm pe' pm' hmb HC P1 P2 hx hmu hl hs precision conv nu tau nmax eps). Qed.

(** ** perfect reflectors in vacuum: the analytic result of the functional test *)
Theorem C97_mirrors : forall mieb c ra rb e b (precision conv nu tau eps : R), mieb = mie_bessels \/ mieb = exact_bessels -> two_spheres c PEC PEC ra rb e b ->
  c_ext c = true -> mu_val b 0 = 1%Re -> eps_spec e 0 = 1%Re -> (1 <= c_lmax c)%coq_nat -> (c_lmax c <= c_lssmax c)%coq_nat -> (conv < 1)%Re -> (0 < nu)%Re -> (0 < eps)%Re ->
  exists N0, forall nmax, (N0 <= nmax)%coq_nat ->
  exists L0, (0 < L0)%Re /\ forall L, (L0 <= L)%Re -> forall td, ready mieb (at_distance c L) td nmax -> t_deltaT td = (nu / L)%Re -> t_Tmax td = (tau / L)%Re -> t_analytic td = true ->
  exists Nf, forall fuel, (Nf <= fuel)%N -> forall unk garbage empty, exists td' F,
    [/\ free_energy (ops unk fuel mieb trans_bessels (at_distance c L) precision conv false garbage) empty td = (td', Ok F), List.length F = Z.to_nat (pyround (tau / nu)) &
        forall i : nat, (i < List.length F)%coq_nat -> exists x, List.nth_error F i = Some x /\ (Rabs (x / (- (ra * rb / L ^ 2) ^ 3 / L) - far_analytic (INR i.+1 * nu)) < eps)%Re].
Proof.
move=> mieb c ra rb e b precision conv nu tau eps hmb HC hx hmu he0 hl hs hc hnu he.
have he2 : (0 < eps / 2)%Re by lra.
have [N0 hN0] := @sum_uniform (5 / 4)%Re (-1)%Re nu 1%Re (eps / 2)%Re (Z.to_nat (pyround (tau / nu))) hnu Rlt_0_1 he2.
exists N0 => nmax hnm.
have h0 : (1 * 1 + - / 2 * - / 2 <> 0)%Re by lra.
have [L0 [p0 h]] := @C97_free_energy mieb c PEC PEC ra rb e b _ _ _ _ precision conv nu tau (eps / 2)%Re nmax hmb HC (pol_pec e b) (pol_pec e b) hx hmu hl hs h0 hc hnu he2.
have [_ [_ [_ [pa [pb _]]]]] := HC.
exists L0; split=> // L hL td hR hdT hTm hA; have [Nf hN] := h L hL td hR hdT hTm hA.
exists Nf => fuel hf unk garbage empty; have [td' [F [F1 F2 F3]]] := hN fuel hf unk garbage empty; exists td', F; split=> // i hi.
have [x [X1 X2]] := F3 i hi; exists x; split=> //.
have pL : (0 < L)%Re by lra.
have pd : (0 < (ra * rb / L ^ 2) ^ 3)%Re by apply: pow_lt; apply: Rdiv_lt_0_compat; [exact: Rmult_lt_0_compat|exact: pow_lt].
have hi' : (i < Z.to_nat (pyround (tau / nu)))%coq_nat by rewrite -F2.
have := hN0 nmax hnm i hi'; move: X2; rewrite he0 sqrt_1 !Rmult_1_r Rdiv_1 -far_closed_mirrors.
have -> : (1 + - / 2 * - / 2 = 5 / 4)%Re by field.
have -> : (1 * - / 2 + - / 2 = -1)%Re by field.
move: pd; set dd := ((ra * rb / L ^ 2) ^ 3)%Re => pd; set S := dip_sum _ _ _ => X2 X3.
have -> : (x / (- dd / L) - far_closed (5 / 4) (-1) (INR i.+1 * nu) = - (L * x / dd + S) + (S - far_closed (5 / 4) (-1) (INR i.+1 * nu)))%Re by field; split; lra.
apply: Rle_lt_trans; first exact: Rabs_triang.
by rewrite Rabs_Ropp; lra.
Qed.

(** non-vacuity: the configuration of the functional test with more orders *)
Definition remote_config : RT_Model.config :=
  {| c_1 := Solid PEC 0.9%Re; c_2 := Solid PEC 0.6%Re; c_med := Lorentz nil None; c_L := 40%Re; c_lmax := 5%N; c_lssmax := 7%N; c_ext := true; c_mat := fun _ => PEC |}.
Example C97_example : two_spheres remote_config PEC PEC 0.9%Re 0.6%Re nil None /\ (1 <= c_lmax remote_config)%coq_nat /\ (c_lmax remote_config <= c_lssmax remote_config)%coq_nat.
Proof.
split; last by split; apply/leP.
split; first by []. split; first by [].
split; first by split; [by []|split; [constructor|split; [by []|by []]]].
split; first by rewrite /=; lra. split; rewrite /=; lra.
Qed.
Example C97_functional_test : exists N0, forall nmax, (N0 <= nmax)%coq_nat -> exists L0, (0 < L0)%Re /\ forall L, (L0 <= L)%Re -> exists Nf, forall fuel, (Nf <= fuel)%N -> forall unk garbage empty, exists td' F,
  [/\ free_energy (ops unk fuel mie_bessels trans_bessels (at_distance remote_config L) 1e-5 1e-10 false garbage) empty (task (0.4 / L) (40 / L) nmax true) = (td', Ok F), List.length F = 100%N &
      forall i : nat, (i < List.length F)%coq_nat -> exists x, List.nth_error F i = Some x /\ (Rabs (x / (- (0.9 * 0.6 / L ^ 2) ^ 3 / L) - far_analytic (INR i.+1 * 0.4)) < 1e-4)%Re].
Proof.
have [HC [hl hs]] := C97_example; have [_ [_ [hmu [he _]]]] := C93_example.
have q1 : (1e-10 < 1)%Re by lra.
have q2 : (0 < 0.4)%Re by lra.
have q3 : (0 < 1e-4)%Re by lra.
have E4 : (40 / 0.4)%Re = IZR 100 by lra.
have E : Z.to_nat (pyround (40 / 0.4)) = 100%N by rewrite E4 pyround_IZR.
have [N0 h] := @C97_mirrors mie_bessels remote_config _ _ _ _ 1e-5%Re 1e-10%Re 0.4%Re 40%Re 1e-4%Re (or_introl erefl) HC erefl hmu he hl hs q1 q2 q3.
exists N0 => nmax hn; have [L0 [p0 hL]] := h nmax hn; exists L0; split; first exact p0.
move=> L hL'; rewrite -E; apply: (hL L hL') => //.
by apply: task_ready; apply: Rdiv_lt_0_compat; lra.
Qed.
Print Assumptions C97_far_frequency.
Print Assumptions C97_far_static.
Print Assumptions C97_free_energy.
Print Assumptions C97_mirrors.
