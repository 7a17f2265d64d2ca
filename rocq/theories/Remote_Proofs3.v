(** * Logarithms of determinants at large distances *)
From Coq Require Import Reals.
From Coq Require Import List Lia Lra ZArith.
From mathcomp Require Import all_ssreflect ssralg fingroup perm matrix mxalgebra poly mxpoly.
From Verif Require Import Base RStruct Mat_Model Mat_Spec Mat_Proofs Bessel_Model Scat_Model Scat_Spec Scat_Proofs Scat_Proofs7 Scat_Proofs8 Scat_Proofs9 Trans_Model Trans_Spec Trans_Proofs3 Lin_Model Lin_Spec Lin_Proofs Trip_Proofs
  RT_Model RT_Spec RT_Spec2 RT_Proofs RT_Proofs2 RT_Proofs4 RT_Proofs14 RT_Props2 Far_Proofs Far_Props Dip_Spec Dip_Proofs2 Dip_Proofs4 Remote_Proofs Remote_Proofs2.
Set Implicit Arguments.
Unset Strict Implicit.
Import GRing.Theory.
Local Open Scope ring_scope.
Delimit Scope R_scope with Re.

Lemma family n (Q : 'I_n -> R -> R -> Prop) : (forall i r C r' C', Q i r C -> (r' <= r)%Re -> (C <= C')%Re -> Q i r' C') ->
  (forall i, exists r C, (0 < r)%Re /\ (0 <= C)%Re /\ Q i r C) -> exists r C, (0 < r)%Re /\ (0 <= C)%Re /\ forall i, Q i r C.
Proof.
elim: n Q => [|n IH] Q mono h; first by exists 1%Re, 0%Re; split; [lra|split; [lra|case]].
have [r [C [h1 [h2 h3]]]] := IH (fun i => Q (lift ord0 i)) (fun i => mono _) (fun i => h _).
have [r' [C' [g1 [g2 g3]]]] := h ord0.
have a1 := Rmin_l r r'; have a2 := Rmin_r r r'; have b1 := Rmax_l C C'; have b2 := Rmax_r C C'.
exists (Rmin r r'), (Rmax C C'); split; first exact: Rmin_glb_lt.
split; first lra.
by move=> i; case: (unliftP ord0 i) => [j ->|->]; [exact: mono (h3 j) _ _|exact: mono g3 _ _].
Qed.
Lemma bnd_all n (f : 'I_n -> 'I_n -> R -> R) : (forall i j, bnd (f i j)) -> exists r C, (0 < r)%Re /\ (0 <= C)%Re /\ forall i j k, (0 < k <= r)%Re -> (Rabs (f i j k) <= C)%Re.
Proof.
move=> h; apply: (@family n (fun i r C => forall j k, (0 < k <= r)%Re -> (Rabs (f i j k) <= C)%Re)).
  by move=> i r C r' C' g hr hC j k hk; apply: Rle_trans hC; apply: g; lra.
move=> i; apply: (@family n (fun j r C => forall k, (0 < k <= r)%Re -> (Rabs (f i j k) <= C)%Re)).
  by move=> j r C r' C' g hr hC k hk; apply: Rle_trans hC; apply: g; lra.
by move=> j; have [r [C [h1 [h2 h3]]]] := h i j; exists r, C.
Qed.
Lemma cube_small r y d0 : (0 < r)%Re -> (0 < y)%Re -> (0 < d0)%Re -> exists k0, (0 < k0)%Re /\ forall k, (0 < k <= k0)%Re -> (0 < (r / (y / k) ^ 2) ^ 3 <= d0)%Re.
Proof.
move=> hr hy hd.
have py : (0 < y ^ 2)%Re by apply: pow_lt.
have L : lim0 (fun k => (r / (y / k) ^ 2) ^ 3)%Re 0%Re.
  apply: (@lim0_ext (fun k => (r / y ^ 2 * k ^ 2) ^ 3)%Re); first by move=> k hk; field; split; lra.
  apply: (@lim0_eq _ ((r / y ^ 2 * 0 ^ 2) ^ 3)%Re); first by ring.
  by apply: lim0_pow; apply: lim0_mult; [exact: lim0_const|apply: lim0_pow; exact: lim0_id].
have [k0 [p0 h]] := lim0_close _ _ _ L hd.
exists k0; split=> // k hk; have hk0 : (0 < y / k)%Re by apply: Rdiv_lt_0_compat; lra.
have p : (0 < (r / (y / k) ^ 2) ^ 3)%Re by apply: pow_lt; apply: Rdiv_lt_0_compat => //; apply: pow_lt.
split=> //; have := h k hk; rewrite Rminus_0_r Rabs_pos_eq; lra.
Qed.
Lemma far_ln_det n (M : R -> 'M[R]_n) (y r v : R) : (0 < y)%Re -> (0 < r)%Re ->
  (forall i j, bnd (fun k => M k i j / (r / (y / k) ^ 2) ^ 3)%Re) -> lim0 (fun k => \tr (M k) / (r / (y / k) ^ 2) ^ 3)%Re v -> forall eps, (0 < eps)%Re ->
  exists L0, (0 < L0)%Re /\ forall L, (L0 <= L)%Re -> let D := \det (1%:M - M (y / L)%Re) in (0 < D)%Re /\ (Rabs (ln D / (r / L ^ 2) ^ 3 + v) < eps)%Re.
Proof.
move=> hy hr hb ht eps he.
have [r0 [C [p0 [pC hC]]]] := bnd_all hb.
have [K [pK hK]] := @det_first n C pC.
have pA : (0 < Rabs v + 1 + K)%Re by have := Rabs_pos v; lra.
have he2 : (0 < eps / 2)%Re by lra.
have [d0 [pd hd]] := @ln_dipole _ pA _ he2.
have hm : (0 < Rmin 1 d0)%Re by apply: Rmin_glb_lt; lra.
have [k1 [pk1 h1]] := cube_small hr hy hm.
have hm2 : (0 < Rmin 1 (eps / 2))%Re by apply: Rmin_glb_lt; lra.
have [k2 [pk2 h2]] := lim0_close _ _ _ ht hm2.
pose k0 := Rmin r0 (Rmin k1 k2).
have pk0 : (0 < k0)%Re by apply: Rmin_glb_lt => //; apply: Rmin_glb_lt.
have a1 : (k0 <= r0)%Re by exact: Rmin_l.
have a2 : (k0 <= k1)%Re by apply: Rle_trans (Rmin_r _ _) (Rmin_l _ _).
have a3 : (k0 <= k2)%Re by apply: Rle_trans (Rmin_r _ _) (Rmin_r _ _).
exists (y / k0)%Re; split; first exact: Rdiv_lt_0_compat.
move=> L hL D.
have pL : (0 < L)%Re by apply: Rlt_le_trans hL; exact: Rdiv_lt_0_compat.
have hk : (0 < y / L)%Re by exact: Rdiv_lt_0_compat.
have hk0 : (y / L <= k0)%Re.
  apply: (Rmult_le_reg_r L) => //; have -> : (y / L * L = y)%Re by field; lra.
  have : (y / k0 * k0 <= L * k0)%Re by apply: Rmult_le_compat_r; lra.
  by have -> : (y / k0 * k0 = y)%Re by [field; lra]; lra.
have E : (y / (y / L) = L)%Re by field; lra.
have g0 : (0 < y / L <= r0)%Re by lra.
have g1 : (0 < y / L <= k1)%Re by lra.
have g2 : (0 < y / L <= k2)%Re by lra.
have := h1 _ g1; have := h2 _ g2; have hCk i j := hC i j _ g0; move: hCk.
rewrite /D E; set d := ((r / L ^ 2) ^ 3)%Re => hCk hv hdd.
have b1 := Rmin_l 1 d0; have b2 := Rmin_r 1 d0; have b3 := Rmin_l 1 (eps / 2); have b4 := Rmin_r 1 (eps / 2).
have hd1 : (0 < d <= 1)%Re by lra.
pose E0 : 'M[R]_n := (/ d)%Re *: M (y / L)%Re.
have EM : M (y / L)%Re = d *: E0 by rewrite scalerA -RmultE Rinv_r ?scale1r //; lra.
have hE i j : (Rabs (E0 i j) <= C)%Re by rewrite mxE -RmultE Rmult_comm; exact: hCk.
have hX : \tr E0 = (\tr (M (y / L)%Re) / d)%Re by rewrite /E0 mxtraceZ -RmultE Rmult_comm.
have hF := hK d E0 hd1 hE; rewrite -EM in hF.
pose X : R := \tr E0; pose Y : R := ((\det (1%:M - M (y / L)%Re)%R - (1 - d * X)) / d ^ 2)%Re.
have pd2 : (0 < d ^ 2)%Re by apply: pow_lt; lra.
have hY : (Rabs Y <= K)%Re.
  rewrite /Y /Rdiv Rabs_mult (Rabs_pos_eq (/ d ^ 2)); last by left; exact: Rinv_0_lt_compat.
  apply: (Rmult_le_reg_r (d ^ 2)) => //; rewrite Rmult_assoc Rinv_l ?Rmult_1_r; [exact: hF|lra].
rewrite -hX -/X in hv.
have hX2 : (Rabs X <= Rabs v + 1 + K)%Re.
  have -> : X = (X - v + v)%Re by ring.
  by have := Rabs_triang (X - v) v; lra.
have hdd2 : (0 < d <= d0)%Re by lra.
have hY2 : (Rabs Y <= Rabs v + 1 + K)%Re by have := Rabs_pos v; lra.
have := hd d X Y hdd2 hX2 hY2.
have -> : (1 - d * X + d ^ 2 * Y)%Re = \det (1%:M - M (y / L)%Re).
  by rewrite /Y; move: (\det _) => z; field; lra.
set D0 := \det _; move=> [q1 q2]; split=> //.
have -> : (ln D0 / d + v = (ln D0 / d + X) - (X - v))%Re by ring.
have := Rabs_triang (ln D0 / d + X) (- (X - v)); rewrite Rabs_Ropp /Rminus; move: hv; rewrite /Rminus; lra.
Qed.
