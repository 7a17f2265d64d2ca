(** * Determinants close to one: det(1 - d E) = 1 - d tr E + O(d^2) *)
From Coq Require Import Reals.
From Coq Require Import List Lia Lra ZArith.
From mathcomp Require Import all_ssreflect ssralg fingroup perm matrix mxalgebra poly mxpoly.
From Verif Require Import Base RStruct.
Set Implicit Arguments.
Unset Strict Implicit.
Import GRing.Theory.
Local Open Scope ring_scope.
Delimit Scope R_scope with Re.

Lemma big_abs n (f : 'I_n -> R) (c : R) : (forall i, (Rabs (f i) <= c)%Re) -> (Rabs (\sum_i f i) <= INR n * c)%Re.
Proof.
elim: n f => [|n IH] f h; first by rewrite big_ord0 /= Rabs_R0; lra.
rewrite big_ord_recl S_INR.
have a := Rabs_triang (f ord0) (\sum_(i < n) f (lift ord0 i)).
have b := IH (fun i => f (lift ord0 i)) (fun i => h _); have d := h ord0; rewrite -RplusE; move: a b d.
set x := f ord0; set y := \sum_(i < n) _ => a b d; lra.
Qed.
Lemma sign_abs (k : nat) (x : R) : Rabs ((-1) ^+ k * x)%R = Rabs x.
Proof.
elim: k => [|k IH]; first by rewrite expr0 mul1r.
rewrite exprS -mulrA mulN1r; change (Rabs (Ropp ((-1) ^+ k * x)%R) = Rabs x); by rewrite Rabs_Ropp.
Qed.
Lemma det_bound n (C : R) : (0 <= C)%Re -> exists K, (0 <= K)%Re /\ forall B : 'M[R]_n, (forall i j, (Rabs (B i j) <= C)%Re) -> (Rabs (\det B) <= K)%Re.
Proof.
move=> hC; elim: n => [|n [K [hK IH]]].
  by exists 1%Re; split; [lra|] => B _; rewrite det_mx00; change (Rabs 1%Re <= 1)%Re; rewrite Rabs_R1; lra.
exists (INR n.+1 * (C * K))%Re; split; first by apply: Rmult_le_pos; [exact: pos_INR|exact: Rmult_le_pos].
move=> B hB; rewrite (expand_det_row B ord0); apply: big_abs => j.
rewrite -RmultE Rabs_mult; apply: Rmult_le_compat => //; try exact: Rabs_pos.
by rewrite /cofactor sign_abs; apply: IH => i k; rewrite !mxE.
Qed.
(** a determinant with one small column is small *)
Lemma det_small n (C : R) : (0 <= C)%Re -> exists K, (0 <= K)%Re /\ forall (B : 'M[R]_n) (j0 : 'I_n) (d : R), (0 < d)%Re -> (forall i j, (Rabs (B i j) <= C)%Re) -> (forall i, (Rabs (B i j0) <= d * C)%Re) -> (Rabs (\det B) <= d * K)%Re.
Proof.
move=> hC; case: n => [|n]; first by exists 0%Re; split; [lra|] => B [].
have [K [hK IH]] := @det_bound n C hC.
exists (INR n.+1 * (C * K))%Re; split; first by apply: Rmult_le_pos; [exact: pos_INR|exact: Rmult_le_pos].
move=> B j0 d hd hB hs; rewrite (expand_det_col B j0).
have -> : (d * (INR n.+1 * (C * K)) = INR n.+1 * ((d * C) * K))%Re by ring.
apply: big_abs => i; rewrite -RmultE Rabs_mult; apply: Rmult_le_compat; try exact: Rabs_pos; first exact: hs.
by rewrite /cofactor sign_abs; apply: IH => a k; rewrite !mxE.
Qed.
Lemma entry_1 n (d : R) (E : 'M[R]_n) i j : (1%:M - d *: E)%R i j = ((if i == j then 1 else 0) - d * E i j)%Re.
Proof. by rewrite !mxE; case: (i == j). Qed.
Lemma entry_1_bound n (C d : R) (E : 'M[R]_n) i j : (0 < d <= 1)%Re -> (forall i j, (Rabs (E i j) <= C)%Re) -> (Rabs ((1%:M - d *: E)%R i j) <= 1 + C)%Re /\ (i != j -> (Rabs ((1%:M - d *: E)%R i j) <= d * (1 + C))%Re).
Proof.
move=> hd hE; rewrite entry_1.
have h0 := Rabs_pos (E i j); have h1 := hE i j.
have h2 : (Rabs (d * E i j) <= d * C)%Re by rewrite Rabs_mult (Rabs_pos_eq d); [apply: Rmult_le_compat_l; lra|lra].
have h3 : (d * C <= C)%Re by rewrite -{2}(Rmult_1_l C); apply: Rmult_le_compat_r; lra.
split; last first.
  move=> /negbTE ->; rewrite Rminus_0_l Rabs_Ropp; lra.
case: (i == j); last by rewrite Rminus_0_l Rabs_Ropp; lra.
by have := Rabs_triang 1 (- (d * E i j)); rewrite Rabs_Ropp Rabs_R1 /Rminus; lra.
Qed.
Lemma minor_1 n (d : R) (E : 'M[R]_n.+1) : row' ord0 (col' ord0 (1%:M - d *: E)) = 1%:M - d *: row' ord0 (col' ord0 E).
Proof.
by apply/matrixP => i j; rewrite !mxE (inj_eq (@lift_inj _ _)).
Qed.
Lemma combine (d t x y z K1 K2 C : R) : (0 < d <= 1)%Re -> (0 <= C)%Re -> (0 <= K1)%Re -> (Rabs x <= C)%Re -> (Rabs (y - (1 - d * t)) <= K1 * d ^ 2)%Re -> (Rabs t <= K2)%Re -> (Rabs z <= K2 * d ^ 2)%Re ->
  (Rabs (((1 - d * x) * y + z) - (1 - d * (x + t))) <= (K1 * (1 + C) + C * K2 + K2) * d ^ 2)%Re.
Proof.
move=> hd hC hK1 hx hy ht hz.
have -> : (((1 - d * x) * y + z) - (1 - d * (x + t)) = (1 - d * x) * (y - (1 - d * t)) + d ^ 2 * (x * t) + z)%Re by ring.
have hdd : (0 < d ^ 2)%Re by apply: pow_lt; lra.
have a1 : (Rabs (1 - d * x) <= 1 + C)%Re.
  have h2 : (Rabs (d * x) <= d * C)%Re by rewrite Rabs_mult (Rabs_pos_eq d); [apply: Rmult_le_compat_l; lra|lra].
  have h3 : (d * C <= C)%Re by rewrite -{2}(Rmult_1_l C); apply: Rmult_le_compat_r; lra.
  by have := Rabs_triang 1 (- (d * x)); rewrite Rabs_Ropp Rabs_R1 /Rminus; lra.
have b1 : (Rabs ((1 - d * x) * (y - (1 - d * t))) <= (1 + C) * (K1 * d ^ 2))%Re by rewrite Rabs_mult; apply: Rmult_le_compat => //; exact: Rabs_pos.
have b2 : (Rabs (d ^ 2 * (x * t)) <= d ^ 2 * (C * K2))%Re.
  rewrite Rabs_mult (Rabs_pos_eq (d ^ 2)); last lra.
  by apply: Rmult_le_compat_l; [lra|rewrite Rabs_mult; apply: Rmult_le_compat => //; exact: Rabs_pos].
have c1 := Rabs_triang ((1 - d * x) * (y - (1 - d * t)) + d ^ 2 * (x * t)) z.
have c2 := Rabs_triang ((1 - d * x) * (y - (1 - d * t))) (d ^ 2 * (x * t)).
lra.
Qed.
Lemma det_first n (C : R) : (0 <= C)%Re -> exists K, (0 <= K)%Re /\ forall (d : R) (E : 'M[R]_n), (0 < d <= 1)%Re -> (forall i j, (Rabs (E i j) <= C)%Re) ->
  (Rabs (\det (1%:M - d *: E)%R - (1 - d * \tr E)) <= K * d ^ 2)%Re.
Proof.
move=> hC; elim: n => [|n [K1 [hK1 IH]]].
  exists 0%Re; split; [lra|] => d E _ _; rewrite det_mx00 /mxtrace big_ord0.
  by change (Rabs (1 - (1 - d * 0)) <= 0 * d ^ 2)%Re; rewrite Rmult_0_r Rminus_0_r Rminus_diag_eq // Rabs_R0; lra.
have hC1 : (0 <= 1 + C)%Re by lra.
have [K3 [hK3 S3]] := @det_small n (1 + C)%Re hC1.
have pn := pos_INR n.
pose K2 := (INR n * C + INR n * (C * K3))%Re.
have q1 : (0 <= INR n * C)%Re by exact: Rmult_le_pos.
have q2 : (0 <= INR n * (C * K3))%Re by apply: Rmult_le_pos => //; exact: Rmult_le_pos.
have q3 : (0 <= K2)%Re by rewrite /K2; lra.
exists (K1 * (1 + C) + C * K2 + K2)%Re; split.
  by have h1 := Rmult_le_pos _ _ hK1 hC1; have h2 := Rmult_le_pos _ _ hC q3; lra.
move=> d E hd hE.
rewrite (expand_det_row _ ord0) big_ord_recl {1}/cofactor expr0 mul1r minor_1 entry_1 eqxx.
have -> : \tr E = (E ord0 ord0 + \tr (row' ord0 (col' ord0 E)))%Re.
  by rewrite /mxtrace big_ord_recl; congr (_ + _); apply: eq_bigr => i _; rewrite !mxE.
set z := \sum_(i < n) _; rewrite -?RplusE -?RmultE.
have hd2 : (0 < d ^ 2)%Re by apply: pow_lt; lra.
apply: (@combine d (\tr (row' ord0 (col' ord0 E))) (E ord0 ord0) _ z K1 K2 C hd hC hK1 (hE _ _)).
- by apply: IH => // i j; rewrite !mxE.
- have : (Rabs (\tr (row' ord0 (col' ord0 E))) <= INR n * C)%Re by apply: big_abs => i; rewrite !mxE.
  by rewrite /K2; lra.
- have h : (Rabs z <= INR n * (C * K3 * d ^ 2))%Re.
    apply: big_abs => j; rewrite -RmultE Rabs_mult /cofactor sign_abs entry_1.
    have -> : (ord0 == lift ord0 j :> 'I_n.+1) = false by [].
    rewrite Rminus_0_l Rabs_Ropp Rabs_mult (Rabs_pos_eq d); last lra.
    have -> : (C * K3 * d ^ 2 = d * C * (d * K3))%Re by ring.
    apply: Rmult_le_compat; [apply: Rmult_le_pos; [lra|exact: Rabs_pos]|exact: Rabs_pos|by apply: Rmult_le_compat_l; [lra|]|].
    have hn : (0 < n)%N by case: (n) j => // [[]].
    have e0 : lift (lift ord0 j) (Ordinal hn) = ord0 :> 'I_n.+1 by apply/val_inj.
    apply: (S3 _ (Ordinal hn)) => [|i k|i]; first lra.
      by rewrite mxE [X in Rabs X]mxE; have [] := entry_1_bound (lift ord0 i) (lift (lift ord0 j) k) hd hE.
    rewrite mxE [X in Rabs X]mxE e0; have [_ h] := entry_1_bound (lift ord0 i) ord0 hd hE; exact: h.
  have q4 : (0 <= INR n * C * d ^ 2)%Re by apply: Rmult_le_pos => //; lra.
  by apply: Rle_trans h _; rewrite /K2; lra.
Qed.
