(** * Property C62: the interaction is screened, exponentially in the distance *)
From Coq Require Import Reals.
From Coq Require Import List Lia Lra ZArith.
From mathcomp Require Import all_ssreflect ssralg fingroup perm matrix mxalgebra poly mxpoly.
From Verif Require Import Base RStruct Mat_Model Mat_Spec Bessel_Model Scat_Model Scat_Spec Scat_Proofs Scat_Proofs9 Scat_Props2 Trans_Model Trans_Spec
  Lin_Model Lin_Spec Bal_Proofs Lin_Proofs Trip_Proofs Lin_Proofs2 RT_Model RT_Spec RT_Spec2 RT_Proofs2 RT_Proofs3 RT_Proofs4 RT_Proofs6 RT_Proofs12 RT_Props RT_Props2 RT_Props3.
Set Implicit Arguments.
Unset Strict Implicit.
Import GRing.Theory.
Local Open Scope ring_scope.
Delimit Scope R_scope with Re.

(** ** functions that differ from a constant by a small one *)
Section Near.
Context (D : R -> Prop) (G : R -> R) (G0 : forall L, D L -> (0 <= G L <= 1)%Re).
Definition near (f : R -> R) (a : R) : Prop := below D G (fun L => f L - a)%Re.
Lemma G0' L : D L -> (0 <= G L)%Re.
Proof. by move=> /G0 []. Qed.
Lemma near_const a : near (fun=> a) a.
Proof. by apply: (@below_ext _ D G (fun=> 0%Re)); [move=> L _; rewrite Rminus_diag_eq|apply: below_zero; exact G0']. Qed.
Lemma near_plus f a h b : near f a -> near h b -> near (fun L => f L + h L)%Re (a + b)%Re.
Proof.
move=> h1 h2; apply: (@below_ext _ D G (fun L => (f L - a) + (h L - b))%Re); first by move=> L _; ring.
exact: below_plus.
Qed.
Lemma near_mult f a h b : near f a -> near h b -> near (fun L => f L * h L)%Re (a * b)%Re.
Proof.
move=> h1 h2; apply: (@below_ext _ D G (fun L => (f L - a) * (h L - b) + (a * (h L - b) + b * (f L - a)))%Re); first by move=> L _; ring.
apply: below_plus; last by apply: below_plus; apply: below_scal.
have [C [hC hh]] := below_mult _ _ _ _ _ h1 h2; exists C; split=> // L hL; apply: Rle_trans (hh L hL) _.
have [g0 g1] := G0 hL; apply: Rmult_le_compat_l => //; rewrite -[X in (_ <= X)%Re]Rmult_1_r; exact: Rmult_le_compat_l.
Qed.
Lemma near_ext f h a : (forall L, f L = h L) -> near f a -> near h a.
Proof. by move=> e; apply: below_ext => L _; rewrite e. Qed.
Lemma near_bigsum (I : Type) (r : seq I) (F : I -> R -> R) (A : I -> R) : (forall i, near (F i) (A i)) -> near (fun L => \sum_(i <- r) F i L) (\sum_(i <- r) A i).
Proof.
move=> h; elim: r => [|i r IH].
  by rewrite big_nil; apply: (@near_ext (fun=> 0)); [move=> L; rewrite big_nil|apply: near_const].
rewrite big_cons; apply: (@near_ext (fun L => F i L + \sum_(j <- r) F j L)); first by move=> L; rewrite big_cons.
exact: near_plus.
Qed.
Lemma near_bigprod (I : Type) (r : seq I) (F : I -> R -> R) (A : I -> R) : (forall i, near (F i) (A i)) -> near (fun L => \prod_(i <- r) F i L) (\prod_(i <- r) A i).
Proof.
move=> h; elim: r => [|i r IH].
  by rewrite big_nil; apply: (@near_ext (fun=> 1)); [move=> L; rewrite big_nil|apply: near_const].
rewrite big_cons; apply: (@near_ext (fun L => F i L * \prod_(j <- r) F j L)); first by move=> L; rewrite big_cons.
exact: near_mult.
Qed.
Lemma near_det n (f : R -> 'M[R]_n) (g : 'M[R]_n) : (forall i j, near (fun L => f L i j) (g i j)) -> near (fun L => \det (f L)) (\det g).
Proof.
move=> h; rewrite /determinant; apply: near_bigsum => s.
by apply: near_mult; [apply: near_const|apply: near_bigprod => i; apply: h].
Qed.
Lemma near_mulmx n (f h : R -> 'M[R]_n) (a b : 'M[R]_n) : (forall i j, near (fun L => f L i j) (a i j)) -> (forall i j, near (fun L => h L i j) (b i j)) ->
  forall i j, near (fun L => (f L *m h L) i j) ((a *m b) i j).
Proof.
move=> h1 h2 i j; rewrite mxE; apply: (@near_ext (fun L => \sum_k f L i k * h L k j)); first by move=> L; rewrite mxE.
by apply: near_bigsum => k; apply: near_mult.
Qed.
Lemma near_pow n (f : R -> 'M[R]_n) (a : 'M[R]_n) j : (forall i j, near (fun L => f L i j) (a i j)) -> forall i' j', near (fun L => mxpow (f L) j i' j') (mxpow a j i' j').
Proof.
move=> h; elim: j => [|j IH] i' j'; first by apply: near_const.
by apply: (near_mulmx (f := f) (a := a) (h := fun L => mxpow (f L) j) (b := mxpow a j)).
Qed.
End Near.
Lemma exp2 x : (exp (- x) * exp (- x) = exp (- (2 * x)))%Re.
Proof. by rewrite -exp_plus; congr exp; lra. Qed.

Section Screen.
Context (mieb : list R -> nat -> Z -> res (list (list R) * list (list R))) (c : config) (m : Z) (k : R) (e u : R -> R).
Context (Hk : (0 < k)%Re) (Hm : has (c_med c) e u) (Hext : c_ext c = true).
Let x (L : R) := (k * L * sqrt (e k))%Re.
Let D (L : R) := (1 <= x L)%Re.
Let G (L : R) := (exp (- x L) * exp (- x L))%Re.
Lemma G01 L : D L -> (0 <= G L <= 1)%Re.
Proof.
move=> hL; rewrite /G exp2; split; first by left; exact: exp_pos.
by rewrite -exp_0; case: (Req_dec (x L) 0) => [->|h]; [rewrite Rmult_0_r Ropp_0; right|left; apply: exp_increasing; move: hL; rewrite /D; lra].
Qed.
Let U (L : R) : 'M[R]_(n1 c m + n1 c m) := trip mieb (at_distance c L) m k.
Lemma trip_near i j : near D G (fun L => U L i j) 0.
Proof.
have E L : U L = let '(A, B, C, D) := blocks (n2 c m) (fun _ _ _ => 1%Re) (rt_with mieb (at_distance c L) m k) in block_mx (mx (n1 c m) A) (mx (n1 c m) B) (mx (n1 c m) C) (mx (n1 c m) D).
  rewrite /U /trip; have := blocks_round_trip (n1 c m) (n2 c m) (rt_with mieb (at_distance c L) m k); move=> <-.
  have h i0 j0 s : exp (log_skalierung (rt_with mieb (at_distance c L) m k) i0 j0 s) = 1%Re by rewrite /log_skalierung /rt_with /= !Rplus_0_r exp_0.
  by rewrite /blocks; congr block_mx; apply/matrixP => i0 j0; rewrite !mxE; apply: sumn_ext => s _; rewrite h.
have W f : below D G f -> near D G f 0 by move=> hf; apply: (@below_ext _ D G f) => // L _; exact (esym (Rminus_0_r (f L))).
apply: W; rewrite -(splitK i) -(splitK j); case: (split i) => i'; case: (split j) => j'; rewrite /unsplit.
all: have [h0 [h1 [h2 h3]]] := blocks_far mieb c m k e u Hk Hm Hext i' j' (elimT ltP (ltn_ord i')) (elimT ltP (ltn_ord j')).
- by apply: below_ext h0 => L _; rewrite E /blocks block_mxEul mxE.
- by apply: below_ext h1 => L _; rewrite E /blocks block_mxEur mxE.
- by apply: below_ext h2 => L _; rewrite E /blocks block_mxEdl mxE.
- by apply: below_ext h3 => L _; rewrite E /blocks block_mxEdr mxE.
Qed.
Lemma screen : exists C, (0 < C)%Re /\ forall L, D L ->
  [/\ (Rabs (\tr (U L)) <= C * exp (- (2 * x L)))%Re & (Rabs (\det (1%:M - U L) - 1) <= C * exp (- (2 * x L)))%Re].
Proof.
have [C1 [p1 h1]] : near D G (fun L => \tr (U L)) 0.
  have -> : 0%Re = \sum_(i < n1 c m + n1 c m) (0%Re : R) by rewrite big1.
  by apply: near_bigsum => i; apply: trip_near.
have [C2 [p2 h2]] : near D G (fun L => \det (1%:M - U L)) 1.
  have := @near_det D G (@G01) _ (fun L => 1%:M - U L) 1%:M; rewrite det1; apply=> i j.
  apply: (@near_ext D G (fun L => 1%:M i j + -1 * U L i j)%Re); first by move=> L; rewrite !mxE -RplusE -RoppE; ring.
  have aux (a : R) : (a = a + -1 * 0)%Re by ring.
  rewrite [X in near _ _ _ X]aux; apply: (near_plus (near_const D G _)); apply: (near_mult (@G01) (near_const D G _)); exact: trip_near.
exists (C1 + C2 + 1)%Re; split; first by lra.
move=> L hL; have [g0 _] := G01 hL; have h := exp_pos (- (2 * x L)); have eG : G L = exp (- (2 * x L)) by exact: exp2.
split.
- have := h1 L hL; rewrite Rminus_0_r eG => {}h1; apply: Rle_trans h1 _; apply: Rmult_le_compat_r; lra.
- have := h2 L hL; rewrite eG => {}h2; apply: Rle_trans h2 _; apply: Rmult_le_compat_r; lra.
Qed.
End Screen.

(** far apart (at least one decay length): the trace of the round trip, the deviation of the determinant from one and
    the number the program returns decay like exp(-2 n k L), whatever the Mie coefficients are *)
Lemma ln_near d eps : (0 <= eps <= 1 / 2)%Re -> (Rabs (d - 1) <= eps)%Re -> (0 < d)%Re /\ (Rabs (ln d) <= 2 * eps)%Re.
Proof.
move=> he hd; have hd' : (1 - eps <= d <= 1 + eps)%Re by move: hd; rewrite /Rabs; case: Rcase_abs => ? ?; lra.
have d0 : (0 < d)%Re by lra.
split=> //; apply/Rabs_le; split.
- have : (ln (/ d) <= / d - 1)%Re by rewrite -{2}(exp_ln (/ d)); [have := exp_ineq1_le (ln (/ d)); lra|exact: Rinv_0_lt_compat].
  rewrite ln_Rinv // => h; have : (/ d <= 1 + 2 * eps)%Re; last by lra.
  apply: (Rmult_le_reg_l d) => //; rewrite Rinv_r; last by lra.
  by nra.
- have : (ln d <= d - 1)%Re by rewrite -{2}(exp_ln d) //; have := exp_ineq1_le (ln d); lra.
  lra.
Qed.
Theorem C62_screening : forall mieb c m k e u A B, c_ext c = true -> mieA mieb c [:: k] = Val A -> mieB mieb c [:: k] = Val B -> has (c_med c) e u -> (0 < k)%Re ->
  (Z.max 1 m <= Z.of_nat (c_lmax c))%Z -> (Z.max 1 m <= Z.of_nat (c_lssmax c))%Z ->
  exists C, (0 < C)%Re /\ forall L, let x := (k * L * sqrt (e k))%Re in let U := trip mieb (at_distance c L) m k in (1 <= x)%Re ->
    [/\ (Rabs (\tr U) <= C * exp (- (2 * x)))%Re, (Rabs (\det (1%:M - U) - 1) <= C * exp (- (2 * x)))%Re &
     (C * exp (- (2 * x)) <= 1 / 2)%Re -> forall conv, (conv < 1)%Re -> exists v N, (forall fuel, (N <= fuel)%N ->
       rt_lndet mieb trans_bessels (at_distance c L) fuel conv m [:: k] = Some (Val [:: Fin v])) /\ (Rabs v <= 2 * (C * exp (- (2 * x))))%Re].
Proof.
move=> mieb c m k e u A B hx eA eB hm hk h1 h2; have [C [hC h]] := screen mieb m hk hm hx.
exists C; split=> // L x U hL; have [t d] := h L hL; split=> // hs conv hc.
have ep := exp_pos (- (2 * x)).
have [d0 hv] := @ln_near (\det (1%:M - U)) (C * exp (- (2 * x))) (conj (Rmult_le_pos _ _ (Rlt_le _ _ hC) (Rlt_le _ _ ep)) hs) d.
have hL0 : (0 < c_L (at_distance c L))%Re.
  have [_ [hp _]] := hm; have [hp' _] := hp k hk; have sp := sqrt_lt_R0 _ hp'.
  rewrite /=; apply: (Rmult_lt_reg_l (k * sqrt (e k))); first exact: Rmult_lt_0_compat.
  by rewrite Rmult_0_r; move: hL; rewrite /x; lra.
have [N hN] := @lndet_total mieb (at_distance c L) m k A B e u conv eA eB hm hL0 hk h1 h2 hc.
exists (ln (\det (1%:M - U))), N; split=> // fuel hf; rewrite (hN fuel hf).
by rewrite lnE.
Qed.
Print Assumptions C62_screening.

(** so the hypothesis of C61 is met by every pair of spheres that is far enough apart *)
Theorem C62_far : forall mieb c m k e u A B eps, c_ext c = true -> mieA mieb c [:: k] = Val A -> mieB mieb c [:: k] = Val B -> has (c_med c) e u -> (0 < k)%Re -> (0 < eps)%Re ->
  (Z.max 1 m <= Z.of_nat (c_lmax c))%Z -> (Z.max 1 m <= Z.of_nat (c_lssmax c))%Z ->
  exists L0, forall L, (L0 <= L)%Re -> [/\ (Rabs (\tr (trip mieb (at_distance c L) m k)) < eps)%Re & forall conv, (conv < 1)%Re -> exists v N, (forall fuel, (N <= fuel)%N ->
    rt_lndet mieb trans_bessels (at_distance c L) fuel conv m [:: k] = Some (Val [:: Fin v])) /\ (Rabs v < eps)%Re].
Proof.
move=> mieb c m k e u A B eps hx eA eB hm hk he h1 h2; have [C [hC h]] := C62_screening hx eA eB hm hk h1 h2.
have [_ [hp _]] := hm; have [hp' _] := hp k hk; have sp := sqrt_lt_R0 _ hp'.
have kp : (0 < k * sqrt (e k))%Re by exact: Rmult_lt_0_compat.
pose d := Rmin (1 / 4) (eps / 4); have dp : (0 < d <= 1 / 4 /\ d <= eps / 4)%Re by rewrite /d /Rmin; case: Rle_dec => ?; lra.
pose X := Rmax 1 (C / d).
exists (X / (k * sqrt (e k)))%Re => L hL.
have hX : (X <= k * L * sqrt (e k))%Re.
  have := Rmult_le_compat_l _ _ _ (Rlt_le _ _ kp) hL; have -> : (k * sqrt (e k) * (X / (k * sqrt (e k))) = X)%Re by field; lra.
  by lra.
have x1 : (1 <= k * L * sqrt (e k))%Re by apply: Rle_trans hX; exact: Rmax_l.
have xC : (C / d <= k * L * sqrt (e k))%Re by apply: Rle_trans hX; exact: Rmax_r.
have small : (C * exp (- (2 * (k * L * sqrt (e k)))) <= d)%Re.
  set y := (k * L * sqrt (e k))%Re in x1 xC *.
  rewrite exp_Ropp; have ey : (y <= exp (2 * y))%Re by have := exp_ineq1_le (2 * y); lra.
  have e0 := exp_pos (2 * y).
  apply: (Rmult_le_reg_r (exp (2 * y))) => //; rewrite Rmult_assoc Rinv_l; last by lra.
  rewrite Rmult_1_r; apply: (Rle_trans _ (d * y)); last by apply: Rmult_le_compat_l; lra.
  by have := Rmult_le_compat_l d _ _ ltac:(lra) xC; have -> : (d * (C / d) = C)%Re by field; lra.
have [t _ hv] := h L x1; split; first by lra.
move=> conv hc; have [|v [N [h3 h4]]] := hv _ conv hc; first by lra.
by exists v, N; split=> //; lra.
Qed.
Print Assumptions C62_far.

(** ** Non-vacuity: gold in water; for large distances the trace of the round trip is below one, as C61 asks *)
Example C62_gold : exists L0, forall L, (L0 <= L)%Re -> (Rabs (\tr (trip mie_bessels (at_distance gold_in_water L) 2 1)) < 1)%Re.
Proof.
have [A [B [eA [eB [hx [hm [hL [ho _]]]]]]]] := C58_gold.
have [//|//|L0 h] := @C62_far mie_bessels gold_in_water 2 1%Re (eps_spec e_Water) (mu_val None) A B 1%Re hx eA eB hm Rlt_0_1 Rlt_0_1.
by exists L0 => L /h [].
Qed.
