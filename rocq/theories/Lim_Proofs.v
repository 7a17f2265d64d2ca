(** * Determinants det (1 + x A) as polynomials in x: coefficients grow with the positive semidefinite matrix A *)
From Coq Require Import Reals.
From Coq Require Import List Lia Lra ZArith.
From mathcomp Require Import all_ssreflect ssralg ssrnum fingroup perm matrix mxalgebra poly mxpoly.
From Verif Require Import Base RStruct Lin_Spec RT_Proofs6 Far_Proofs3.
Set Implicit Arguments.
Unset Strict Implicit.
Import GRing.Theory.
Local Open Scope ring_scope.
Delimit Scope R_scope with Re.

(** ** positive semidefinite matrices *)
Lemma psd_det n (A : 'M[R]_n) : psd A -> (0 <= \det A)%Re.
Proof.
elim: n A => [|n IH] A hA; first by rewrite det_mx00 oE; lra.
have [a [b [C eA]]] := @psd_split n A hA; move: hA; rewrite {}eA {A} => hA.
have a0 := step_a hA; case: (Req_dec a 0) => [ea|na].
  have b0 : b = 0.
    apply/rowP => i; rewrite mxE; have := step_bb hA i; rewrite ea Rmult_0_l => h.
    have h0 := Rle_0_sqr (b ord0 i); rewrite /Rsqr in h0.
    by apply: Rsqr_0_uniq; rewrite /Rsqr; apply: Rle_antisym.
  by rewrite ea b0 trmx0; have -> := @det_ublock _ 1 n 0%:M 0 C; rewrite det_scalar1 mul0r zE; right.
have p : (0 < a)%Re by lra.
have ip : (0 < / a)%Re by exact: Rinv_0_lt_compat.
have na' : a != 0 by apply/eqP.
rewrite (det_schur _ _ na); apply: Rmult_le_pos => //; apply: IH.
have ei : a^-1 = (/ a)%Re by rewrite -RinvE.
rewrite -scaleNr; split; first by rewrite linearD linearZ /= trmx_mul trmxK (step_sym hA).
move=> x; rewrite qf_lin qf_rank1 ei -RoppE; have := step_b hA x.
move: (_ * _)%Re (qf C x) => w q hw.
have : (/ a * w <= / a * (a * q))%Re by apply: Rmult_le_compat_l; lra.
by rewrite -Rmult_assoc Rinv_l //; lra.
Qed.
Lemma qfE n (A : 'M[R]_n) x : qf A x = (x *m A *m x^T) ord0 ord0.
Proof. by []. Qed.
Lemma psd_sub n p (A : 'M[R]_n) (W : 'M[R]_(n, p)) : psd A -> psd (W^T *m A *m W).
Proof.
move=> [hs h]; split; first by rewrite !trmx_mul trmxK hs mulmxA.
move=> x; have := h (x *m W^T); rewrite !qfE trmx_mul trmxK !mulmxA.
exact.
Qed.
Lemma psd_inv n (A : 'M[R]_n) : A \in unitmx -> psd A -> psd (invmx A).
Proof.
move=> hu hA; have [hs _] := hA; have := psd_sub (invmx A) hA; rewrite trmx_inv hs mulVmx // mul1mx.
exact.
Qed.
Lemma psd_det_mono n p (A : 'M[R]_n) (W : 'M[R]_(n, p)) : psd A -> (\det A <= \det (A + W *m W^T))%Re.
Proof.
move=> hA; case hu : (A \in unitmx).
  have -> : A + W *m W^T = A *m (1%:M - (- (invmx A *m W)) *m W^T) by rewrite mulmxBr mulmx1 !mulNmx mulmxN opprK !mulmxA mulmxV // mul1mx.
  rewrite det_mulmx det_swap mulmxN opprK mulmxA; have hi := psd_sub W (psd_inv hu hA); have d0 := psd_det hA.
  have := psd_plus hi; have t0 : (0 <= \tr (W^T *m invmx A *m W))%Re.
    by apply: sum_nonneg => i; rewrite -qf_delta; case: hi.
  move: (\tr _) (\det (1%:M + _)) t0 => t d t0 h; have : (\det A * 1 <= \det A * d)%Re by apply: Rmult_le_compat_l; lra.
  by rewrite Rmult_1_r.
have -> : \det A = 0 by move: hu; rewrite unitmxE unitfE => /negbT; rewrite negbK => /eqP.
rewrite zE; apply: psd_det; have [gs gq] := psd_gram W; have [hs hq] := hA; split; first by rewrite linearD /= hs gs.
move=> x; have := hq x; have := gq x; rewrite !qfE mulmxDr mulmxDl [in X in _ -> _ -> X]mxE -RplusE => h1 h2.
exact: Rplus_le_le_0_compat.
Qed.

(** ** coefficients *)
Definition up (p q : {poly R}) : Prop := forall i, (p`_i <= q`_i)%Re.
Lemma up_refl p : up p p. Proof. by move=> i; right. Qed.
Lemma up_trans p q r : up p q -> up q r -> up p r.
Proof. by move=> h1 h2 i; apply: (Rle_trans _ _ _ (h1 i) (h2 i)). Qed.
Lemma up_add p q p' q' : up p q -> up p' q' -> up (p + p') (q + q').
Proof. by move=> h1 h2 i; rewrite !coefD -!RplusE; apply: Rplus_le_compat. Qed.
Definition G n (d : 'I_n -> bool) (A : 'M[R]_n) : 'M[{poly R}]_n := \matrix_(i, j) ((d i && (i == j))%:R + 'X * (A i j)%:P).
Definition minor n (i0 : 'I_n) (A : 'M[R]_n) : 'M[R]_n.-1 := row' i0 (col' i0 A).
Lemma G_split n (d d' : 'I_n -> bool) (A : 'M[R]_n) (i0 : 'I_n) : d i0 -> (forall i, d' i = d i && (i != i0)) ->
  \det (G d A) = \det (G d' A) + \det (G (fun i => d (lift i0 i)) (minor i0 A)).
Proof.
move=> h0 hd.
pose C : 'M[{poly R}]_n := \matrix_(i, j) if i == i0 then (i0 == j)%:R else G d A i j.
have e : \det (G d A) = 1 * \det (G d' A) + 1 * \det C.
  apply: (@determinant_multilinear _ _ _ _ _ i0).
  - apply/rowP => j; rewrite !mxE hd h0 !eqxx /= add0r !mul1r addrC; congr (_ + _).
  - by apply/matrixP => i j; rewrite !mxE hd [lift i0 i == i0]eq_sym neq_lift andbT.
  - by apply/matrixP => i j; rewrite !mxE [lift i0 i == i0]eq_sym (negbTE (neq_lift _ _)).
rewrite e !mul1r; congr (_ + _); rewrite (expand_det_row C i0) (bigD1 i0) //= big1 ?addr0.
- rewrite mxE !eqxx mul1r /cofactor addnn -mul2n exprM sqrrN expr1n expr1n mul1r; congr determinant.
  by apply/matrixP => i j; rewrite !mxE [lift i0 i == i0]eq_sym (negbTE (neq_lift _ _)) (inj_eq lift_inj).
- by move=> j hj; rewrite mxE eqxx eq_sym (negbTE hj) mul0r.
Qed.
Lemma minor_psd n (i0 : 'I_n) (A : 'M[R]_n) : psd A -> psd (minor i0 A).
Proof.
move=> hA; have -> : minor i0 A = (\matrix_(i, j) (i == lift i0 j)%:R)^T *m A *m (\matrix_(i < n, j < n.-1) (i == lift i0 j)%:R); last exact: psd_sub.
apply/matrixP => i j; rewrite !mxE (bigD1 (lift i0 j)) //= big1 ?addr0; last by move=> r hr; rewrite [X in _ * X]mxE (negbTE hr) mulr0.
rewrite !mxE eqxx mulr1 (bigD1 (lift i0 i)) //= big1 ?addr0; last by move=> r hr; rewrite !mxE (negbTE hr) mul0r.
by rewrite !mxE eqxx mul1r.
Qed.
Lemma minor_gram n p (i0 : 'I_n) (A : 'M[R]_n) (W : 'M[R]_(n, p)) : minor i0 (A + W *m W^T) = minor i0 A + row' i0 W *m (row' i0 W)^T.
Proof. by apply/matrixP => i j; rewrite !mxE; congr (_ + _); apply: eq_bigr => s _; rewrite !mxE. Qed.
Lemma G_up n p (d : 'I_n -> bool) (A : 'M[R]_n) (W : 'M[R]_(n, p)) : psd A -> up (\det (G d A)) (\det (G d (A + W *m W^T))).
Proof.
elim: n d A W => [|n IHn] d A W hA; first by rewrite !det_mx00; exact: up_refl.
move E : #|d| => k; elim: k d E => [|k IHk] d E.
- have base B : \det (G d B) = 'X^n.+1 * (\det B)%:P.
    have -> : G d B = 'X *: map_mx polyC B.
      apply/matrixP => i j; rewrite !mxE; have -> : d i = false by have := card0_eq E i.
      by rewrite add0r.
    by rewrite detZ det_map_mx.
  by move=> i; rewrite !base !coefXnM; case: ltnP => _; [right|rewrite !coefC; case: eqP => _; [exact: psd_det_mono|right]].
- have [i0 hi0] : exists i0, i0 \in d by apply/card_gt0P; rewrite E.
  pose d' i := d i && (i != i0).
  have E' : #|d'| = k.
    have := cardD1 i0 d; rewrite E hi0 add1n => -[->]; apply: eq_card => i.
    by rewrite !inE /d' andbC.
  rewrite !(@G_split _ d d' _ i0) //; apply: up_add; first exact: IHk.
  by rewrite minor_gram; exact: (IHn _ (minor i0 A) (row' i0 W) (minor_psd i0 hA)).
Qed.

(** ** the characteristic function det (1 + x A) *)
Definition cf n (A : 'M[R]_n) : {poly R} := \det (1%:M + 'X *: map_mx polyC A).
Lemma cf_up n p (A : 'M[R]_n) (W : 'M[R]_(n, p)) : psd A -> up (cf A) (cf (A + W *m W^T)).
Proof.
have e (B : 'M[R]_n) : cf B = \det (G (fun=> true) B) by congr determinant; apply/matrixP => i j; rewrite !mxE.
by move=> hA; rewrite !e; exact: G_up.
Qed.
Lemma cf_eval n (A : 'M[R]_n) x : (cf A).[x] = \det (1%:M + x *: A).
Proof.
rewrite -horner_evalE -det_map_mx; congr determinant; apply/matrixP => i j; rewrite !mxE /= horner_evalE hornerD hornerM hornerX hornerC.
by case: (i == j); rewrite ?mulr1n ?mulr0n ?hornerC ?horner0.
Qed.
Lemma det_swapP p q (X : 'M[{poly R}]_(p, q)) (Y : 'M[{poly R}]_(q, p)) : \det (1%:M - X *m Y) = \det (1%:M - Y *m X).
Proof.
have e1 : block_mx 1%:M X Y 1%:M = block_mx 1%:M 0 Y 1%:M *m block_mx 1%:M X 0 (1%:M - Y *m X).
  by rewrite mulmx_block !mul0mx !mulmx0 !mul1mx !mulmx1 !addr0 addrC subrK.
have e2 : block_mx 1%:M X Y 1%:M = block_mx 1%:M X 0 1%:M *m block_mx (1%:M - X *m Y) 0 Y 1%:M.
  by rewrite mulmx_block !mul0mx !mulmx0 !mul1mx !mulmx1 !add0r subrK.
by have := f_equal determinant e1; rewrite e2 !det_mulmx !det_lblock !det_ublock !det1 !mul1r !mulr1.
Qed.
Lemma cf_swap p q (X : 'M[R]_(p, q)) (Y : 'M[R]_(q, p)) : cf (X *m Y) = cf (Y *m X).
Proof.
have e r s (A : 'M[R]_(r, s)) (B : 'M[R]_(s, r)) : 1%:M + 'X *: map_mx polyC (A *m B) = 1%:M - (- 'X *: map_mx polyC A) *m map_mx polyC B by rewrite map_mxM -scalemxAl scaleNr opprK.
by rewrite /cf !e det_swapP -scalemxAr scalemxAl.
Qed.
Lemma up_eval p q (x : R) : up 0 p -> up p q -> (Rabs (q.[x] - p.[x]) <= q.[Rabs x] - p.[Rabs x])%Re.
Proof.
move=> h0 h.
have pos r : up 0 r -> (Rabs r.[x] <= r.[Rabs x])%Re.
  move=> hr; rewrite !horner_coef.
  elim: (size r) => [|n IH]; first by rewrite !big_ord0 zE Rabs_R0; right.
  rewrite !big_ord_recr /= -!RplusE; apply: (Rle_trans _ _ _ (Rabs_triang _ _)); apply: Rplus_le_compat => //.
  have := hr n; rewrite coef0 zE -!RmultE => rn; rewrite Rabs_mult (Rabs_pos_eq _ rn); right; congr (_ * _)%Re.
  by elim: n {IH rn} => [|n IH]; rewrite ?expr0 ?oE ?Rabs_R1 // !exprS -!RmultE Rabs_mult IH.
have hd : up 0 (q - p) by move=> i; have := h i; rewrite coef0 coefB zE -RminusE; lra.
by have := pos _ hd; rewrite !hornerE /= -!RminusE.
Qed.
Lemma cf_pos n (A : 'M[R]_n) : (exists p (W : 'M[R]_(n, p)), A = W *m W^T) -> up 0 (cf A).
Proof.
move=> [p [W ->]]; have z : psd (0 : 'M[R]_n).
  by split; [rewrite trmx0|move=> x; rewrite qfE mulmx0 mul0mx mxE zE; right].
have := cf_up W z; rewrite add0r; apply: up_trans.
have -> : cf (0 : 'M[R]_n) = 1 by rewrite /cf raddf0 scaler0 addr0 det1.
by move=> i; rewrite coef0 coef1 zE; case: eqP => _; rewrite ?mulr1n ?oE ?mulr0n ?zE; lra.
Qed.
