(** * Parts of a matrix: det (1 - C C^T) for C = F^T D G with isometries F, G *)
From Coq Require Import Reals.
From Coq Require Import List Lia Lra ZArith.
From mathcomp Require Import all_ssreflect ssralg ssrnum fingroup perm matrix mxalgebra poly mxpoly.
From Verif Require Import Base RStruct Lin_Spec RT_Proofs6 Far_Proofs3 Lim_Proofs.
Set Implicit Arguments.
Unset Strict Implicit.
Import GRing.Theory.
Local Open Scope ring_scope.
Delimit Scope R_scope with Re.

Lemma psd_add n (A B : 'M[R]_n) : psd A -> psd B -> psd (A + B).
Proof.
move=> [hs hq] [gs gq]; split; first by rewrite linearD /= hs gs.
move=> x; have := hq x; have := gq x; rewrite !qfE mulmxDr mulmxDl [in X in _ -> _ -> X]mxE -RplusE => h1 h2.
exact: Rplus_le_le_0_compat.
Qed.
Lemma psd_tr n (A : 'M[R]_n) : psd A -> (0 <= \tr A)%Re.
Proof. by move=> [_ h]; apply: sum_nonneg => i; rewrite -qf_delta. Qed.
Lemma det_add_up n p (A : 'M[R]_n) (W : 'M[R]_(n, p)) : psd A ->
  (\det (1%:M + A) <= \det (1%:M + (A + W *m W^T)) <= \det (1%:M + A) * exp (\tr (W *m W^T)))%Re.
Proof.
move=> hA; have [d0 _] := psd_plus_up hA; set I := 1%:M + A in d0 *.
have hu : I \in unitmx by rewrite unitmxE unitfE; apply/eqP => e; rewrite e zE in d0; lra.
have hs : A^T = A by case: hA.
have sI : I^T = I by rewrite /I linearD /= tr_scalar_mx hs.
have hI : psd I by apply: psd_add => //; have := psd_gram (1%:M : 'M[R]_n); rewrite mul1mx tr_scalar_mx.
set V := invmx I; have sV : V^T = V by rewrite trmx_inv sI.
have hW := psd_sub W (psd_inv hu hI); rewrite -/V in hW.
have e : \det (1%:M + (A + W *m W^T)) = (\det I * \det (1%:M + W^T *m V *m W))%Re.
  have -> : 1%:M + (A + W *m W^T) = I *m (1%:M - (- (V *m W)) *m W^T) by rewrite addrA mulmxBr mulmx1 !mulNmx mulmxN opprK !mulmxA mulmxV // mul1mx.
  by rewrite det_mulmx det_swap mulmxN opprK mulmxA.
have [w0 w1] := psd_plus_up hW; have w2 := psd_plus hW; have t0 := psd_tr hW.
have hAA : psd (A + A *m A^T) by apply: psd_add => //; exact: psd_gram.
have eD : 1%:M - V = V^T *m (A + A *m A^T) *m V.
  have -> : A + A *m A^T = A *m I by rewrite hs /I mulmxDr mulmx1.
  rewrite sV -!mulmxA mulmxV // mulmx1.
  have -> : A = I - 1%:M by rewrite /I addrC addKr.
  by rewrite mulmxBr mulmx1 mulVmx.
have hD : psd (W^T *m (1%:M - V) *m W) by apply: psd_sub; rewrite eD; exact: psd_sub.
have tD := psd_tr hD.
have e2 : \tr (W *m W^T) = (\tr (W^T *m V *m W) + \tr (W^T *m (1%:M - V) *m W))%Re.
  rewrite RplusE -linearD /= -mulmxDl -mulmxDr; have -> : V + (1%:M - V) = 1%:M by rewrite addrC subrK.
  by rewrite mulmx1 mxtrace_mulC.
rewrite e e2; move: w0 w1 w2 t0 tD d0; move: (\det (1%:M + _ *m _)) (\tr (W^T *m V *m W)) (\tr (W^T *m (_ - _) *m W)) (\det I) => d t1 t2 d1 w0 w1 w2 t0 tD d0.
split.
- by rewrite -[X in (X <= _)%Re]Rmult_1_r; apply: Rmult_le_compat_l; lra.
- apply: Rmult_le_compat_l; first lra.
  apply: (Rle_trans _ _ _ w1); rewrite exp_plus -[X in (X <= _)%Re]Rmult_1_r; apply: Rmult_le_compat_l; first by left; exact: exp_pos.
  by have := exp_ineq1_le t2; lra.
Qed.

Section Part.
Context (p p' q q' : nat) (D : 'M[R]_(p', q')) (F : 'M[R]_(p', p)) (H : 'M[R]_(q', q)) (hF : F^T *m F = 1%:M) (hH : H^T *m H = 1%:M).
Let C := F^T *m D *m H.
Lemma proj_compl r r' (E : 'M[R]_(r', r)) : E^T *m E = 1%:M -> let P := 1%:M - E *m E^T in P *m P^T = P /\ E *m E^T + P = 1%:M.
Proof.
move=> h P; split; last by rewrite /P addrC subrK.
rewrite /P linearB /= tr_scalar_mx trmx_mul trmxK mulmxBr mulmx1 mulmxBl mul1mx -mulmxA [E^T *m (E *m _)]mulmxA h mul1mx subrr subr0.
by [].
Qed.
(** two steps: fewer columns, then fewer rows *)
Let A1 := D *m H *m (D *m H)^T.
Let A2 := (D *m H)^T *m F *m ((D *m H)^T *m F)^T.
Let W1 := D *m (1%:M - H *m H^T).
Let W2 := (D *m H)^T *m (1%:M - F *m F^T).
Lemma part1 : D *m D^T = A1 + W1 *m W1^T.
Proof.
have [e1 e2] := proj_compl hH; rewrite /A1 /W1 !trmx_mul -!mulmxA; set P := 1%:M - _ in e1 e2 *.
by rewrite [P *m (P^T *m _)]mulmxA e1 [H *m (H^T *m _)]mulmxA -mulmxDr -mulmxDl e2 mul1mx.
Qed.
Lemma part2 : (D *m H)^T *m (D *m H) = A2 + W2 *m W2^T.
Proof.
have [e1 e2] := proj_compl hF; rewrite /A2 /W2 !trmx_mul !trmxK -!mulmxA; set P := 1%:M - _ in e1 e2 *.
by rewrite [P *m (P^T *m _)]mulmxA e1 [F *m (F^T *m _)]mulmxA -!mulmxDr -mulmxDl e2 mul1mx.
Qed.
Lemma C_split : C *m C^T = F^T *m (D *m H) *m ((D *m H)^T *m F) /\ A2 = (D *m H)^T *m F *m (F^T *m (D *m H)).
Proof. by split; rewrite /C /A2 !trmx_mul !trmxK !mulmxA. Qed.
Lemma part_cf : up (cf (C *m C^T)) (cf (D *m D^T)).
Proof.
have [e1 e2] := C_split; rewrite e1 cf_swap -e2; apply: (@up_trans _ (cf A1)).
- by rewrite /A1 [X in up _ X]cf_swap part2; apply: cf_up; exact: psd_gram.
- by rewrite part1; apply: cf_up; exact: psd_gram.
Qed.
Lemma det_plus_swap r s (X : 'M[R]_(r, s)) (Y : 'M[R]_(s, r)) : \det (1%:M + X *m Y) = \det (1%:M + Y *m X).
Proof. by have := det_swap (- X) Y; rewrite mulNmx mulmxN !opprK. Qed.
Lemma tr_steps : \tr (C *m C^T) = \tr A2 /\ \tr (D *m D^T) = (\tr A2 + \tr (W2 *m W2^T) + \tr (W1 *m W1^T))%Re.
Proof.
have [e1 e2] := C_split; split; first by rewrite e1 mxtrace_mulC -e2.
have tA : \tr A1 = \tr A2 + \tr (W2 *m W2^T) by rewrite /A1 mxtrace_mulC part2 linearD.
by rewrite part1 linearD /= tA -!RplusE.
Qed.
Lemma part_trace : (0 <= \tr (C *m C^T) <= \tr (D *m D^T))%Re.
Proof.
have [-> ->] := tr_steps; split; first exact: tr_gram_nonneg.
have := tr_gram_nonneg W1; have := tr_gram_nonneg W2; move: (\tr _) (\tr _) (\tr _) => x y z; lra.
Qed.
Lemma part_plus : (\det (1%:M + C *m C^T) <= \det (1%:M + D *m D^T) <= \det (1%:M + C *m C^T) * exp (\tr (D *m D^T) - \tr (C *m C^T)))%Re.
Proof.
have [e1 e2] := C_split; have [a1 a2] := det_add_up W1 (psd_gram (D *m H)); have [b1 b2] := det_add_up W2 (psd_gram ((D *m H)^T *m F)).
rewrite -/A1 -part1 in a1 a2; rewrite -/A2 -part2 in b1 b2.
have eA : \det (1%:M + (D *m H)^T *m (D *m H)) = \det (1%:M + A1) by rewrite det_plus_swap.
have eC : \det (1%:M + A2) = \det (1%:M + C *m C^T) by rewrite e2 e1 det_plus_swap.
have -> : (\tr (D *m D^T) - \tr (C *m C^T) = \tr (W2 *m W2^T) + \tr (W1 *m W1^T))%Re.
  have [-> ->] := tr_steps; move: (\tr _) (\tr _) (\tr _) => x y z; ring.
rewrite eA eC in b1 b2; rewrite exp_plus -Rmult_assoc; split; first exact: (Rle_trans _ _ _ b1 a1).
apply: (Rle_trans _ _ _ a2); apply: Rmult_le_compat_r => //; left; exact: exp_pos.
Qed.
Lemma part_minus : (Rabs (\det (1%:M - D *m D^T) - \det (1%:M - C *m C^T)) <= \det (1%:M + D *m D^T) - \det (1%:M + C *m C^T))%Re.
Proof.
have h0 : up 0 (cf (C *m C^T)) by apply: cf_pos; exists (q)%N, C.
have := up_eval (-1) h0 part_cf; rewrite !cf_eval !scaleN1r.
have -> : Rabs (-1 : R) = 1 by rewrite -RoppE Rabs_Ropp Rabs_R1.
by rewrite !scale1r.
Qed.
End Part.
