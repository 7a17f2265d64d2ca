(** * The round trips of all truncations as parts of one matrix, for solid and stratified spheres on any side of the medium *)
From Coq Require Import Reals.
From Coq Require Import List Lia Lra ZArith Sorted.
From mathcomp Require Import all_ssreflect ssralg ssrnum fingroup perm matrix mxalgebra poly mxpoly.
From Verif Require Import Base RStruct Mat_Model Mat_Spec Mat_Proofs Bessel_Model Bessel_Spec Scat_Model Scat_Spec Scat_Proofs Scat_Proofs4 Scat_Proofs7 Scat_Proofs9 Scat_Proofs10 Scat_Props Scat_Props2 Trans_Model Trans_Spec Trans_Proofs3
  Lin_Model Lin_Spec Bal_Proofs Lin_Proofs Trip_Proofs Lin_Proofs2 RT_Model RT_Spec RT_Spec2 RT_Proofs RT_Proofs2 RT_Proofs3 RT_Proofs4 RT_Proofs6 RT_Proofs7 RT_Proofs8 RT_Proofs9 RT_Proofs10
  RT_Props RT_Props2 RT_Props3 RT_Props5 Exp_Proofs2 Lap_Proofs2 Mono_Proofs Mono_Proofs2 Mono_Proofs3 RT_Props8 Cut_Proofs RT_Props9 Rad_Spec Rad_Proofs Rad_Proofs2 RT_Props10
  Conv_Spec Conv_Proofs3 Conv_Proofs4 Conv_Proofs5 Conv_Proofs6 Conv_Proofs7 Conv_Props Conv_Props2 Layer_Spec Layer_Proofs3 Layer_Proofs4 Layer_Props Bodies_Spec Bodies_Proofs4 Bodies_Props Bodies_Props2 Bodies_Proofs7 Bodies_Props5 Far_Proofs3 Lim_Proofs Lim_Proofs2 Lim_Proofs3 Lim_Props.
Set Implicit Arguments.
Unset Strict Implicit.
Import GRing.Theory.
Local Open Scope ring_scope.
Delimit Scope R_scope with Re.

Section Any.
Context (c : config) (e u : R -> R) (m : Z) (k s1 s2 th : R).
Let ra := rim (c_1 c).
Let rb := rim (c_2 c).
Context (hx : c_ext c = true) (hm : has (c_med c) e u) (hL : (0 < c_L c)%Re) (hk : (0 < k)%Re).
Context (g1 : body c s1 (c_1 c) e u k) (g2 : body c s2 (c_2 c) e u k) (hth : (0 < th <= 1)%Re) (hq : (rate th e u k ra rb (c_L c) < 1)%Re).
Let ha : (0 < ra)%Re := rim_pos hm hk g1.
Let hb : (0 < rb)%Re := rim_pos hm hk g2.
Let x1 := size e u k ra.
Let x2 := size e u k rb.
Let x := way e k (c_L c).
Let q := rate th e u k ra rb (c_L c).
Let K := (4 * kfac th x1 x2 x * (x1 / x) * (x2 / x) * q ^ (2 * lmin m))%Re.
Let px1 : (0 < x1)%Re := @x1_pos c ra e u k hm ha hk.
Let px2 : (0 < x2)%Re := @x2_pos c rb e u k hm hb hk.
Let px : (0 < x)%Re := @x_pos c e u k hm hL hk.

Section One.
Context (N M : nat).
Let d := truncated c N M.
Context (ho : some_orders d m).
Let rt := rt_with exact_bessels d m k.
Lemma any_definite : definite (s_of m s1) (n1 d m) (fun i => aTE rt i * exp (a2 rt i)) (fun i => aTM rt i * exp (a2 rt i)) /\
  definite (s_of m s2) (n2 d m) (fun i => bTE rt i * exp (b2 rt i)) (fun i => bTM rt i * exp (b2 rt i)).
Proof.
have [f1 _] := @body_A d e u k hm hk s1 g1; have [f2 _] := @body_B d e u k hm hk s2 hx g2.
exact: (solid_definite ho f1 f2).
Qed.
Lemma any_A i : (i < n1 d m)%N -> (pE (s_of m s1) (aTE rt) (a2 rt) i <= amp (lmin m + i) x1 /\ pM (s_of m s1) (aTM rt) (a2 rt) i <= amp (lmin m + i) x1)%Re.
Proof.
move=> /ltP hi; have hj : (Nat.add (lmin m - 1)%coq_nat i < N)%coq_nat by move: hi; rewrite /n1 /d /truncated /= /lmin; lia.
have ss := body_sq g1; have ss1 : ((s1 * (-1) ^ (Nat.add (lmin m - 1)%coq_nat i + 1)%coq_nat) * (s1 * (-1) ^ (Nat.add (lmin m - 1)%coq_nat i + 1)%coq_nat) = 1)%Re.
  have e1 := m1_sq (Nat.add (lmin m - 1)%coq_nat i + 1)%coq_nat; have r (a b : R) : (a * a = 1 -> b * b = 1 -> a * b * (a * b) = 1)%Re by move=> r1 r2; transitivity (a * a * (b * b))%Re; [ring|rewrite r1 r2; ring].
  by apply: r.
have [-> -> _ _] := @blocks m k s1 d i; have eS : (lmin m + i)%N = S (Nat.add (lmin m - 1)%coq_nat i) by rewrite -plusE /lmin; lia.
rewrite eS; have mu pick : pick = TE \/ pick = TM -> (Rabs (entry pick (mieA exact_bessels d) (Nat.add (lmin m - 1)%coq_nat i) k) <= amp (S (Nat.add (lmin m - 1)%coq_nat i)) x1)%Re.
  by move=> hp; exact: (object_up hm hk (body_object g1) hp hj).
split; apply: (Rle_trans _ _ _ (Rle_abs _)); rewrite ?Rabs_Ropp abs_sgn //; apply: mu; [by left|by right].
Qed.
Lemma any_B i : (i < n2 d m)%N -> (pE (s_of m s2) (bTE rt) (b2 rt) i <= amp (lmin m + i) x2 /\ pM (s_of m s2) (bTM rt) (b2 rt) i <= amp (lmin m + i) x2)%Re.
Proof.
move=> /ltP hi; have hj : (Nat.add (lmin m - 1)%coq_nat i < M)%coq_nat by move: hi; rewrite /n2 /d /truncated /= /lmin; lia.
have ss := body_sq g2; have ss1 : ((s2 * (-1) ^ (Nat.add (lmin m - 1)%coq_nat i + 1)%coq_nat) * (s2 * (-1) ^ (Nat.add (lmin m - 1)%coq_nat i + 1)%coq_nat) = 1)%Re.
  have e1 := m1_sq (Nat.add (lmin m - 1)%coq_nat i + 1)%coq_nat; have r (a b : R) : (a * a = 1 -> b * b = 1 -> a * b * (a * b) = 1)%Re by move=> r1 r2; transitivity (a * a * (b * b))%Re; [ring|rewrite r1 r2; ring].
  by apply: r.
have [_ _ -> ->] := @blocks m k s2 d i; have eS : (lmin m + i)%N = S (Nat.add (lmin m - 1)%coq_nat i) by rewrite -plusE /lmin; lia.
rewrite eS; have mu pick : pick = TE \/ pick = TM -> (Rabs (entry pick (mieB exact_bessels d) (Nat.add (lmin m - 1)%coq_nat i) k) <= amp (S (Nat.add (lmin m - 1)%coq_nat i)) x2)%Re.
  have eB : mieB exact_bessels d = fun ks => match c_2 c with Solid mm r => mie exact_bessels ks 0 (Z.of_nat M) r mm (c_med c) | Layered mats rs => flat (strat exact_bessels ks 0 (Z.of_nat M) (c_mat c) mats rs) end by rewrite /mieB [c_ext _]/= hx.
  by move=> hp; rewrite eB; exact: (object_up hm hk (body_object g2) hp hj).
split; apply: (Rle_trans _ _ _ (Rle_abs _)); rewrite ?Rabs_Ropp abs_sgn //; apply: mu; [by left|by right].
Qed.
Lemma any_up i j : (i < n1 d m)%N -> (j < n2 d m)%N -> (weight (s_of m s1) (s_of m s2) 1 1 rt i j <= K * q ^ i * q ^ j)%Re.
Proof.
move=> hi hj; have [p1 p2] := any_definite; have [a1 a2] := p1 i hi; have [b1 b2] := p2 j hj; have [A1 A2] := any_A hi; have [B1 B2] := any_B hj.
have li : (1 <= Nat.add (lmin m) i)%coq_nat /\ (Nat.add (lmin m) i <= N)%coq_nat by move/ltP: hi; rewrite /n1 /d /truncated /= -?plusE /lmin; lia.
have lj : (1 <= Nat.add (lmin m) j)%coq_nat /\ (Nat.add (lmin m) j <= M)%coq_nat by move/ltP: hj; rewrite /n2 /d /truncated /= -?plusE /lmin; lia.
have hmm : (Z.abs m <= Z.of_nat (Nat.min (lmin m + i) (lmin m + j)))%Z by have [o0 _] := ho; rewrite -plusE /lmin; lia.
have [T1 T2] := trans_up (c_med c) e u N M (lmin m + i) (lmin m + j) m k (c_L c) hm li lj hmm hk hL th hth.
have [t0 _] := hth.
have TB := tbound_nonneg th m (lmin m + i) (lmin m + j) x t0 (proj1 li) (proj1 lj) px.
have E0 : (Rabs (vv 1 (V0 rt) (V4 rt) i j) <= (1 + x) * tbound th m (lmin m + i) (lmin m + j) x)%Re.
  set w := V0 rt i j; have -> : vv 1 (V0 rt) (V4 rt) i j = (1 * (w * exp 0))%Re by [].
  rewrite exp_0 Rmult_1_r Rmult_1_l; have : (Rabs w <= tbound th m (lmin m + i) (lmin m + j) x)%Re by rewrite /w /rt /= hx; exact: T1.
  move: (tbound _ _ _ _ _) TB => T TB; nra.
have M0 : (Rabs (vv 1 (V2 rt) (V4 rt) i j) <= (1 + x) * tbound th m (lmin m + i) (lmin m + j) x)%Re.
  set w := V2 rt i j; have -> : vv 1 (V2 rt) (V4 rt) i j = (1 * (w * exp 0))%Re by [].
  rewrite exp_0 Rmult_1_r Rmult_1_l; have : (Rabs w <= x * tbound th m (lmin m + i) (lmin m + j) x)%Re by rewrite /w /rt /= hx; exact: T2.
  move: (tbound _ _ _ _ _) TB => T TB; nra.
have up a b v := @term_up th m (lmin m + i) (lmin m + j) x1 x2 x a b v t0 (proj1 li) (proj1 lj) hmm px1 px2 px.
have -> : (K * q ^ i * q ^ j = 4 * (kfac th x1 x2 x * (x1 / x) * (x2 / x) * q ^ Nat.add (lmin m + i) (lmin m + j)))%Re.
  have -> : Nat.add (lmin m + i) (lmin m + j) = Nat.add (Nat.mul 2 (lmin m)) (Nat.add i j) by rewrite -plusE; lia.
  by rewrite /K -multE !pow_add; ring.
have u1 := up _ _ _ (conj a1 A1) (conj b1 B1) E0; have u2 := up _ _ _ (conj a1 A1) (conj b2 B2) M0; have u3 := up _ _ _ (conj a2 A2) (conj b1 B1) M0; have u4 := up _ _ _ (conj a2 A2) (conj b2 B2) E0.
have r (w1 w2 w3 w4 B : R) : (w1 <= B -> w2 <= B -> w3 <= B -> w4 <= B -> w1 + w2 + w3 + w4 <= 4 * B)%Re by lra.
exact: (r _ _ _ _ _ u1 u2 u3 u4).
Qed.

Notation part := (part c m k s1 s2 N M).
Lemma any_gram : let U := trip exact_bessels d m k in \det (1%:M - U) = \det (1%:M - (s1 * s2) *: (part *m part^T)) /\ forall j, \tr (mxpow U j.+1) = (s1 * s2) ^+ j.+1 * \tr (mxpow (part *m part^T) j.+1).
Proof.
have [d1 d2] := any_definite; have q1 := body_sq g1; have q2 := body_sq g2.
have sq1 : s_of m s1 * s_of m s1 = 1 by rewrite s_ofM.
have sq2 : s_of m s2 * s_of m s2 = 1 by rewrite s_ofM.
by have := gram_any (@parity_rt exact_bessels d m k) sq1 sq2 d1 d2; rewrite s_ofM.
Qed.
Lemma any_box : \tr (part *m part^T) = box (n1 d m) (n2 d m) (weight (s_of m s1) (s_of m s2) 1 1 rt).
Proof.
have [p1 p2] := any_definite.
rewrite /part /bigC tr_cmat; apply: nsum_eq => i hi; apply: nsum_eq => s hj; have [q1 q2] := p1 i hi; have [q3 q4] := p2 s hj.
by rewrite !sqrt3.
Qed.
Lemma any_reach : (0 <= \tr (part *m part^T) <= reach th e u m k ra rb (c_L c))%Re.
Proof.
have kp := @K_pos c ra rb e u m k th hm ha hb hL hk hth.
split; first exact: tr_gram_nonneg.
rewrite any_box; exact: (box_le (Rlt_le _ _ kp) (@q_ok c ra rb e u k th hq) any_up).
Qed.
End One.
Notation part := (part c m k s1 s2).
Lemma any_parts N M N' M' : some_orders (truncated c N M) m -> (N <= N')%coq_nat -> (M <= M')%coq_nat ->
  let d := truncated c N M in let d' := truncated c N' M' in
  part N M = (FE (n1 d' m) (n1 d m))^T *m part N' M' *m FE (n2 d' m) (n2 d m) /\ (\tr (part N' M' *m (part N' M')^T) - \tr (part N M *m (part N M)^T) <= reach th e u m k ra rb (c_L c) * rest th e u m k ra rb (c_L c) N M)%Re.
Proof.
move=> ho hN hM d d'; have ho' := cut_orders hN hM ho.
have [z1 z2] := cut_sizes c m hN hM; have [/ltP p1 /ltP p2] := orders_pos ho.
have cut := @bodies_cut c (c_1 c) (c_2 c) e u k N N' M M' hx (body_object g1) (body_object g2) hm hL hk hN hM m.
split.
- rewrite /part /bigC (cmat_part _ _ _ _ z1 z2) /cmat.
  congr block_mx; apply/matrixP => i j; rewrite !mxE; have := cut i j (elimT ltP (ltn_ord i)) (elimT ltP (ltn_ord j)); cbv zeta; move=> [e1 [e2 [e3 [e4 [e5 [_ [e6 _]]]]]]]; rewrite /vv /pE /pM ?e1 ?e2 ?e3 ?e4 ?e5 ?e6; reflexivity.
- rewrite (any_box ho) (any_box ho').
  have -> : box (n1 (truncated c N M) m) (n2 (truncated c N M) m) (weight (s_of m s1) (s_of m s2) 1 1 (rt_with exact_bessels (truncated c N M) m k)) =
    box (n1 (truncated c N M) m) (n2 (truncated c N M) m) (weight (s_of m s1) (s_of m s2) 1 1 (rt_with exact_bessels (truncated c N' M') m k)).
    apply: nsum_eq => i hi; apply: nsum_eq => j hj.
    have := cut i j (elimT ltP hi) (elimT ltP hj); cbv zeta; move=> [e1 [e2 [e3 [e4 [e5 [_ [e6 _]]]]]]].
    by rewrite /weight /vv /pE /pM e1 e2 e3 e4 e5 e6.
  have Kp := @K_pos c ra rb e u m k th hm ha hb hL hk hth.
  have bt := box_tail (Rlt_le _ _ Kp) (@q_ok c ra rb e u k th hq) (any_up ho') z1 z2.
  apply: (Rle_trans _ _ _ bt); right; rewrite /reach /rest /Rdiv; set Z := (_ * _ ^ (2 * lmin m))%Re.
  by rewrite /n1 /n2 [c_lmax _]/= [c_lssmax _]/= /Rdiv Rmult_assoc [((_ + _) * _)%Re]Rmult_comm -Rmult_assoc.
Qed.
End Any.
