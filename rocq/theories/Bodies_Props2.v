(** * Property C100: convergence in the largest orders for solid and stratified spheres *)
From Coq Require Import Reals.
From Coq Require Import List Lia Lra ZArith Sorted.
From mathcomp Require Import all_ssreflect ssralg ssrnum fingroup perm matrix mxalgebra poly mxpoly.
From Verif Require Import Base RStruct Mat_Model Mat_Spec Mat_Proofs Bessel_Model Bessel_Spec Scat_Model Scat_Spec Scat_Proofs Scat_Proofs4 Scat_Proofs7 Scat_Proofs9 Scat_Proofs10 Scat_Props Scat_Props2 Trans_Model Trans_Spec Trans_Proofs3
  Lin_Model Lin_Spec Bal_Proofs Lin_Proofs Trip_Proofs Lin_Proofs2 RT_Model RT_Spec RT_Spec2 RT_Proofs RT_Proofs2 RT_Proofs3 RT_Proofs4 RT_Proofs6 RT_Proofs7 RT_Proofs8 RT_Proofs9 RT_Proofs10
  RT_Props RT_Props2 RT_Props3 RT_Props5 Exp_Proofs2 Lap_Proofs2 Mono_Proofs Mono_Proofs2 Mono_Proofs3 RT_Props8 Cut_Proofs RT_Props9 Rad_Spec Rad_Proofs Rad_Proofs2 RT_Props10
  Conv_Spec Conv_Proofs3 Conv_Proofs4 Conv_Proofs5 Conv_Proofs6 Conv_Proofs7 Conv_Props Conv_Props2 Layer_Spec Layer_Proofs3 Layer_Proofs4 Layer_Props Bodies_Spec Bodies_Proofs4 Bodies_Props.
Set Implicit Arguments.
Unset Strict Implicit.
Import GRing.Theory.
Local Open Scope ring_scope.
Delimit Scope R_scope with Re.

Section Tail.
Context (c : config) (p q : sphere) (e u : R -> R) (m : Z) (k th : R).
Context (hx : c_ext c = true) (hm : has (c_med c) e u) (hL : (0 < c_L c)%Re) (hk : (0 < k)%Re).
Context (g1 : body c 1 p e u k) (g2 : body c 1 q e u k) (hth : (0 < th <= 1)%Re) (hq : (rate th e u k (rim p) (rim q) (c_L c) < 1)%Re).
Let ra := rim p.
Let rb := rim q.
Let B := reach th e u m k ra rb (c_L c).
Let rs := rest th e u m k ra rb (c_L c).
Let d N M := truncated (with_spheres c p q) N M.
Let d1 N M := truncated (with_spheres c (Solid PEC ra) (Solid PEC rb)) N M.
Let U N M := trip exact_bessels (d N M) m k.
Let W N M := weight (s_of m 1) (s_of m 1) (sgnZ m) (- sgnZ m) (rt_with exact_bessels (d N M) m k).
Let KK := (4 * kfac th (size e u k ra) (size e u k rb) (way e k (c_L c)) * (size e u k ra / way e k (c_L c)) * (size e u k rb / way e k (c_L c)) * rate th e u k ra rb (c_L c) ^ (2 * lmin m))%Re.
Lemma tail_a : (0 < ra)%Re. Proof. exact: (rim_pos hm hk g1). Qed.
Lemma tail_b : (0 < rb)%Re. Proof. exact: (rim_pos hm hk g2). Qed.
Lemma pec_body sp : body c 1 sp e u k -> body c 1 (Solid PEC (rim sp)) e u k.
Proof. by move=> g; split; [exact: (rim_pos hm hk g)|left]. Qed.
Lemma one_sq : (1 : R) * 1 = 1. Proof. exact: mulr1. Qed.
Lemma tail_B : (0 < B)%Re. Proof. exact: (B_pos m hm tail_a tail_b hL hk hth hq). Qed.
Lemma tail_rest N M : (0 < rs N M)%Re. Proof. exact: (@rest_pos (with_spheres c p q) ra rb e u m k th hm tail_a tail_b hL hk hth N M). Qed.
Lemma tail_positive N M : some_orders (d N M) m -> positive (s_of m 1) (s_of m 1) (sgnZ m) (- sgnZ m) (n1 (d N M) m) (n2 (d N M) m) (rt_with exact_bessels (d N M) m k).
Proof.
move=> ho; have [f1 _] := @body_A (d N M) e u k hm hk 1 g1; have [f2 _] := @body_B (d N M) e u k hm hk 1 hx g2.
exact: (@spheres_positive e u m k 1 hk (d N M) hx hm hL ho f1 f2).
Qed.
Lemma tail_cut N M N' M' i j : (N <= N')%coq_nat -> (M <= M')%coq_nat -> (i < n1 (d N M) m)%N -> (j < n2 (d N M) m)%N ->
  let e0 := rt_with exact_bessels (d N M) m k in let e1 := rt_with exact_bessels (d N' M') m k in
  aTE e0 i = aTE e1 i /\ aTM e0 i = aTM e1 i /\ bTE e0 j = bTE e1 j /\ bTM e0 j = bTM e1 j /\
  V0 e0 i j = V0 e1 i j /\ V1 e0 i j = V1 e1 i j /\ V2 e0 i j = V2 e1 i j /\ V3 e0 i j = V3 e1 i j.
Proof.
move=> hN hM /ltP hi /ltP hj.
exact: (@bodies_cut c p q e u k N N' M M' hx (body_object g1) (body_object g2) hm hL hk hN hM m i j hi hj).
Qed.
Lemma tail_sizes N M N' M' : (N <= N')%coq_nat -> (M <= M')%coq_nat -> (n1 (d N M) m <= n1 (d N' M') m)%N /\ (n2 (d N M) m <= n2 (d N' M') m)%N.
Proof. exact: cut_sizes. Qed.
Lemma tail_smaller N M N' M' : (N <= N')%coq_nat -> (M <= M')%coq_nat -> some_orders (d N M) m ->
  smaller (s_of m 1) (s_of m 1) (sgnZ m) (- sgnZ m) (n1 (d N M) m) (n2 (d N M) m) (rt_with exact_bessels (d N M) m k) (rt_with exact_bessels (d N' M') m k).
Proof.
move=> hN hM ho; have [p1 p2] := orders_pos ho; split.
- move=> i hi; have := tail_cut hN hM hi p2; cbv zeta; move=> [e1 [e2 _]].
  by rewrite /pE /pM; split; right; [rewrite e1|rewrite e2].
- move=> i hi; have := tail_cut hN hM p1 hi; cbv zeta; move=> [_ [_ [e1 [e2 _]]]].
  by rewrite /pE /pM; split; right; [rewrite e1|rewrite e2].
- move=> i j hi hj; have := tail_cut hN hM hi hj; cbv zeta; move=> [_ [_ [_ [_ [e1 [_ [e2 _]]]]]]].
  by rewrite /vv; split; right; [rewrite e1|rewrite e2].
Qed.
Lemma tail_gap N M N' M' : (N <= N')%coq_nat -> (M <= M')%coq_nat -> some_orders (d N M) m -> (forall j, (0 <= \tr (mxpow (U N M) j.+1) <= \tr (mxpow (U N' M') j.+1))%Re) /\
  ((\tr (U N' M') < 1)%Re -> [/\ (0 < \det (1%:M - U N' M'))%Re, (0 < \det (1%:M - U N M))%Re & (ln (\det (1%:M - U N' M')) + (\tr (U N' M') - \tr (U N M)) <= ln (\det (1%:M - U N M)))%Re]).
Proof.
move=> hN hM ho; have [z1 z2] := tail_sizes hN hM; have ho' : some_orders (d N' M') m by exact: (cut_orders hN hM ho).
have p0 := tail_positive ho; have p1 := tail_positive ho'.
exact: (compare_trips z1 z2 (@parity_rt exact_bessels (d N M) m k) (@parity_rt exact_bessels (d N' M') m k) (s_sq m one_sq) (s_sq m one_sq) (s_sq m one_sq) (sg_sq m) (sg_sq' m) p0 p1 (tail_smaller hN hM ho)).
Qed.
Lemma tail_trace N M : some_orders (d N M) m -> \tr (U N M) = box (n1 (d N M) m) (n2 (d N M) m) (W N M).
Proof.
move=> ho; exact: (trip_trace (@parity_rt exact_bessels (d N M) m k) (s_sq m one_sq) (s_sq m one_sq) (s_sq m one_sq) (sg_sq m) (sg_sq' m) (tail_positive ho)).
Qed.
Lemma term_le (a b v a' b' v' : R) : (0 <= a <= a' -> 0 <= b <= b' -> 0 <= v <= v' -> a * v ^ 2 * b <= a' * v' ^ 2 * b')%Re.
Proof.
move=> [a0 a1] [b0 b1] [v0 v1]; have p2 := pow_le v 2 v0; have p3 := pow_incr v v' 2 (conj v0 v1).
apply: Rmult_le_compat => //; first exact: Rmult_le_pos.
exact: Rmult_le_compat.
Qed.
Lemma tail_weight N M i j : some_orders (d N M) m -> (i < n1 (d N M) m)%N -> (j < n2 (d N M) m)%N ->
  (W N M i j <= weight (s_of m 1) (s_of m 1) (sgnZ m) (- sgnZ m) (rt_with exact_bessels (d1 N M) m k) i j)%Re.
Proof.
move=> ho hi hj; have [p1 p2 p3] := tail_positive ho.
have [s1 s2 s3] := @pairs_smaller (truncated c N M) p q (Solid PEC ra) (Solid PEC rb) e u m k 1 hx hm hk ho g1 g2 (pec_body g1) (pec_body g2) (outdone_rim g1) (outdone_rim g2).
have [a0 a1] := p1 i hi; have [a0' a1'] := s1 i hi; have [b0 b1] := p2 j hj; have [b0' b1'] := s2 j hj; have [v0 v1] := p3 i j hi hj; have [v0' v1'] := s3 i j hi hj.
by apply: Rplus_le_compat; [apply: Rplus_le_compat; [apply: Rplus_le_compat|]|]; apply: term_le.
Qed.
Lemma tail_up N M i j : some_orders (d N M) m -> (i < n1 (d N M) m)%N -> (j < n2 (d N M) m)%N -> (W N M i j <= KK * rate th e u k ra rb (c_L c) ^ i * rate th e u k ra rb (c_L c) ^ j)%Re.
Proof.
move=> ho hi hj; apply: (Rle_trans _ _ _ (tail_weight ho hi hj)).
have gp : contrast 1 PEC e u k by left.
exact: (@weight_up (with_spheres c (Solid PEC ra) (Solid PEC rb)) PEC PEC ra rb e u m k 1 th erefl erefl hx hm tail_a tail_b hL hk gp gp hth N M ho i j hi hj).
Qed.
Lemma tail_K : (0 < KK)%Re.
Proof. exact: (@K_pos c ra rb e u m k th hm tail_a tail_b hL hk hth). Qed.
Lemma tail_trip N M : some_orders (d N M) m -> (0 <= \tr (U N M) <= B)%Re.
Proof.
move=> ho; have [t1 _] := tail_gap (le_n N) (le_n M) ho; split; first by have [] := t1 0%N; rewrite /mxpow /= !mulmx1.
rewrite tail_trace //; exact: (box_le (Rlt_le _ _ tail_K) (q_ok hq) (fun i j => @tail_up N M i j ho)).
Qed.
Lemma tail_tail N M N' M' : some_orders (d N M) m -> (N <= N')%coq_nat -> (M <= M')%coq_nat -> (0 <= \tr (U N' M') - \tr (U N M) <= B * rs N M)%Re.
Proof.
move=> ho hN hM; have ho' : some_orders (d N' M') m by exact: (cut_orders hN hM ho).
have [t1 _] := tail_gap hN hM ho; have r (a b : R) : (a <= b -> 0 <= b - a)%Re by lra.
split; first by have [_] := t1 0%N; rewrite /mxpow /= !mulmx1; exact: r.
rewrite (tail_trace ho) (tail_trace ho'); have [z1 z2] := tail_sizes hN hM.
have -> : box (n1 (d N M) m) (n2 (d N M) m) (W N M) = box (n1 (d N M) m) (n2 (d N M) m) (W N' M').
  apply: nsum_eq => i hi; apply: nsum_eq => j hj.
  have := tail_cut hN hM hi hj; cbv zeta; move=> [e1 [e2 [e3 [e4 [e5 [_ [e6 _]]]]]]].
  by rewrite /W /weight /vv /pE /pM e1 e2 e3 e4 e5 e6.
have bt := box_tail (Rlt_le _ _ tail_K) (q_ok hq) (fun i j => @tail_up N' M' i j ho') z1 z2.
apply: (Rle_trans _ _ _ bt); right; rewrite /KK /B /reach /rs /rest /Rdiv; set Z := (_ * _ ^ (2 * lmin m))%Re.
by rewrite /n1 /n2 [c_lmax _]/= [c_lssmax _]/= /Rdiv Rmult_assoc [((_ + _) * _)%Re]Rmult_comm -Rmult_assoc.
Qed.
Lemma tail_sqrt N M N' M' : some_orders (d N M) m -> (N <= N')%coq_nat -> (M <= M')%coq_nat -> (0 <= sqrt (\tr (U N' M') * (\tr (U N' M') - \tr (U N M))) <= B * sqrt (rs N M))%Re.
Proof.
move=> ho hN hM; split; first exact: sqrt_pos.
have [a1 a2] := tail_trip (cut_orders hN hM ho); have [b1 b2] := tail_tail ho hN hM; have Bp := tail_B; have rp := tail_rest N M.
have -> : (B * sqrt (rs N M) = sqrt (B * (B * rs N M)))%Re.
  by rewrite -Rmult_assoc sqrt_mult; [rewrite sqrt_square //; lra|nra|lra].
by apply: sqrt_le_1_alt; apply: Rmult_le_compat.
Qed.
Lemma tail_compare N M N' M' : some_orders (d N M) m -> (N <= N')%coq_nat -> (M <= M')%coq_nat ->
  (forall j, (0 <= \tr (mxpow (U N' M') j.+1) - \tr (mxpow (U N M) j.+1) <= 2 * INR j.+1 * B ^ j.+1 * sqrt (rs N M))%Re) /\
  ((B < 1)%Re -> [/\ (0 < \det (1%:M - U N M))%Re, (0 < \det (1%:M - U N' M'))%Re & (ln (\det (1%:M - U N' M')) <= ln (\det (1%:M - U N M)) <= ln (\det (1%:M - U N' M')) + 2 * B * sqrt (rs N M) / (1 - B))%Re]).
Proof.
move=> ho hN hM; have ho' : some_orders (d N' M') m by exact: (cut_orders hN hM ho).
have [t1 t2] := tail_gap hN hM ho; have [z1 z2] := tail_sizes hN hM; have sm := tail_smaller hN hM ho; have P0 := tail_positive ho; have P1 := tail_positive ho'.
have hs := one_sq.
have up := upper_trips z1 z2 (@parity_rt exact_bessels (d N M) m k) (@parity_rt exact_bessels (d N' M') m k) (s_sq m hs) (s_sq m hs) (s_sq m hs) (sg_sq m) (sg_sq' m) P0 P1 sm.
have pw j := upper_powers z1 z2 (@parity_rt exact_bessels (d N M) m k) (@parity_rt exact_bessels (d N' M') m k) (s_sq m hs) (s_sq m hs) (s_sq m hs) (sg_sq m) (sg_sq' m) P0 P1 sm j.
rewrite -/(trip exact_bessels (d N M) m k) -/(trip exact_bessels (d N' M') m k) in up pw.
rewrite /U in t1 t2; have [q1 q2] := tail_sqrt ho hN hM; have [a1 a2] := tail_trip ho'; have [b1 _] := tail_tail ho hN hM; rewrite /U in q1 q2 a1 a2 b1; have Bp := tail_B.
split.
- move=> j; rewrite /U; split.
    have [_ hj] := t1 j; have r (x y : R) : (x <= y -> 0 <= y - x)%Re by lra.
    exact: r.
  apply: (Rle_trans _ _ _ (pw j)).
  have -> : (2 * INR j.+1 * B ^ j.+1 * sqrt (rs N M) = INR j.+1 * (2 * (B ^ j * (B * sqrt (rs N M)))))%Re by rewrite -[(B ^ j.+1)%Re]/(B * B ^ j)%Re; ring.
  apply: Rmult_le_compat_l; first exact: pos_INR.
  apply: Rmult_le_compat_l; first lra.
  by apply: Rmult_le_compat => //; [exact: pow_le|apply: pow_incr].
- move=> hB; have t' : (\tr (trip exact_bessels (d N' M') m k) < 1)%Re by exact: (Rle_lt_trans _ _ _ a2 hB).
  have [y1 y2 d3] := t2 t'; have d4 := up t'; split=> //; split.
    have r (x y z : R) : (x + z <= y -> 0 <= z -> x <= y)%Re by lra.
    exact: (r _ _ _ d3 b1).
  apply: (Rle_trans _ _ _ d4); apply: Rplus_le_compat_l.
  have i0 : (0 < / (1 - B))%Re by apply: Rinv_0_lt_compat; lra.
  have i1 : (/ (1 - \tr (trip exact_bessels (d N' M') m k)) <= / (1 - B))%Re by apply: Rinv_le_contravar; [lra|have r (x y : R) : (x <= y -> 1 - y <= 1 - x)%Re by lra]; exact: r.
  apply: Rmult_le_compat => //.
  + by apply: Rmult_le_pos => //; lra.
  + left; apply: Rinv_0_lt_compat; have r (x : R) : (x < 1 -> 0 < 1 - x)%Re by lra.
    exact: r.
  + by rewrite Rmult_assoc; apply: Rmult_le_compat_l; [lra|exact: q2].
Qed.
End Tail.

(** ** the coefficients of an order do not depend on the largest order *)
Theorem C100_coefficients : forall c sp e u k N N' j, has (c_med c) e u -> (0 < k)%Re -> object c sp -> (N <= N')%coq_nat -> (j < N)%coq_nat ->
  let T pick N := entry pick (fun ks => match sp with Solid mm r => mie exact_bessels ks 0 (Z.of_nat N) r mm (c_med c) | Layered mats rs => flat (strat exact_bessels ks 0 (Z.of_nat N) (c_mat c) mats rs) end) j k in
  T TE N = T TE N' /\ T TM N = T TM N'.
Proof. by move=> c sp e u k N N' j hm hk ho hN hj T; exact: (object_cut c sp e u k N N' j hm hk ho hN hj). Qed.
Print Assumptions C100_coefficients.

(** ** the traces of the powers of the round trip *)
Theorem C100_traces : forall c p q e u m k th, c_ext c = true -> has (c_med c) e u -> (0 < c_L c)%Re -> (0 < k)%Re ->
  body c 1 p e u k -> body c 1 q e u k -> (0 < th <= 1)%Re -> (rate th e u k (rim p) (rim q) (c_L c) < 1)%Re -> (0 <= m)%Z ->
  let B := reach th e u m k (rim p) (rim q) (c_L c) in let d := truncated (with_spheres c p q) in let U N M := trip exact_bessels (d N M) m k in
  (forall N M, some_orders (d N M) m -> (0 <= \tr (U N M) <= B)%Re) /\
  forall j, exists w, forall N M, some_orders (d N M) m -> (w - 2 * INR j.+1 * B ^ j.+1 * sqrt (rest th e u m k (rim p) (rim q) (c_L c) N M) <= \tr (mxpow (U N M) j.+1) <= w)%Re.
Proof.
move=> c p q e u m k th hx hm hL hk g1 g2 hth hq m0 B d U; split=> [N M ho|j]; first exact: (tail_trip hx hm hL hk g1 g2 hth hq ho).
have [|N M N' M' o a b|N M N' M' o a b|w hw] := @pair_limit (fun N M => some_orders (d N M) m) (fun N M => (- \tr (mxpow (U N M) j.+1))%Re)
  (fun N M => (2 * INR j.+1 * B ^ j.+1 * sqrt (rest th e u m k (rim p) (rim q) (c_L c) N M))%Re) (lmin m) (lmin m).
- by rewrite /some_orders /d /truncated /= /lmin; lia.
- exact: (cut_orders a b o).
- have [hj _] := tail_compare hx hm hL hk g1 g2 hth hq o a b; have := hj j; rewrite -/d -/U -/B.
  have r (x y z : R) : (0 <= x - y <= z -> - x <= - y <= - x + z)%Re by lra.
  exact: r.
- exists (- w)%Re => N M o; have := hw N M o; have r (x y z : R) : (x <= - y <= x + z -> - x - z <= y <= - x)%Re by lra.
  exact: r.
Qed.
Print Assumptions C100_traces.

(** ** a non-magnetic medium: the traces converge for all bodies that do not overlap *)
Theorem C100_disjoint : forall c p q e u m k, c_ext c = true -> has (c_med c) e u -> (rim p + rim q < c_L c)%Re -> (0 < k)%Re -> u k = 1%Re -> body c 1 p e u k -> body c 1 q e u k -> (0 <= m)%Z ->
  let x := ((rim p + rim q) / c_L c)%Re in let d := truncated (with_spheres c p q) in let U N M := trip exact_bessels (d N M) m k in
  forall j, exists w K, forall N M, some_orders (d N M) m -> (w - K * (x ^ (N + 1 - lmin m) + x ^ (M + 1 - lmin m)) <= \tr (mxpow (U N M) j.+1) <= w)%Re.
Proof.
move=> c p q e u m k hx hm hab hk hu g1 g2 m0 x d U j; have [_ [hp _]] := hm; have [pe _] := hp k hk.
have ha := rim_pos hm hk g1; have hb := rim_pos hm hk g2.
have hL : (0 < c_L c)%Re by lra.
have th1 : (0 < 1 <= 1)%Re by lra.
have iL : (0 < / c_L c)%Re by exact: Rinv_0_lt_compat.
have p0 : (0 < x)%Re by apply: Rmult_lt_0_compat => //; lra.
have p1 : (x < 1)%Re.
  by apply: (Rmult_lt_reg_r (c_L c)) => //; have -> : (x * c_L c = rim p + rim q)%Re; [rewrite /x; field; lra|lra].
have er : rate 1 e u k (rim p) (rim q) (c_L c) = (x ^ 2)%Re by exact: rate_gap.
have hq : (rate 1 e u k (rim p) (rim q) (c_L c) < 1)%Re by rewrite er /=; nra.
have [_ tr] := @C100_traces c p q e u m k 1%Re hx hm hL hk g1 g2 th1 hq m0; have [w hw] := tr j.
exists w, (2 * INR j.+1 * reach 1 e u m k (rim p) (rim q) (c_L c) ^ j.+1)%Re => N M o; have [w1 w2] := hw N M o; split=> //.
apply: (Rle_trans _ _ _ _ w1); apply: Rplus_le_compat_l; apply: Ropp_le_contravar; apply: Rmult_le_compat_l.
  apply: Rmult_le_pos; first by have := pos_INR j.+1; lra.
  by apply: pow_le; left; exact: (B_pos m hm ha hb hL hk th1 hq).
rewrite /rest er -!pow_mult ![Nat.mul 2 _]Mult.mult_comm !pow_mult; set a := (x ^ _)%Re; set b := (x ^ _)%Re.
have a0 : (0 <= a)%Re by apply: pow_le; lra.
have b0 : (0 <= b)%Re by apply: pow_le; lra.
have ab : (0 <= a + b)%Re by lra.
rewrite -[X in (_ <= X)%Re](sqrt_square _ ab); apply: sqrt_le_1_alt; rewrite /=; nra.
Qed.
Print Assumptions C100_disjoint.

(** ** ln det, as returned by rt_lndet *)
Theorem C100_limit : forall c p q e u m k th conv, c_ext c = true -> has (c_med c) e u -> (0 < c_L c)%Re -> (0 < k)%Re ->
  body c 1 p e u k -> body c 1 q e u k -> (0 < th <= 1)%Re -> (rate th e u k (rim p) (rim q) (c_L c) < 1)%Re -> (0 <= m)%Z -> (conv < 1)%Re ->
  let B := reach th e u m k (rim p) (rim q) (c_L c) in let d := truncated (with_spheres c p q) in (B < 1)%Re ->
  exists w, (ln (1 - B) <= w <= 0)%Re /\ forall N M, some_orders (d N M) m -> exists v F, (forall fuel, (F <= fuel)%N -> rt_lndet exact_bessels trans_bessels (d N M) fuel conv m [:: k] = Some (Val [:: Fin v])) /\
    (w <= v <= w + 2 * B * sqrt (rest th e u m k (rim p) (rim q) (c_L c) N M) / (1 - B))%Re.
Proof.
move=> c p q e u m k th conv hx hm hL hk g1 g2 hth hq m0 hc B d hB.
pose U N M := trip exact_bessels (d N M) m k.
have cmp N M N' M' o a b := proj2 (@tail_compare c p q e u m k th hx hm hL hk g1 g2 hth hq N M N' M' o a b) hB.
have o0 : some_orders (d (lmin m) (lmin m)) m by rewrite /some_orders /d /truncated /= /lmin; lia.
have [|N M N' M' o a b|N M N' M' o a b|w hw] := @pair_limit (fun N M => some_orders (d N M) m) (fun N M => ln (\det (1%:M - U N M)))
  (fun N M => (2 * B * sqrt (rest th e u m k (rim p) (rim q) (c_L c) N M) / (1 - B))%Re) (lmin m) (lmin m).
- exact: o0.
- exact: (cut_orders a b o).
- by have [_ _] := cmp N M N' M' o a b.
have run N M : some_orders (d N M) m -> exists F, (forall fuel, (F <= fuel)%N -> rt_lndet exact_bessels trans_bessels (d N M) fuel conv m [:: k] = Some (Val [:: Fin (ln (\det (1%:M - U N M)))])) /\
  (ln (1 - B) <= ln (\det (1%:M - U N M)) <= 0)%Re.
  move=> o; have [y _ _] := cmp N M N M o (le_n N) (le_n M); have [t1 t2] := tail_trip hx hm hL hk g1 g2 hth hq o.
  have [_ [A eA]] := @body_A (d N M) e u k hm hk 1 g1; have [_ [B' eB]] := @body_B (d N M) e u k hm hk 1 hx g2.
  have [F hF] := @cut_run exact_bessels (with_spheres c p q) m k e u conv A B' A B' N M N M eA eB eA eB hm hk hL o o hc y y.
  have [_ r2] := @C98_attraction (d N M) e u m k 1 conv hx hm hL hk o g1 g2 hc.
  have [v [F' [hv [l1 l2]]]] := r2 (Rle_lt_trans _ _ _ t2 hB).
  have [ew _] := hF (maxn F F') (leq_maxl _ _); move: (hv (maxn F F') (leq_maxr _ _)); rewrite ew => -[ev]; rewrite -/d -/(U N M) in ev.
  exists F; split; first by move=> fuel /hF [].
  rewrite ev; split.
    apply: (Rle_trans _ _ _ _ l1); have r (x y0 : R) : (x <= y0 -> y0 < 1 -> ln (1 - y0) <= ln (1 - x))%Re.
      by move=> [h|->] h'; [left; apply: ln_increasing; lra|right].
    exact: (r _ _ t2 hB).
  have r (x y0 : R) : (x <= - y0 -> 0 <= y0 -> x <= 0)%Re by lra.
  exact: (r _ _ l2 t1).
have Bp : (0 < B)%Re by exact: (B_pos m hm (rim_pos hm hk g1) (rim_pos hm hk g2) hL hk hth hq).
exists w; split; last by move=> N M o; have [F [hF _]] := run N M o; exists (ln (\det (1%:M - U N M))), F; split; [exact: hF|exact: hw].
split; last by have [_ [_ [_ z]]] := run _ _ o0; have [z1 _] := hw _ _ o0; exact: (Rle_trans _ _ _ z1 z).
apply: le_epsilon => eps he; have K0 : (0 < 2 * B * / (1 - B))%Re by apply: Rmult_lt_0_compat; [lra|apply: Rinv_0_lt_compat; lra].
have [n0 hn] := rest_small m (q_ok hq) K0 he; pose N := (n0 + lmin m)%coq_nat.
have o : some_orders (d N N) m by rewrite /some_orders /d /truncated /= /N /lmin; lia.
have nN : (n0 <= N)%coq_nat by rewrite /N; lia.
have [_ [_ [z _]]] := run _ _ o; have [_ z2] := hw _ _ o; have z3 := hn N N nN nN.
have e3 : (2 * B * sqrt (rest th e u m k (rim p) (rim q) (c_L c) N N) / (1 - B) = 2 * B * / (1 - B) * sqrt (rest th e u m k (rim p) (rim q) (c_L c) N N))%Re by rewrite /Rdiv; ring.
rewrite e3 in z2; move: z z2 z3; set x := ln (\det _); lra.
Qed.
Print Assumptions C100_limit.

(** ** the hypotheses hold for every pair of bodies that are far enough apart *)
Theorem C100_far : forall c p q e u m k conv, c_ext c = true -> has (c_med c) e u -> (0 < k)%Re -> body c 1 p e u k -> body c 1 q e u k -> (0 <= m)%Z -> (conv < 1)%Re ->
  exists L0, (0 < L0)%Re /\ forall L, (L0 <= L)%Re -> exists w, (w <= 0)%Re /\ forall eps, (0 < eps)%Re -> exists N0, forall N M, (N0 <= N)%coq_nat -> (N0 <= M)%coq_nat -> exists v F,
    (forall fuel, (F <= fuel)%N -> rt_lndet exact_bessels trans_bessels (truncated (with_spheres (at_distance c L) p q) N M) fuel conv m [:: k] = Some (Val [:: Fin v])) /\ (w <= v < w + eps)%Re.
Proof.
move=> c p q e u m k conv hx hm hk g1 g2 m0 hc; have [_ [hp _]] := hm; have [pe pu] := hp k hk.
have ha := rim_pos hm hk g1; have hb := rim_pos hm hk g2.
have [L0 [p0 far]] := reach_far e u m k (rim p) (rim q) pe pu hk ha hb; exists L0; split=> // L hL; have [hq [B0 B1]] := far L hL.
have pL : (0 < L)%Re by exact: Rlt_le_trans hL.
have th1 : (0 < 1 <= 1)%Re by lra.
have [w [[_ w0] hw]] := @C100_limit (at_distance c L) p q e u m k 1%Re conv hx hm pL hk g1 g2 th1 hq m0 hc B1.
exists w; split=> // eps he; set B := reach _ _ _ _ _ _ _ _ in hw B0 B1; have K0 : (0 < 2 * B * / (1 - B))%Re by apply: Rmult_lt_0_compat; [lra|apply: Rinv_0_lt_compat; lra].
have [n0 hn] := rest_small m (@q_ok (at_distance c L) (rim p) (rim q) e u k 1%Re hq) K0 he; exists (n0 + lmin m)%coq_nat => N M hN hM.
have o : some_orders (truncated (with_spheres (at_distance c L) p q) N M) m by rewrite /some_orders /truncated /=; move: hN hM; rewrite /lmin; lia.
have [v [F [hF [v1 v2]]]] := hw N M o; exists v, F; split=> //; split=> //.
have z := hn N M ltac:(lia) ltac:(lia); apply: (Rle_lt_trans _ _ _ v2); apply: Rplus_lt_compat_l; apply: (Rle_lt_trans _ _ _ _ z); right; rewrite /Rdiv; ring.
Qed.
Print Assumptions C100_far.

(** ** Non-vacuity: a reflector coated with gold and a hollow gold sphere in vacuum *)
Example C100_shells : exists L0, (0 < L0)%Re /\ forall L, (L0 <= L)%Re -> exists w, (w <= 0)%Re /\ forall eps, (0 < eps)%Re -> exists N0, forall N M, (N0 <= N)%coq_nat -> (N0 <= M)%coq_nat -> exists v F,
    (forall fuel, (F <= fuel)%N -> rt_lndet exact_bessels trans_bessels (truncated (with_spheres (at_distance shells L) coated_pec hollow_gold) N M) fuel 1e-10 1 [:: 2%Re] = Some (Val [:: Fin v])) /\ (w <= v < w + eps)%Re.
Proof.
have p2 : (0 < 2)%Re by lra.
have [g1 [g2 _]] := C98_example p2.
by apply: (@C100_far shells coated_pec hollow_gold _ _ 1%Z 2%Re 1e-10%Re erefl vacuum_has p2 g1 g2) => //; lra.
Qed.
(** the same bodies in [shells] do not overlap, so that the traces converge *)
Example C100_apart : (rim coated_pec + rim hollow_gold < c_L shells)%Re /\ forall j, exists w K, forall N M, some_orders (truncated shells N M) 1 ->
  (w - K * (((rim coated_pec + rim hollow_gold) / c_L shells) ^ (N + 1 - lmin 1) + ((rim coated_pec + rim hollow_gold) / c_L shells) ^ (M + 1 - lmin 1)) <= \tr (mxpow (trip exact_bessels (truncated shells N M) 1 2) j.+1) <= w)%Re.
Proof.
have p2 : (0 < 2)%Re by lra.
have [g1 [g2 [_ [_ h]]]] := C98_example p2; have ra := @rim_pos shells _ _ _ _ _ vacuum_has p2 g1; have rb := @rim_pos shells _ _ _ _ _ vacuum_has p2 g2.
have hab : (rim coated_pec + rim hollow_gold < c_L shells)%Re by lra.
by split=> // j; exact: (@C100_disjoint shells coated_pec hollow_gold _ _ 1%Z 2%Re erefl vacuum_has hab p2 erefl g1 g2 Z.le_0_1 j).
Qed.
