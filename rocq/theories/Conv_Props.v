(** * Property C80: results converge geometrically when the largest orders grow *)
From Coq Require Import Reals.
From Coq Require Import List Lia Lra ZArith.
From mathcomp Require Import all_ssreflect ssralg ssrnum fingroup perm matrix mxalgebra poly mxpoly.
From Verif Require Import Base RStruct Mat_Model Mat_Spec Mat_Proofs Bessel_Model Scat_Model Scat_Spec Scat_Proofs Scat_Proofs4 Scat_Proofs7 Scat_Proofs9 Scat_Proofs10 Scat_Props2 Trans_Model Trans_Spec Trans_Proofs3
  Lin_Model Lin_Spec Bal_Proofs Lin_Proofs Trip_Proofs Lin_Proofs2 RT_Model RT_Spec RT_Spec2 RT_Proofs RT_Proofs2 RT_Proofs3 RT_Proofs4 RT_Proofs6 RT_Proofs7 RT_Proofs8 RT_Proofs9 RT_Proofs10
  RT_Props RT_Props2 RT_Props3 RT_Props5 Exp_Proofs2 Lap_Proofs2 Mono_Proofs Mono_Proofs2 Mono_Proofs3 RT_Props8 Cut_Proofs RT_Props9 RT_Props10 Conv_Spec Conv_Proofs3 Conv_Proofs4 Conv_Proofs5 Conv_Proofs6 Conv_Proofs7.
Set Implicit Arguments.
Unset Strict Implicit.
Import GRing.Theory.
Local Open Scope ring_scope.
Delimit Scope R_scope with Re.

(** ** limits over pairs of orders *)
Lemma pair_limit (ok : nat -> nat -> Prop) (v eps : nat -> nat -> R) N0 M0 : ok N0 M0 -> (forall N M N' M', ok N M -> (N <= N')%coq_nat -> (M <= M')%coq_nat -> ok N' M') ->
  (forall N M N' M', ok N M -> (N <= N')%coq_nat -> (M <= M')%coq_nat -> (v N' M' <= v N M <= v N' M' + eps N M)%Re) ->
  exists w, forall N M, ok N M -> (w <= v N M <= w + eps N M)%Re.
Proof.
move=> h0 up h.
have all N M N' M' : ok N M -> ok N' M' -> (v N M - eps N M <= v N' M')%Re.
  move=> o o'; have [_ a] := h N M (N + N')%coq_nat (M + M')%coq_nat o (Plus.le_plus_l _ _) (Plus.le_plus_l _ _).
  have [b _] := h N' M' (N + N')%coq_nat (M + M')%coq_nat o' (Plus.le_plus_r _ _) (Plus.le_plus_r _ _); lra.
have [w [w1 w2]] : { w | is_lub (fun y => exists N M, ok N M /\ y = (- v N M)%Re) w }.
  apply: completeness; last by exists (- v N0 M0)%Re, N0, M0.
  by exists (- (v N0 M0 - eps N0 M0))%Re => y [N [M [o ->]]]; have := all _ _ _ _ h0 o; lra.
exists (- w)%Re => N M o; split.
  have : (- v N M <= w)%Re by apply: w1; exists N, M.
  lra.
have : (w <= - (v N M - eps N M))%Re by apply: w2 => y [N' [M' [o' ->]]]; have := all _ _ _ _ o o'; lra.
lra.
Qed.

Lemma rest_small th e u m k ra rb L K : (0 <= rate th e u k ra rb L < 1)%Re -> (0 < K)%Re -> forall eps, (0 < eps)%Re -> exists N0, forall N M, (N0 <= N)%coq_nat -> (N0 <= M)%coq_nat -> (K * sqrt (rest th e u m k ra rb L N M) < eps)%Re.
Proof.
move=> [q0 q1] hK eps he; set q := rate th e u k ra rb L in q0 q1 *.
have e0 : (0 < eps / K)%Re by apply: Rmult_lt_0_compat => //; exact: Rinv_0_lt_compat.
have y0 : (0 < (eps / K) * (eps / K) / 2)%Re by have := Rmult_lt_0_compat _ _ e0 e0; lra.
have qa : (Rabs q < 1)%Re by rewrite Rabs_pos_eq.
have [n0 hn] := pow_lt_1_zero q qa _ y0.
exists (n0 + lmin m)%coq_nat => N M h1 h2.
have a1 := hn (Nat.sub (Nat.add N 1) (lmin m)); have a2 := hn (Nat.sub (Nat.add M 1) (lmin m)); rewrite !Rabs_pos_eq in a1 a2; try exact: pow_le.
have b1 : (q ^ (Nat.sub (Nat.add N 1) (lmin m)) < eps / K * (eps / K) / 2)%Re by apply: a1; clear -h1; lia.
have b2 : (q ^ (Nat.sub (Nat.add M 1) (lmin m)) < eps / K * (eps / K) / 2)%Re by apply: a2; clear -h2; lia.
have sm : (sqrt (rest th e u m k ra rb L N M) < eps / K)%Re.
  rewrite -[(eps / K)%Re]sqrt_square; last lra.
  apply: sqrt_lt_1_alt; split; first by rewrite /rest -/q; apply: Rplus_le_le_0_compat; exact: pow_le.
  by rewrite /rest -/q; lra.
have -> : eps = (K * (eps / K))%Re by field; lra.
exact: Rmult_lt_compat_l.
Qed.

Section Tail.
Context (c : config) (m1 m2 : material) (ra rb : R) (e u : R -> R) (m : Z) (k s th : R).
Context (h1 : c_1 c = Solid m1 ra) (h2 : c_2 c = Solid m2 rb) (hx : c_ext c = true) (hm : has (c_med c) e u) (ha : (0 < ra)%Re) (hb : (0 < rb)%Re) (hL : (0 < c_L c)%Re) (hk : (0 < k)%Re).
Context (g1 : contrast s m1 e u k) (g2 : contrast s m2 e u k) (hth : (0 < th <= 1)%Re) (hq : (rate th e u k ra rb (c_L c) < 1)%Re).
Let B := reach th e u m k ra rb (c_L c).
Let rs := rest th e u m k ra rb (c_L c).
Let U N M := trip exact_bessels (truncated c N M) m k.
Lemma B_pos : (0 < B)%Re.
Proof.
have Kp := @K_pos c ra rb e u m k th hm ha hb hL hk hth; have [q0 q1] := q_ok hq.
by apply: Rmult_lt_0_compat => //; apply: Rinv_0_lt_compat; apply: pow_lt; lra.
Qed.
Lemma rest_pos N M : (0 < rs N M)%Re.
Proof.
have qp := @q_pos c ra rb e u k th hm ha hb hL hk hth.
by rewrite /rs /rest; apply: Rplus_lt_0_compat; exact: pow_lt.
Qed.
Lemma U_trace N M : some_orders (truncated c N M) m -> (0 <= \tr (U N M) <= B)%Re.
Proof.
move=> ho; split; last exact: (trace_reach h1 h2 hx hm ha hb hL hk g1 g2 hth hq ho).
have [s1 s2] := rate_signed h1 h2 hx hm ha hb hk g1 g2 N M.
have [t1 _] := cut_gap exact_nested h1 h2 (contrast_solid g1) (contrast_solid g2) hm ha hb hL hk hx (contrast_sq g1) (le_n N) (le_n M) ho s1 s2.
by have [] := t1 0%N; rewrite /mxpow /= !mulmx1.
Qed.
Lemma U_tail N M N' M' : some_orders (truncated c N M) m -> (N <= N')%coq_nat -> (M <= M')%coq_nat -> (0 <= \tr (U N' M') - \tr (U N M) <= B * rs N M)%Re.
Proof.
move=> ho hN hM; have so1 := contrast_solid g1; have so2 := contrast_solid g2; have ho' := cut_orders hN hM ho.
have [s1 s2] := rate_signed h1 h2 hx hm ha hb hk g1 g2 N' M'.
have [t1 _] := cut_gap exact_nested h1 h2 so1 so2 hm ha hb hL hk hx (contrast_sq g1) hN hM ho s1 s2.
have r (a b : R) : (a <= b -> 0 <= b - a)%Re by lra.
split; first by have [_] := t1 0%N; rewrite /mxpow /= !mulmx1 /U; exact: r.
rewrite /U (rate_trace h1 h2 hx hm ha hb hL hk g1 g2 ho) (rate_trace h1 h2 hx hm ha hb hL hk g1 g2 ho').
have [z1 z2] := cut_sizes c m hN hM; have [/ltP p1 /ltP p2] := orders_pos ho.
have cut := rt_cut exact_bessels exact_nested c m1 m2 ra rb e u h1 h2 so1 so2 hm ha hb hL k hk N N' M M' hN hM m.
have -> : box (n1 (truncated c N M) m) (n2 (truncated c N M) m) (weight (s_of m s) (s_of m s) (sgnZ m) (- sgnZ m) (rt_with exact_bessels (truncated c N M) m k)) =
  box (n1 (truncated c N M) m) (n2 (truncated c N M) m) (weight (s_of m s) (s_of m s) (sgnZ m) (- sgnZ m) (rt_with exact_bessels (truncated c N' M') m k)).
  apply: nsum_eq => i hi; apply: nsum_eq => j hj.
  have := cut i j (elimT ltP hi) (elimT ltP hj); cbv zeta; move=> [e1 [e2 [e3 [e4 [e5 [_ [e6 _]]]]]]].
  by rewrite /weight /vv /pE /pM e1 e2 e3 e4 e5 e6.
have Kp := @K_pos c ra rb e u m k th hm ha hb hL hk hth.
have bt := box_tail (Rlt_le _ _ Kp) (q_ok hq) (weight_up h1 h2 hx hm ha hb hL hk g1 g2 hth ho') z1 z2.
apply: (Rle_trans _ _ _ bt); right; rewrite /B /reach /rs /rest /Rdiv; set Z := (_ * _ ^ (2 * lmin m))%Re.
by rewrite /n1 /n2 [c_lmax _]/= [c_lssmax _]/= /Rdiv Rmult_assoc [((_ + _) * _)%Re]Rmult_comm -Rmult_assoc.
Qed.
Lemma sqrt_tail N M N' M' : some_orders (truncated c N M) m -> (N <= N')%coq_nat -> (M <= M')%coq_nat -> (0 <= sqrt (\tr (U N' M') * (\tr (U N' M') - \tr (U N M))) <= B * sqrt (rs N M))%Re.
Proof.
move=> ho hN hM; split; first exact: sqrt_pos.
have [a1 a2] := U_trace (cut_orders hN hM ho); have [b1 b2] := U_tail ho hN hM; have Bp := B_pos; have rp := rest_pos N M.
have -> : (B * sqrt (rs N M) = sqrt (B * (B * rs N M)))%Re.
  by rewrite -Rmult_assoc sqrt_mult; [rewrite sqrt_square //; lra|nra|lra].
by apply: sqrt_le_1_alt; apply: Rmult_le_compat.
Qed.
Lemma U_compare N M N' M' : some_orders (truncated c N M) m -> (N <= N')%coq_nat -> (M <= M')%coq_nat ->
  (forall j, (0 <= \tr (mxpow (U N' M') j.+1) - \tr (mxpow (U N M) j.+1) <= 2 * INR j.+1 * B ^ j.+1 * sqrt (rs N M))%Re) /\
  ((B < 1)%Re -> [/\ (0 < \det (1%:M - U N M))%Re, (0 < \det (1%:M - U N' M'))%Re & (ln (\det (1%:M - U N' M')) <= ln (\det (1%:M - U N M)) <= ln (\det (1%:M - U N' M')) + 2 * B * sqrt (rs N M) / (1 - B))%Re]).
Proof.
move=> ho hN hM; have so1 := contrast_solid g1; have so2 := contrast_solid g2; have ho' := cut_orders hN hM ho; have hs := contrast_sq g1.
have [s1 s2] := rate_signed h1 h2 hx hm ha hb hk g1 g2 N' M'.
have [t1 t2] := cut_gap exact_nested h1 h2 so1 so2 hm ha hb hL hk hx hs hN hM ho s1 s2.
have [z1 z2] := cut_sizes c m hN hM; have sm := cut_smaller exact_nested s h1 h2 so1 so2 hm ha hb hL hk hN hM ho.
have P0 := rate_positive h1 h2 hx hm ha hb hL hk g1 g2 ho; have P1 := rate_positive h1 h2 hx hm ha hb hL hk g1 g2 ho'.
have up := upper_trips z1 z2 (@parity_rt exact_bessels (truncated c N M) m k) (@parity_rt exact_bessels (truncated c N' M') m k) (s_sq m hs) (s_sq m hs) (s_sq m hs) (sg_sq m) (sg_sq' m) P0 P1 sm.
have pw j := upper_powers z1 z2 (@parity_rt exact_bessels (truncated c N M) m k) (@parity_rt exact_bessels (truncated c N' M') m k) (s_sq m hs) (s_sq m hs) (s_sq m hs) (sg_sq m) (sg_sq' m) P0 P1 sm j.
rewrite -/(trip exact_bessels (truncated c N M) m k) -/(trip exact_bessels (truncated c N' M') m k) in up pw.
have [q1 q2] := sqrt_tail ho hN hM; have [a1 a2] := U_trace ho'; have [b1 _] := U_tail ho hN hM; rewrite /U in q1 q2 a1 a2 b1; have Bp := B_pos.
split.
- move=> j; rewrite /U; split.
    have [_ hj] := t1 j; have r (x y : R) : (x <= y -> 0 <= y - x)%Re by lra.
    exact: r.
  apply: (Rle_trans _ _ _ (pw j)).
  have -> : (2 * INR j.+1 * B ^ j.+1 * sqrt (rs N M) = INR j.+1 * (2 * (B ^ j * (B * sqrt (rs N M)))))%Re by rewrite -[(B ^ j.+1)%Re]/(B * B ^ j)%Re; ring.
  apply: Rmult_le_compat_l; first exact: pos_INR.
  apply: Rmult_le_compat_l; first lra.
  by apply: Rmult_le_compat => //; [exact: pow_le|apply: pow_incr].
- move=> hB; have t' : (\tr (trip exact_bessels (truncated c N' M') m k) < 1)%Re by exact: (Rle_lt_trans _ _ _ a2 hB).
  have [d1 d2 d3] := t2 t'; have d4 := up t'; split=> //; split.
    have r (x y z : R) : (x + z <= y -> 0 <= z -> x <= y)%Re by lra.
    exact: (r _ _ _ d3 b1).
  apply: (Rle_trans _ _ _ d4); apply: Rplus_le_compat_l.
  have i0 : (0 < / (1 - B))%Re by apply: Rinv_0_lt_compat; lra.
  have i1 : (/ (1 - \tr (trip exact_bessels (truncated c N' M') m k)) <= / (1 - B))%Re by apply: Rinv_le_contravar; [lra|have r (x y : R) : (x <= y -> 1 - y <= 1 - x)%Re by lra]; exact: r.
  apply: Rmult_le_compat => //.
  + by apply: Rmult_le_pos => //; lra.
  + left; apply: Rinv_0_lt_compat; have r (x : R) : (x < 1 -> 0 < 1 - x)%Re by lra.
    exact: r.
  + by rewrite Rmult_assoc; apply: Rmult_le_compat_l; [lra|exact: q2].
Qed.
End Tail.

(** ** the traces of the powers of the round trip *)
Theorem C80_traces : forall c m1 m2 ra rb e u m k s th, c_1 c = Solid m1 ra -> c_2 c = Solid m2 rb -> c_ext c = true -> has (c_med c) e u -> (0 < ra)%Re -> (0 < rb)%Re -> (0 < c_L c)%Re -> (0 < k)%Re ->
  contrast s m1 e u k -> contrast s m2 e u k -> (0 < th <= 1)%Re -> (rate th e u k ra rb (c_L c) < 1)%Re -> (0 <= m)%Z ->
  let B := reach th e u m k ra rb (c_L c) in let U N M := trip exact_bessels (truncated c N M) m k in
  (forall N M, some_orders (truncated c N M) m -> (0 <= \tr (U N M) <= B)%Re) /\
  forall j, exists w, forall N M, some_orders (truncated c N M) m -> (w - 2 * INR j.+1 * B ^ j.+1 * sqrt (rest th e u m k ra rb (c_L c) N M) <= \tr (mxpow (U N M) j.+1) <= w)%Re.
Proof.
move=> c m1 m2 ra rb e u m k s th h1 h2 hx hm ha hb hL hk g1 g2 hth hq m0 B U; split=> [N M ho|j]; first exact: (U_trace h1 h2 hx hm ha hb hL hk g1 g2 hth hq ho).
have [|N M N' M' o a b|N M N' M' o a b|w hw] := @pair_limit (fun N M => some_orders (truncated c N M) m) (fun N M => (- \tr (mxpow (U N M) j.+1))%Re)
  (fun N M => (2 * INR j.+1 * B ^ j.+1 * sqrt (rest th e u m k ra rb (c_L c) N M))%Re) (lmin m) (lmin m).
- by rewrite /some_orders /truncated /= /lmin; lia.
- exact: cut_orders o.
- have [hj _] := U_compare h1 h2 hx hm ha hb hL hk g1 g2 hth hq o a b; have := hj j; rewrite -/U -/B.
  have r (x y z : R) : (0 <= x - y <= z -> - x <= - y <= - x + z)%Re by lra.
  exact: r.
- exists (- w)%Re => N M o; have := hw N M o; have r (x y z : R) : (x <= - y <= x + z -> - x - z <= y <= - x)%Re by lra.
  exact: r.
Qed.
Print Assumptions C80_traces.

(** ** for a non-magnetic medium the traces converge for all spheres that do not overlap *)
Lemma rate_gap e u k ra rb L : (0 < e k)%Re -> u k = 1%Re -> (0 < k)%Re -> (0 < L)%Re -> rate 1 e u k ra rb L = (((ra + rb) / L) ^ 2)%Re.
Proof.
move=> pe pu pk pL; rewrite /rate /size /way /refr pu Rmult_1_r; have ps := sqrt_lt_R0 _ pe; congr (_ ^ 2)%Re.
by field; split; lra.
Qed.
Theorem C80_disjoint : forall c m1 m2 ra rb e u m k s, c_1 c = Solid m1 ra -> c_2 c = Solid m2 rb -> c_ext c = true -> has (c_med c) e u -> (0 < ra)%Re -> (0 < rb)%Re -> (ra + rb < c_L c)%Re -> (0 < k)%Re -> u k = 1%Re ->
  contrast s m1 e u k -> contrast s m2 e u k -> (0 <= m)%Z -> let U N M := trip exact_bessels (truncated c N M) m k in
  forall j, exists w K, forall N M, some_orders (truncated c N M) m -> (w - K * (((ra + rb) / c_L c) ^ (N + 1 - lmin m) + ((ra + rb) / c_L c) ^ (M + 1 - lmin m)) <= \tr (mxpow (U N M) j.+1) <= w)%Re.
Proof.
move=> c m1 m2 ra rb e u m k s h1 h2 hx hm ha hb hab hk hu g1 g2 m0 U j; have [_ [hp _]] := hm; have [pe _] := hp k hk.
have hL : (0 < c_L c)%Re by lra.
have th1 : (0 < 1 <= 1)%Re by lra.
set p := ((ra + rb) / c_L c)%Re; have iL : (0 < / c_L c)%Re by exact: Rinv_0_lt_compat.
have p0 : (0 < p)%Re by apply: Rmult_lt_0_compat => //; lra.
have p1 : (p < 1)%Re.
  by apply: (Rmult_lt_reg_r (c_L c)) => //; have -> : (p * c_L c = ra + rb)%Re; [rewrite /p; field; lra|lra].
have er : rate 1 e u k ra rb (c_L c) = (p ^ 2)%Re by exact: rate_gap.
have hq : (rate 1 e u k ra rb (c_L c) < 1)%Re by rewrite er /=; nra.
have [_ tr] := @C80_traces c m1 m2 ra rb e u m k s 1%Re h1 h2 hx hm ha hb hL hk g1 g2 th1 hq m0; have [w hw] := tr j.
exists w, (2 * INR j.+1 * reach 1 e u m k ra rb (c_L c) ^ j.+1)%Re => N M o; have [w1 w2] := hw N M o; split=> //.
apply: (Rle_trans _ _ _ _ w1); apply: Rplus_le_compat_l; apply: Ropp_le_contravar; apply: Rmult_le_compat_l.
  apply: Rmult_le_pos; first by have := pos_INR j.+1; lra.
  by apply: pow_le; left; exact: (B_pos m hm ha hb hL hk th1 hq).
rewrite /rest er -!pow_mult ![Nat.mul 2 _]Mult.mult_comm !pow_mult; set a := (p ^ _)%Re; set b := (p ^ _)%Re.
have a0 : (0 <= a)%Re by apply: pow_le; lra.
have b0 : (0 <= b)%Re by apply: pow_le; lra.
have ab : (0 <= a + b)%Re by lra.
rewrite -[X in (_ <= X)%Re](sqrt_square _ ab); apply: sqrt_le_1_alt; rewrite /=; nra.
Qed.
Print Assumptions C80_disjoint.

(** ** ln det, as returned by rt_lndet *)
Theorem C80_limit : forall c m1 m2 ra rb e u m k s th conv, c_1 c = Solid m1 ra -> c_2 c = Solid m2 rb -> c_ext c = true -> has (c_med c) e u -> (0 < ra)%Re -> (0 < rb)%Re -> (0 < c_L c)%Re -> (0 < k)%Re ->
  contrast s m1 e u k -> contrast s m2 e u k -> (0 < th <= 1)%Re -> (rate th e u k ra rb (c_L c) < 1)%Re -> (0 <= m)%Z -> (conv < 1)%Re ->
  let B := reach th e u m k ra rb (c_L c) in (B < 1)%Re ->
  exists w, (ln (1 - B) <= w <= 0)%Re /\ forall N M, some_orders (truncated c N M) m -> exists v F, (forall fuel, (F <= fuel)%N -> rt_lndet exact_bessels trans_bessels (truncated c N M) fuel conv m [:: k] = Some (Val [:: Fin v])) /\
    (w <= v <= w + 2 * B * sqrt (rest th e u m k ra rb (c_L c) N M) / (1 - B))%Re.
Proof.
move=> c m1 m2 ra rb e u m k s th conv h1 h2 hx hm ha hb hL hk g1 g2 hth hq m0 hc B hB.
pose U N M := trip exact_bessels (truncated c N M) m k.
have cmp N M N' M' o a b := proj2 (@U_compare c m1 m2 ra rb e u m k s th h1 h2 hx hm ha hb hL hk g1 g2 hth hq N M N' M' o a b) hB.
have o0 : some_orders (truncated c (lmin m) (lmin m)) m by rewrite /some_orders /truncated /= /lmin; lia.
have [|N M N' M' o a b|N M N' M' o a b|w hw] := @pair_limit (fun N M => some_orders (truncated c N M) m) (fun N M => ln (\det (1%:M - U N M)))
  (fun N M => (2 * B * sqrt (rest th e u m k ra rb (c_L c) N M) / (1 - B))%Re) (lmin m) (lmin m).
- exact: o0.
- exact: cut_orders o.
- by have [_ _] := cmp N M N' M' o a b.
have run N M : some_orders (truncated c N M) m -> exists F, (forall fuel, (F <= fuel)%N -> rt_lndet exact_bessels trans_bessels (truncated c N M) fuel conv m [:: k] = Some (Val [:: Fin (ln (\det (1%:M - U N M)))])) /\
  (ln (1 - B) <= ln (\det (1%:M - U N M)) <= 0)%Re.
  move=> o; have [d _ _] := cmp N M N M o (le_n N) (le_n M); have [t1 t2] := U_trace h1 h2 hx hm ha hb hL hk g1 g2 hth hq o.
  have [[A eA] [B' eB]] := @exact_val (truncated c N M) m1 m2 ra rb k e u h1 h2 (contrast_solid g1) (contrast_solid g2) hm ha hb hk.
  have [F hF] := cut_run eA eB eA eB hm hk hL o o hc d d.
  have [_ r2] := @C61_attraction (truncated c N M) m1 m2 ra rb e u m k s conv h1 h2 hm ha hb hL hk o g1 g2 hc.
  have [v [F' [hv [l1 l2]]]] := r2 (Rle_lt_trans _ _ _ t2 hB).
  have [ew _] := hF (maxn F F') (leq_maxl _ _); move: (hv (maxn F F') (leq_maxr _ _)); rewrite ew => -[ev]; rewrite -/(U N M) in ev.
  exists F; split; first by move=> fuel /hF [].
  rewrite ev; split.
    apply: (Rle_trans _ _ _ _ l1); have r (x y : R) : (x <= y -> y < 1 -> ln (1 - y) <= ln (1 - x))%Re.
      by move=> [h|->] h'; [left; apply: ln_increasing; lra|right].
    exact: (r _ _ t2 hB).
  have r (x y : R) : (x <= - y -> 0 <= y -> x <= 0)%Re by lra.
  exact: (r _ _ l2 t1).
have Bp : (0 < B)%Re by exact: (B_pos m hm ha hb hL hk hth hq).
exists w; split; last by move=> N M o; have [F [hF _]] := run N M o; exists (ln (\det (1%:M - U N M))), F; split; [exact: hF|exact: hw].
split; last by have [_ [_ [_ z]]] := run _ _ o0; have [z1 _] := hw _ _ o0; exact: (Rle_trans _ _ _ z1 z).
apply: le_epsilon => eps he; have K0 : (0 < 2 * B * / (1 - B))%Re by apply: Rmult_lt_0_compat; [lra|apply: Rinv_0_lt_compat; lra].
have [n0 hn] := rest_small m (q_ok hq) K0 he; pose N := (n0 + lmin m)%coq_nat.
have o : some_orders (truncated c N N) m by rewrite /some_orders /truncated /= /N /lmin; lia.
have nN : (n0 <= N)%coq_nat by rewrite /N; lia.
have [_ [_ [z _]]] := run _ _ o; have [_ z2] := hw _ _ o; have z3 := hn N N nN nN.
have e3 : (2 * B * sqrt (rest th e u m k ra rb (c_L c) N N) / (1 - B) = 2 * B * / (1 - B) * sqrt (rest th e u m k ra rb (c_L c) N N))%Re by rewrite /Rdiv; ring.
rewrite e3 in z2; move: z z2 z3; set x := ln (\det _); lra.
Qed.
Print Assumptions C80_limit.

(** ** the hypotheses hold for every pair of spheres that are far enough apart *)
Theorem C80_far : forall c m1 m2 ra rb e u m k s conv, c_1 c = Solid m1 ra -> c_2 c = Solid m2 rb -> c_ext c = true -> has (c_med c) e u -> (0 < ra)%Re -> (0 < rb)%Re -> (0 < k)%Re ->
  contrast s m1 e u k -> contrast s m2 e u k -> (0 <= m)%Z -> (conv < 1)%Re ->
  exists L0, (0 < L0)%Re /\ forall L, (L0 <= L)%Re -> exists w, (w <= 0)%Re /\ forall eps, (0 < eps)%Re -> exists N0, forall N M, (N0 <= N)%coq_nat -> (N0 <= M)%coq_nat -> exists v F,
    (forall fuel, (F <= fuel)%N -> rt_lndet exact_bessels trans_bessels (truncated (at_distance c L) N M) fuel conv m [:: k] = Some (Val [:: Fin v])) /\ (w <= v < w + eps)%Re.
Proof.
move=> c m1 m2 ra rb e u m k s conv h1 h2 hx hm ha hb hk g1 g2 m0 hc; have [_ [hp _]] := hm; have [pe pu] := hp k hk.
have [L0 [p0 far]] := reach_far e u m k ra rb pe pu hk ha hb; exists L0; split=> // L hL; have [hq [B0 B1]] := far L hL.
have pL : (0 < L)%Re by exact: Rlt_le_trans hL.
have th1 : (0 < 1 <= 1)%Re by lra.
have [w [[_ w0] hw]] := @C80_limit (at_distance c L) m1 m2 ra rb e u m k s 1%Re conv h1 h2 hx hm ha hb pL hk g1 g2 th1 hq m0 hc B1.
exists w; split=> // eps he; set B := reach _ _ _ _ _ _ _ _ in hw B0 B1; have K0 : (0 < 2 * B * / (1 - B))%Re by apply: Rmult_lt_0_compat; [lra|apply: Rinv_0_lt_compat; lra].
have [n0 hn] := rest_small m (@q_ok (at_distance c L) ra rb e u k 1%Re hq) K0 he; exists (n0 + lmin m)%coq_nat => N M hN hM.
have o : some_orders (truncated (at_distance c L) N M) m by rewrite /some_orders /truncated /=; move: hN hM; rewrite /lmin; lia.
have [v [F [hF [v1 v2]]]] := hw N M o; exists v, F; split=> //; split=> //.
have z := hn N M ltac:(lia) ltac:(lia); apply: (Rle_lt_trans _ _ _ v2); apply: Rplus_lt_compat_l; apply: (Rle_lt_trans _ _ _ _ z); right; rewrite /Rdiv; ring.
Qed.
Print Assumptions C80_far.

(** ** Non-vacuity: a gold sphere and a perfect reflector in vacuum *)
Example C80_gold : exists L0, (0 < L0)%Re /\ forall L, (L0 <= L)%Re -> exists w, (w <= 0)%Re /\ forall eps, (0 < eps)%Re -> exists N0, forall N M, (N0 <= N)%coq_nat -> (N0 <= M)%coq_nat -> exists v F,
    (forall fuel, (F <= fuel)%N -> rt_lndet exact_bessels trans_bessels (truncated (at_distance gold_in_vacuum L) N M) fuel 1e-10 1 [:: 2%Re] = Some (Val [:: Fin v])) /\ (w <= v < w + eps)%Re.
Proof.
have p2 : (0 < 2)%Re by lra.
have [g1 [g2 _]] := C61_gold p2.
by apply: (@C80_far gold_in_vacuum _ _ 1%Re 2%Re _ _ 1%Z 2%Re 1 1e-10%Re erefl erefl erefl vacuum_has) => //; lra.
Qed.
