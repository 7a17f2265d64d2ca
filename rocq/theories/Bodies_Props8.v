(** * Property C106: solid and stratified spheres on the same side of the medium, denser or thinner, have negative free energies that converge and grow with the distance *)
From Coq Require Import Reals.
From Coq Require Import List Lia Lra ZArith Sorted.
From mathcomp Require Import all_ssreflect ssralg ssrnum fingroup perm matrix mxalgebra poly mxpoly.
From Verif Require Import Base RStruct Mat_Model Mat_Spec Mat_Proofs Thermo_Model Thermo_Proofs Geo_Model Geo_Spec Bessel_Model Scat_Model Scat_Spec Scat_Proofs Scat_Proofs4 Scat_Proofs7 Scat_Proofs9 Scat_Proofs10 Scat_Props Scat_Props2 Trans_Model Trans_Spec Trans_Proofs3
  Lin_Model Lin_Spec Bal_Proofs Lin_Proofs Trip_Proofs Lin_Proofs2 RT_Model RT_Spec RT_Spec2 RT_Proofs RT_Proofs2 RT_Proofs3 RT_Proofs4 RT_Proofs6 RT_Proofs7 RT_Proofs8 RT_Proofs9 RT_Proofs10
  RT_Props RT_Props2 RT_Props3 RT_Props5 Exp_Proofs2 Lap_Proofs2 Mono_Proofs Mono_Proofs2 Mono_Proofs3 RT_Props8 Cut_Proofs RT_Props9 RT_Props10
  Run_Model Run_Spec Run_Proofs Run_Proofs2 Run_Proofs3 Run_Proofs4 Run_Proofs5 Run_Proofs9 Run_Props Run_Props2 Run_Props7 Conv_Spec Conv_Spec2 Conv_Proofs3 Conv_Proofs4 Conv_Proofs5 Conv_Proofs6 Conv_Proofs8 Conv_Proofs9 Conv_Props Conv_Props2
  Far_Proofs3 Lim_Proofs Lim_Proofs2 Lim_Proofs3 Lim_Props Rep_Spec Rep_Proofs Rep_Props
  Rad_Spec Rad_Proofs Rad_Proofs2 Layer_Spec Layer_Proofs3 Layer_Proofs4 Layer_Props Bodies_Spec Bodies_Proofs Bodies_Proofs2 Bodies_Proofs3 Bodies_Props Bodies_Proofs4 Bodies_Props2 Bodies_Spec2 Bodies_Proofs6 Bodies_Props3 Bodies_Proofs7 Bodies_Props5 Bodies_Proofs8 Bodies_Props6 Bodies_Spec3 Bodies_Proofs9 Bodies_Props7 Bodies_Props4.
Set Implicit Arguments.
Unset Strict Implicit.
Import GRing.Theory.
Local Open Scope ring_scope.
Delimit Scope R_scope with Re.

Lemma visible_trace c e u s m k : c_ext c = true -> has (c_med c) e u -> (0 < c_L c)%Re -> (0 < k)%Re -> body c s (c_1 c) e u k -> body c s (c_2 c) e u k ->
  visible c s (c_1 c) e u k -> visible c s (c_2 c) e u k -> some_orders c m -> (0 < \tr (trip exact_bessels c m k))%Re.
Proof.
move=> hx hm hL hk g1 g2 b1 b2 ho; have [o0 [o1 o2]] := ho.
have [s1 _] := body_A hm hk g1; have [s2 _] := body_B hm hk hx g2.
have lE : lmin m = (Nat.sub (lmin m) 1).+1 by rewrite /lmin; lia.
have lA : (Nat.sub (lmin m) 1 < c_lmax c)%coq_nat by rewrite /lmin; lia.
have lB : (Nat.sub (lmin m) 1 < c_lssmax c)%coq_nat by rewrite /lmin; lia.
have t1 : (0 < s * (-1) ^ lmin m * entry TE (mieA exact_bessels c) (Nat.sub (lmin m) 1) k)%Re.
  by rewrite {1}lE; exact: (C105_coefficients hm hk g1 b1 lA).
have t2 : (0 < s * (-1) ^ lmin m * entry TE (mieB exact_bessels c) (Nat.sub (lmin m) 1) k)%Re.
  by rewrite {1}lE /mieB hx; exact: (C105_coefficients hm hk g2 b2 lB).
have [c2 c3] : (0 < c_L c / 2)%Re /\ (c_L c / 2 < c_L c)%Re by lra.
have [h _] := distance_strict hx hm hk ho (body_sq g1) s1 s2 c2 c3 t1 t2.
by rewrite same_distance in h.
Qed.

Section Bodies.
Context (c : config) (p q : sphere) (e u : R -> R) (s : R).
Context (hx : c_ext c = true) (hm : has (c_med c) e u) (hL5 : (5 * (rim p + rim q) <= c_L c)%Re).
Context (hu : forall k, (0 < k)%Re -> u k = 1%Re) (hb : forall k, (0 < k)%Re -> body c s p e u k /\ body c s q e u k).
Let ha : (0 < rim p)%Re. Proof. by have [b1 _] := hb Rlt_0_1; exact: (rim_pos hm Rlt_0_1 b1). Qed.
Let hbq : (0 < rim q)%Re. Proof. by have [_ b1] := hb Rlt_0_1; exact: (rim_pos hm Rlt_0_1 b1). Qed.
Let hL : (0 < c_L c)%Re. Proof. have := ha; have := hbq; lra. Qed.
Let th : (0 < 3 / 5 <= 1)%Re. Proof. lra. Qed.
Let d := with_spheres c p q.
Let U N M m k := trip exact_bessels (truncated d N M) m k.
Lemma both_near m k : (0 < k)%Re -> (rate (3 / 5) e u k (rim p) (rim q) (c_L c) < 1)%Re /\ (0 < reach (3 / 5) e u m k (rim p) (rim q) (c_L c) <= bnd d e m k)%Re.
Proof. by move=> hk; exact: (@near d (rim p) (rim q) e u hm ha hbq hL5 hu m k hk). Qed.
Lemma both_half m k : (0 < k)%Re -> (bnd d e m k <= 1 / 2)%Re.
Proof. by move=> hk; exact: (@bnd_half d (rim p) (rim q) e u hm ha hbq hL5 m k hk). Qed.
Lemma both_det N M m k : some_orders (truncated d N M) m -> (0 < k)%Re ->
  [/\ (0 <= \tr (U N M m k) <= bnd d e m k)%Re, (0 < \det (1%:M - U N M m k))%Re & (- (2 * bnd d e m k) <= ln (\det (1%:M - U N M m k)) <= - \tr (U N M m k))%Re].
Proof.
move=> ho hk; have [qq [B0 B1]] := both_near m hk; have [g1 g2] := hb hk; have Bh := both_half m hk.
have [t0 t1] := sides_trip hx hm hL hk g1 g2 th qq ho.
have B2 : (reach (3 / 5) e u m k (rim p) (rim q) (c_L c) < 1)%Re by lra.
have [_ cmp] := sides_compare hx hm hL hk g1 g2 th qq ho (le_n N) (le_n M); have [dd _ _] := cmp B2.
have tb : (\tr (U N M m k) <= bnd d e m k)%Re by exact: (Rle_trans _ _ _ t1 B1).
split=> //; have t2 : (\tr (U N M m k) < 1)%Re by apply: (Rle_lt_trans _ _ _ tb); lra.
have c0 : (0 < 1)%Re by lra.
have [_ [A eA]] := @body_A (truncated d N M) e u k hm hk s g1; have [_ [B eB]] := @body_B (truncated d N M) e u k hm hk s hx g2.
have [_ att] := @C98_attraction (truncated d N M) e u m k s 0%Re hx hm hL hk ho g1 g2 c0; have [v [F [hF [v1 v2]]]] := att t2.
have [_ ev] := @fin_det exact_bessels (truncated d N M) m k A B e u 0%Re v F eA eB hm hL hk ho c0 hF.
have ev' : v = ln (\det (1%:M - U N M m k)) by rewrite ev Rabs_pos_eq //; left.
rewrite -ev'; split=> //; apply: (Rle_trans _ (ln (1 - \tr (U N M m k))) _ _ v1).
have aux (t b : R) : (0 <= t -> t <= b -> b <= 1 / 2 -> - (2 * b) <= ln (1 - t))%Re.
  move=> a1 a2 a3; have i0 : (0 < 1 - t)%Re by lra.
  have z := exp_ineq1_le (ln (/ (1 - t))); rewrite exp_ln in z; last exact: Rinv_0_lt_compat.
  rewrite ln_Rinv // in z; suff : (/ (1 - t) <= 1 + 2 * t)%Re by lra.
  apply: (Rmult_le_reg_r (1 - t)) => //; rewrite Rinv_l; [nra|lra].
exact: (aux _ _ t0 tb Bh).
Qed.
Lemma both_less N M N' M' m k : some_orders (truncated d N M) m -> (N <= N')%coq_nat -> (M <= M')%coq_nat -> (0 < k)%Re -> (ln (\det (1%:M - U N' M' m k)) <= ln (\det (1%:M - U N M m k)))%Re.
Proof.
move=> ho hN hM hk; have [qq [B0 B1]] := both_near m hk; have [g1 g2] := hb hk; have Bh := both_half m hk.
have B2 : (reach (3 / 5) e u m k (rim p) (rim q) (c_L c) < 1)%Re by lra.
by have [_ cmp] := sides_compare hx hm hL hk g1 g2 th qq ho hN hM; have [_ _ []] := cmp B2.
Qed.
Lemma both_lnr N M (m : nat) k : some_orders (truncated d N M) (Z.of_nat m) -> (0 < k)%Re -> lnr exact_bessels (truncated d N M) m k = ln (\det (1%:M - U N M (Z.of_nat m) k)).
Proof. by move=> ho hk; have [_ dd _] := both_det ho hk; rewrite /lnr Rabs_pos_eq //; left. Qed.
Lemma both_lower N M k : (1 <= N)%coq_nat -> (N <= M)%coq_nat -> (0 < k)%Re -> (- (4 * exp (- (way e k (c_L c) / 70))) <= gsum d N M k)%Re.
Proof.
move=> a1 a2 hk; apply: rsum_lower; first by left; exact: exp_pos.
move=> m hmx; have ho := orders_at d a1 a2 hmx; rewrite (both_lnr ho hk); have [_ _ [z _]] := both_det ho hk.
apply: (Rle_trans _ _ _ _ z); right; rewrite /bnd; have -> : lmin (Z.of_nat m) = Nat.max 1 m by rewrite /lmin; lia.
by rewrite [c_L d]/=; set pp := pow _ _; set qq := exp _; have -> : (2 * (1 / 2 * pp * qq) = pp * qq)%Re by field.
Qed.
Lemma both_gsum N M N' M' k : (1 <= N)%coq_nat -> (N <= M)%coq_nat -> (N' <= M')%coq_nat -> (N <= N')%coq_nat -> (M <= M')%coq_nat -> (0 < k)%Re -> (gsum d N' M' k <= gsum d N M k)%Re.
Proof.
move=> a1 a2 a3 a4 a5 hk; rewrite /gsum.
have nonpos m : (m <= N')%coq_nat -> (lnr exact_bessels (truncated d N' M') m k <= 0)%Re.
  move=> hmx; have b1 : (1 <= N')%coq_nat by lia.
  have ho := orders_at d b1 a3 hmx; rewrite (both_lnr ho hk); have [[t0 _] _ [_ z]] := both_det ho hk.
  have r (x t : R) : (0 <= t -> x <= - t -> x <= 0)%Re by lra.
  exact: (r _ _ t0 z).
have less m : (m <= N)%coq_nat -> (lnr exact_bessels (truncated d N' M') m k <= lnr exact_bessels (truncated d N M) m k)%Re.
  move=> hmx; have ho := orders_at d a1 a2 hmx; rewrite (both_lnr ho hk) (both_lnr (cut_orders a4 a5 ho) hk); exact: both_less.
exact: rsum_less.
Qed.
Lemma both_neg N M (m : nat) k : (1 <= N)%coq_nat -> (N <= M)%coq_nat -> (m <= N)%coq_nat -> (0 < k)%Re -> visible c s p e u k -> visible c s q e u k ->
  \det (1%:M - trip exact_bessels (truncated d N M) (Z.of_nat m) k) <> 0 /\ (lnr exact_bessels (truncated d N M) m k < 0)%Re.
Proof.
move=> a1 a2 a3 hk b1 b2; have ho := orders_at d a1 a2 a3; have [g1 g2] := hb hk.
have tp := @visible_trace (truncated d N M) e u s (Z.of_nat m) k hx hm hL hk g1 g2 b1 b2 ho.
have [_ dd [_ z]] := both_det ho hk.
rewrite (both_lnr ho hk); split; first by move=> E; rewrite /U E in dd; exact: (Rlt_irrefl _ dd).
have r (x y : R) : (0 < y -> x <= - y -> x < 0)%Re by lra.
exact: (r _ _ tp z).
Qed.
End Bodies.

(** ** the free energies converge when lmax, lssmax and nmax grow: each decreases towards its limit *)
Theorem C106_limit : forall c p q e u e0 s precision conv dT Tmax, c_ext c = true -> has (c_med c) e u -> (5 * (rim p + rim q) <= c_L c)%Re ->
  (0 < e0)%Re -> (forall k, (0 < k)%Re -> u k = 1%Re /\ (e0 <= e k)%Re) -> (forall k, (0 < k)%Re -> body c s p e u k /\ body c s q e u k) -> (forall k, (0 < k)%Re -> visible c s p e u k /\ visible c s q e u k) ->
  (conv < 1)%Re -> (precision <= 0)%Re -> (0 < dT)%Re -> let d := truncated (with_spheres c p q) in
  exists w : nat -> R, (forall i, (w i < 0)%Re) /\ forall eps, (0 < eps)%Re -> exists N0, forall N M nmax t, (1 <= N)%coq_nat -> (N <= M)%coq_nat -> (1 <= nmax)%coq_nat ->
    ready exact_bessels (d N M) t nmax -> t_deltaT t = dT -> t_Tmax t = Tmax -> t_analytic t = false ->
    exists Nf, forall fuel, (Nf <= fuel)%N -> forall unk garbage empty, exists t1 F,
      [/\ free_energy (ops unk fuel exact_bessels trans_bessels (d N M) precision conv false garbage) empty t = (t1, Ok F), List.length F = Z.to_nat (pyround (Tmax / dT)) &
          forall i : nat, (i < List.length F)%coq_nat -> exists x, [/\ List.nth_error F i = Some x, (w i <= x < 0)%Re & ((N0 <= N)%coq_nat -> (N0 <= nmax)%coq_nat -> (x < w i + eps)%Re)]].
Proof.
move=> c p q e u e0 s precision conv dT Tmax hx hm hL5 he0 hu hb hg hc hp hT d.
have hu' k (hk : (0 < k)%Re) := proj1 (hu k hk).
have [b1 b2] := hb 1%Re Rlt_0_1; have ra := rim_pos hm Rlt_0_1 b1; have rb := rim_pos hm Rlt_0_1 b2.
have hL : (0 < c_L c)%Re by lra.
have e10 : (0 < 1e-10)%Re by lra.
pose f := (c_L c * sqrt e0 / 70)%Re; have sp := sqrt_lt_R0 _ he0; have f0 : (0 < f)%Re by rewrite /f; have := Rmult_lt_0_compat _ _ hL sp; lra.
pose c0 := with_spheres c p q.
pose G N M n i := matsubara (gsum c0 N M) 1e-10 dT n i.+1.
have neg N M m k : (1 <= N)%coq_nat -> (N <= M)%coq_nat -> (m <= N)%coq_nat -> (0 < k)%Re -> \det (1%:M - trip exact_bessels (d N M) (Z.of_nat m) k) <> 0 /\ (lnr exact_bessels (d N M) m k < 0)%Re.
  by move=> a1 a2 a3 hk; have [g1 g2] := hg k hk; exact: (both_neg hx hm hL5 hu' hb a1 a2 a3 hk g1 g2).
have gneg N M k : (1 <= N)%coq_nat -> (N <= M)%coq_nat -> (0 < k)%Re -> (gsum c0 N M k < 0)%Re by move=> a1 a2 hk; apply: rsum_neg => m hmx; exact: (proj2 (neg N M m k a1 a2 hmx hk)).
have low k N M : (0 < k)%Re -> (1 <= N)%coq_nat -> (N <= M)%coq_nat -> (- (4 * exp (- (f * k))) <= gsum c0 N M k)%Re.
  move=> hk a1 a2; apply: (Rle_trans _ _ _ _ (both_lower hx hm hL5 hu' hb a1 a2 hk)).
  have [_ hek] := hu k hk; have sl : (sqrt e0 <= sqrt (e k))%Re by exact: sqrt_le_1_alt.
  have le : (f * k <= way e k (c_L c) / 70)%Re.
    rewrite /f /way; have := Rmult_le_compat_l (k * c_L c) _ _ (Rlt_le _ _ (Rmult_lt_0_compat _ _ hk hL)) sl; lra.
  have : (exp (- (way e k (c_L c) / 70)) <= exp (- (f * k)))%Re by case: (Req_dec (f * k) (way e k (c_L c) / 70)) => [->|ne]; [right|left; apply: exp_increasing; lra].
  lra.
have lim i : { w | (forall N M n, (1 <= N)%coq_nat -> (N <= M)%coq_nat -> (w <= G N M n i)%Re) /\
        forall eps, (0 < eps)%Re -> exists N0, forall N M n, (N0 <= N)%coq_nat -> (N <= M)%coq_nat -> (N0 <= n)%coq_nat -> (G N M n i < w + eps)%Re }.
  apply: (@triple_limit (fun N M n => G N M n i) (- (INR i.+1 * dT * (2 + 4 * (exp (- (f * (INR i.+1 * dT))) / (1 - exp (- (f * (INR i.+1 * dT)))))))))%Re.
  - move=> N M n N' M' n' a1 a2 a3 a4 a5 a6; have b3 : (1 <= N')%coq_nat by lia.
    apply: matsubara_less => //; [lia| |by move=> k hk; left; exact: gneg].
    by move=> k hk; exact: (both_gsum hx hm hL5 hu' hb).
  - by move=> N M n a1 a2; apply: matsubara_lower => //; [lia|move=> k hk; exact: low].
pose w i := proj1_sig (lim i).
have Gneg N M n i : (1 <= N)%coq_nat -> (N <= M)%coq_nat -> (G N M n i < 0)%Re.
  move=> a1 a2; rewrite /G -(sliced_matsubara _ (fun=> gsum c0 N M) (gsum c0 N M) 1e-10 dT n i.+1 (le_n_S _ _ (le_0_n i)) erefl) //.
  apply: sliced_neg => //; [lia|exact: gneg|].
  by move=> j [hj _]; left; apply: gneg => //; apply: Rmult_lt_0_compat => //; apply: lt_0_INR; lia.
exists w; split.
  move=> i; have [z _] := proj2_sig (lim i); have one : (1 <= 1)%coq_nat by [].
  exact: (Rle_lt_trans _ _ _ (z 1%N 1%N 1%N one one) (Gneg 1%N 1%N 1%N i one one)).
move=> eps heps; have [N0 hN0] : exists N0, forall i, (i < Z.to_nat (pyround (Tmax / dT)))%coq_nat -> forall N M n, (N0 <= N)%coq_nat -> (N <= M)%coq_nat -> (N0 <= n)%coq_nat -> (G N M n i < w i + eps)%Re.
  apply: (@bounded_choice (fun i N0 => forall N M n, (N0 <= N)%coq_nat -> (N <= M)%coq_nat -> (N0 <= n)%coq_nat -> (G N M n i < w i + eps)%Re)).
  - by move=> i a b h ab N M n k1 k2 k3; apply: h => //; lia.
  - by move=> i _; have [_ z] := proj2_sig (lim i); exact: z.
exists N0 => N M nmax t a1 a2 a3 hR eT eM hA.
have hS : objects (d N M) e u by do 6 (split; first by [apply: (body_object b1)|apply: (body_object b2)|]).
have [Nf hNf] := full_bodies hS hc hp hR hA a3 (fun m k hmx hk => neg N M m k a1 a2 hmx hk).
exists Nf => fuel hf unk garbage empty; have [t1 [F [E1 E2 E3]]] := hNf fuel hf unk garbage empty; rewrite eT eM in E2.
exists t1, F; split=> // i hi; exists (G N M nmax i); split; first by rewrite (E3 i hi) eT.
- by split; [have [z _] := proj2_sig (lim i); exact: z|exact: Gneg].
- by move=> k1 k2; apply: hN0 => //; rewrite -E2.
Qed.
Print Assumptions C106_limit.

Lemma visible_distance c e u s m k L L' : c_ext c = true -> has (c_med c) e u -> (0 < k)%Re -> some_orders c m -> body c s (c_1 c) e u k -> body c s (c_2 c) e u k -> visible c s (c_1 c) e u k -> visible c s (c_2 c) e u k -> (0 < L)%Re -> (L < L')%Re ->
  (0 < \tr (trip exact_bessels (at_distance c L') m k) < \tr (trip exact_bessels (at_distance c L) m k))%Re.
Proof.
move=> hx hm hk ho g1 g2 b1 b2 h0 h1; have [o0 [o1 o2]] := ho.
have [s1 _] := body_A hm hk g1; have [s2 _] := body_B hm hk hx g2.
have lE : lmin m = (Nat.sub (lmin m) 1).+1 by rewrite /lmin; lia.
have lA : (Nat.sub (lmin m) 1 < c_lmax c)%coq_nat by rewrite /lmin; lia.
have lB : (Nat.sub (lmin m) 1 < c_lssmax c)%coq_nat by rewrite /lmin; lia.
have t1 : (0 < s * (-1) ^ lmin m * entry TE (mieA exact_bessels c) (Nat.sub (lmin m) 1) k)%Re.
  by rewrite {1}lE; exact: (C105_coefficients hm hk g1 b1 lA).
have t2 : (0 < s * (-1) ^ lmin m * entry TE (mieB exact_bessels c) (Nat.sub (lmin m) 1) k)%Re.
  by rewrite {1}lE /mieB hx; exact: (C105_coefficients hm hk g2 b2 lB).
exact: (distance_strict hx hm hk ho (body_sq g1) s1 s2 h0 h1 t1 t2).
Qed.

(** ** bodies that scatter: strictly less *)
Theorem C106_strict : forall c e u s m k conv L L', c_ext c = true -> has (c_med c) e u -> (0 < k)%Re -> some_orders c m -> body c s (c_1 c) e u k -> body c s (c_2 c) e u k -> visible c s (c_1 c) e u k -> visible c s (c_2 c) e u k ->
  (conv < 1)%Re -> (0 < L)%Re -> (L < L')%Re -> let U L := trip exact_bessels (at_distance c L) m k in
  (0 < \tr (U L') < \tr (U L))%Re /\
  ((\tr (U L) < 1)%Re -> exists v v' N, (forall fuel, (N <= fuel)%N -> rt_lndet exact_bessels trans_bessels (at_distance c L) fuel conv m [:: k] = Some (Val [:: Fin v]) /\
      rt_lndet exact_bessels trans_bessels (at_distance c L') fuel conv m [:: k] = Some (Val [:: Fin v'])) /\ (v < v')%Re /\ (v' < 0)%Re).
Proof.
move=> c e u s m k conv L L' hx hm hk ho g1 g2 b1 b2 hc h0 h1 U.
have [p0 p1] := visible_distance hx hm hk ho g1 g2 b1 b2 h0 h1; split; first by split.
have [_ t2] := C102_distance hx hm hk ho g1 g2 hc h0 h1.
move=> ht; have [v [v' [N [hN [v1 v2]]]]] := t2 ht; exists v, v', N; split; first exact: hN.
have aux (a b x y : R) : (a + (x - y) <= b -> y < x -> a < b)%Re by lra.
have aux2 (a x : R) : (a <= - x -> 0 < x -> a < 0)%Re by lra.
by split; [exact: (aux _ _ _ _ v1 p1)|exact: (aux2 _ _ v2 p0)].
Qed.
Print Assumptions C106_strict.

(** ** complete calculations *)
Theorem C106_distance : forall c p q e u s precision conv t nmax L L', c_ext c = true -> has (c_med c) e u -> (1 <= c_lmax c)%coq_nat -> (c_lmax c <= c_lssmax c)%coq_nat -> (5 * (rim p + rim q) <= L)%Re -> (L < L')%Re ->
  (forall k, (0 < k)%Re -> u k = 1%Re) -> (forall k, (0 < k)%Re -> body c s p e u k /\ body c s q e u k) -> (forall k, (0 < k)%Re -> visible c s p e u k /\ visible c s q e u k) ->
  (conv < 1)%Re -> (precision <= 0)%Re -> (1 <= nmax)%coq_nat -> let d L := with_spheres (at_distance c L) p q in
  ready exact_bessels (d L) t nmax -> ready exact_bessels (d L') t nmax -> t_analytic t = false ->
  exists N, forall fuel, (N <= fuel)%N -> forall unk garbage empty, exists t1 t2 F F',
    [/\ free_energy (ops unk fuel exact_bessels trans_bessels (d L) precision conv false garbage) empty t = (t1, Ok F),
        free_energy (ops unk fuel exact_bessels trans_bessels (d L') precision conv false garbage) empty t = (t2, Ok F'),
        List.length F = Z.to_nat (pyround (t_Tmax t / t_deltaT t)), List.length F' = List.length F &
        forall i : nat, (i < List.length F)%coq_nat -> exists x x', [/\ List.nth_error F i = Some x, List.nth_error F' i = Some x', (x < x')%Re & (x' < 0)%Re]].
Proof.
move=> c p q e u s precision conv t nmax L L' hx hm o1 o2 hL5 hLL hu hb hg hc hp hn d hR hR' hA.
have [b1 b2] := hb 1%Re Rlt_0_1; have ra := rim_pos hm Rlt_0_1 b1; have rb := rim_pos hm Rlt_0_1 b2.
have hL : (0 < L)%Re by lra.
have hL' : (0 < L')%Re by lra.
have hL5' : (5 * (rim p + rim q) <= L')%Re by lra.
have e10 : (0 < 1e-10)%Re by lra.
have [_ [_ [_ [HT _]]]] := hR.
have hS l : (0 < l)%Re -> objects (d l) e u by move=> hl; do 6 (split; first by [apply: (body_object b1)|apply: (body_object b2)|]).
have neg l m k : (5 * (rim p + rim q) <= l)%Re -> (m <= c_lmax (d l))%coq_nat -> (0 < k)%Re -> \det (1%:M - trip exact_bessels (d l) (Z.of_nat m) k) <> 0 /\ (lnr exact_bessels (d l) m k < 0)%Re.
  by move=> hl a3 hk; have [g1 g2] := hg k hk; exact: (@both_neg (at_distance c l) p q e u s hx hm hl hu hb (c_lmax c) (c_lssmax c) m k o1 o2 a3 hk g1 g2).
have less m k : (m <= c_lmax c)%coq_nat -> (0 < k)%Re -> (lnr exact_bessels (d L) m k < lnr exact_bessels (d L') m k)%Re.
  move=> a3 hk; have [g1 g2] := hb k hk; have [z1 z2] := hg k hk.
  have ho : some_orders (with_spheres c p q) (Z.of_nat m) by rewrite /some_orders /=; lia.
  have [_ p1] := @visible_distance (with_spheres c p q) e u s (Z.of_nat m) k L L' hx hm hk ho g1 g2 z1 z2 hL hLL.
  have [s1 _] := @body_A (with_spheres c p q) e u k hm hk s g1; have [s2 _] := @body_B (with_spheres c p q) e u k hm hk s hx g2.
  have [_ t2] := @distance_gap exact_bessels (with_spheres c p q) (Z.of_nat m) k e u s hx hm hk ho (body_sq g1) s1 s2 L L' hL hLL.
  have ho1 : some_orders (truncated (d L) (c_lmax c) (c_lssmax c)) (Z.of_nat m) by [].
  have [[_ tb] _ _] := @both_det (at_distance c L) p q e u s hx hm hL5 hu hb (c_lmax c) (c_lssmax c) (Z.of_nat m) k ho1 hk.
  have bh := @both_half (at_distance c L) p q e u s hm hL5 hb (Z.of_nat m) k hk.
  have ht : (\tr (trip exact_bessels (d L) (Z.of_nat m) k) < 1)%Re by apply: (Rle_lt_trans _ _ _ tb); lra.
  have [d1 d2 hv] := t2 ht; rewrite /lnr !Rabs_pos_eq; [|by left|by left].
  have aux (a b x y : R) : (a + (x - y) <= b -> y < x -> a < b)%Re by lra.
  exact: (aux _ _ _ _ hv p1).
have [N1 hN1] := full_bodies (hS L hL) hc hp hR hA hn (fun m k => neg L m k hL5); have [N2 hN2] := full_bodies (hS L' hL') hc hp hR' hA hn (fun m k => neg L' m k hL5').
exists (maxn N1 N2) => fuel; rewrite geq_max => /andP [f1 f2] unk garbage empty.
have [t1 [F [E1 E2 E3]]] := hN1 fuel f1 unk garbage empty; have [t2 [F' [E1' E2' E3']]] := hN2 fuel f2 unk garbage empty.
have EL : List.length F' = List.length F by rewrite E2 E2'.
exists t1, t2, F, F'; split=> // i hi; have hi' : (i < List.length F')%coq_nat by rewrite EL.
have i1 : (1 <= i.+1)%coq_nat by lia.
eexists; eexists; split; [exact: (E3 i hi)|exact: (E3' i hi')| |].
- by apply: matsubara_lt => // k hk; apply: rsum_lt => m hmx; exact: less.
- have z : matsubara (fun=> 0%Re) 1e-10 (t_deltaT t) nmax i.+1 = 0%Re.
    rewrite /matsubara; have -> : Rsum (List.map (fun=> 0%Re) (List.seq 1 (Nat.div nmax i.+1))) = 0%Re; last by lra.
    by elim: (List.seq _ _) => [//|a l IH] /=; rewrite IH; lra.
  rewrite -z; apply: matsubara_lt => // k hk; apply: rsum_neg => m hmx; exact: (proj2 (neg L' m k hL5' hmx hk)).
Qed.
Print Assumptions C106_distance.

(** ** Non-vacuity: two bubbles with a shell of vacuum in a metallic medium, at the distances 20 and 25 *)
Definition foams : config := with_spheres (at_distance bubble 20) foam foam.
Lemma foams_sides k : (0 < k)%Re -> body foams (- (1 : R)) foam (eps_spec e_Gold) (mu_val None) k /\ body foams (- (1 : R)) foam (eps_spec e_Gold) (mu_val None) k.
Proof. by move=> hk; split; exact: foam_thinner. Qed.
Lemma foams_visible k : (0 < k)%Re -> visible foams (- (1 : R)) foam (eps_spec e_Gold) (mu_val None) k /\ visible foams (- (1 : R)) foam (eps_spec e_Gold) (mu_val None) k.
Proof. by move=> hk; have [_ h] := bubble_visible hk; split; exact: h. Qed.
Example C106_foams : exists w : nat -> R, (forall i, (w i < 0)%Re) /\ forall eps, (0 < eps)%Re -> exists N0, forall N nmax, (1 <= N)%coq_nat -> (1 <= nmax)%coq_nat ->
    exists Nf, forall fuel, (Nf <= fuel)%N -> forall unk garbage empty, exists t1 F,
      [/\ free_energy (ops unk fuel exact_bessels trans_bessels (truncated foams N N) 0 1e-10 false garbage) empty (task (1 / 10) 3 nmax false) = (t1, Ok F), List.length F = Z.to_nat (pyround (3 / (1 / 10))) &
          forall i : nat, (i < List.length F)%coq_nat -> exists x, [/\ List.nth_error F i = Some x, (w i <= x < 0)%Re & ((N0 <= N)%coq_nat -> (N0 <= nmax)%coq_nat -> (x < w i + eps)%Re)]].
Proof.
have d1 : (0 < 1 / 10)%Re by lra.
have hab : (5 * (rim foam + rim foam) <= c_L foams)%Re by rewrite /rim /=; lra.
have g k : (0 < k)%Re -> mu_val None k = 1%Re /\ (1 <= eps_spec e_Gold k)%Re by move=> hk; split=> //; have := gold_above hk; rewrite {1}/eps_spec /=; move: (eps_spec e_Gold k) => y; lra.
have [||||w [w0 h]] := @C106_limit foams foam foam (eps_spec e_Gold) (mu_val None) 1%Re (- (1 : R)) 0%Re 1e-10%Re (1 / 10)%Re 3%Re erefl gold_has hab _ g foams_sides foams_visible; try lra.
exists w; split; first exact: w0.
move=> eps /h [N0 h']; exists N0 => N nmax a1 a2.
exact: (h' N N nmax (task (1 / 10) 3 nmax false) a1 (le_n N) a2 (@task_ready _ _ _ _ _ _ d1) erefl erefl erefl).
Qed.
Example C106_apart nmax : (1 <= nmax)%coq_nat ->
  exists N, forall fuel, (N <= fuel)%N -> forall unk garbage empty, exists t1 t2 F F',
    [/\ free_energy (ops unk fuel exact_bessels trans_bessels (truncated (at_distance foams 20) 3 3) 0 1e-10 false garbage) empty (task (1 / 10) 3 nmax false) = (t1, Ok F),
        free_energy (ops unk fuel exact_bessels trans_bessels (truncated (at_distance foams 25) 3 3) 0 1e-10 false garbage) empty (task (1 / 10) 3 nmax false) = (t2, Ok F'),
        List.length F = Z.to_nat (pyround (3 / (1 / 10))), List.length F' = List.length F &
        forall i : nat, (i < List.length F)%coq_nat -> exists x x', [/\ List.nth_error F i = Some x, List.nth_error F' i = Some x', (x < x')%Re & (x' < 0)%Re]].
Proof.
move=> hn; have d1 : (0 < 1 / 10)%Re by lra.
apply: (@C106_distance (truncated foams 3 3) foam foam (eps_spec e_Gold) (mu_val None) (- (1 : R)) 0%Re 1e-10%Re (task (1 / 10) 3 nmax false) nmax 20%Re 25%Re erefl gold_has _ _ _ _ _ foams_sides foams_visible _ _ hn (@task_ready _ _ _ _ _ _ d1) (@task_ready _ _ _ _ _ _ d1) erefl); try (rewrite /=; lia); try (rewrite /= /rim /=; lra).
by [].
Qed.
