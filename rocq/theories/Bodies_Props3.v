(** * Property C101: free energies of solid and stratified spheres converge when the largest orders and the number of frequencies grow *)
From Coq Require Import Reals.
From Coq Require Import List Lia Lra ZArith.
From mathcomp Require Import all_ssreflect ssralg ssrnum fingroup perm matrix mxalgebra poly mxpoly.
From Verif Require Import Base RStruct Mat_Model Mat_Spec Mat_Proofs Thermo_Model Thermo_Proofs Geo_Model Geo_Spec Bessel_Model Scat_Model Scat_Spec Scat_Proofs Scat_Proofs4 Scat_Proofs7 Scat_Proofs9 Scat_Proofs10 Scat_Props Scat_Props2 Trans_Model Trans_Spec Trans_Proofs3
  Lin_Model Lin_Spec Bal_Proofs Lin_Proofs Trip_Proofs Lin_Proofs2 RT_Model RT_Spec RT_Spec2 RT_Proofs RT_Proofs2 RT_Proofs3 RT_Proofs4 RT_Proofs6 RT_Proofs7 RT_Proofs8 RT_Proofs9 RT_Proofs10
  RT_Props RT_Props2 RT_Props3 RT_Props5 Exp_Proofs2 Lap_Proofs2 Mono_Proofs Mono_Proofs2 Mono_Proofs3 RT_Props8 Cut_Proofs RT_Props9
  Run_Model Run_Spec Run_Proofs Run_Proofs2 Run_Proofs3 Run_Proofs4 Run_Proofs5 Run_Proofs9 Run_Props Run_Props2 Run_Props7 Conv_Spec Conv_Spec2 Conv_Proofs3 Conv_Proofs4 Conv_Proofs5 Conv_Proofs6 Conv_Proofs8 Conv_Proofs9 Conv_Props Conv_Props2
  Rad_Spec Rad_Proofs Rad_Proofs2 RT_Props10 Layer_Spec Layer_Proofs3 Layer_Proofs4 Layer_Props Bodies_Spec Bodies_Proofs Bodies_Proofs2 Bodies_Proofs3 Bodies_Props Bodies_Proofs4 Bodies_Props2 Bodies_Spec2 Bodies_Proofs6.
Set Implicit Arguments.
Unset Strict Implicit.
Import GRing.Theory.
Local Open Scope ring_scope.
Delimit Scope R_scope with Re.

(** ** the electric coefficients of bodies that scatter do not vanish *)
Theorem C101_coefficients : forall c sp e u k lmax j, has (c_med c) e u -> (0 < k)%Re -> body c 1 sp e u k -> bright c sp e u k -> (j < lmax)%coq_nat ->
  (0 < (-1) ^ j.+1 * entry TE (fun ks => match sp with Solid mm r => mie exact_bessels ks 0 (Z.of_nat lmax) r mm (c_med c) | Layered mats rs => flat (strat exact_bessels ks 0 (Z.of_nat lmax) (c_mat c) mats rs) end) j k)%Re.
Proof.
move=> c [mm r|mats rs] e u k lmax j hm hk hb hg hj.
- have [hr _] := hb; have := ext_strict _ _ hr _ _ _ hm _ hk _ _ _ hg hj.
  have r1 (x y z : R) : x = z -> (0 < 1 * x * y -> 0 < z * y)%Re by move=> ->; rewrite Rmult_1_l.
  by apply: r1; congr pow; lia.
- have [hs [[_ F]|[h _]]] := hb; last by exfalso; lra.
  exact: (stacked_bright _ _ _ hk lmax mats rs e u j hm hs F hg hj).
Qed.
Print Assumptions C101_coefficients.

Lemma bright_trace c e u m k : c_ext c = true -> has (c_med c) e u -> (0 < c_L c)%Re -> (0 < k)%Re -> body c 1 (c_1 c) e u k -> body c 1 (c_2 c) e u k ->
  bright c (c_1 c) e u k -> bright c (c_2 c) e u k -> some_orders c m -> (0 < \tr (trip exact_bessels c m k))%Re.
Proof.
move=> hx hm hL hk g1 g2 b1 b2 ho; have [o0 [o1 o2]] := ho.
have [s1 _] := body_A hm hk g1; have [s2 _] := body_B hm hk hx g2.
have lE : lmin m = (Nat.sub (lmin m) 1).+1 by rewrite /lmin; lia.
have lA : (Nat.sub (lmin m) 1 < c_lmax c)%coq_nat by rewrite /lmin; lia.
have lB : (Nat.sub (lmin m) 1 < c_lssmax c)%coq_nat by rewrite /lmin; lia.
have r (x y : R) : (0 < x * y -> 0 < 1 * x * y)%Re by rewrite Rmult_1_l.
have t1 : (0 < 1 * (-1) ^ lmin m * entry TE (mieA exact_bessels c) (Nat.sub (lmin m) 1) k)%Re.
  by apply: r; rewrite {1}lE; exact: (C101_coefficients hm hk g1 b1 lA).
have t2 : (0 < 1 * (-1) ^ lmin m * entry TE (mieB exact_bessels c) (Nat.sub (lmin m) 1) k)%Re.
  by apply: r; rewrite {1}lE /mieB hx; exact: (C101_coefficients hm hk g2 b2 lB).
have [c2 c3] : (0 < c_L c / 2)%Re /\ (c_L c / 2 < c_L c)%Re by lra.
have [h _] := distance_strict hx hm hk ho (body_sq g1) s1 s2 c2 c3 t1 t2.
by rewrite same_distance in h.
Qed.

Section Bodies.
Context (c : config) (p q : sphere) (e u : R -> R).
Context (hx : c_ext c = true) (hm : has (c_med c) e u) (hL5 : (5 * (rim p + rim q) <= c_L c)%Re).
Context (hu : forall k, (0 < k)%Re -> u k = 1%Re) (hb : forall k, (0 < k)%Re -> body c 1 p e u k /\ body c 1 q e u k).
Let ha : (0 < rim p)%Re. Proof. by have [b1 _] := hb Rlt_0_1; exact: (rim_pos hm Rlt_0_1 b1). Qed.
Let hbq : (0 < rim q)%Re. Proof. by have [_ b1] := hb Rlt_0_1; exact: (rim_pos hm Rlt_0_1 b1). Qed.
Let hL : (0 < c_L c)%Re. Proof. have := ha; have := hbq; lra. Qed.
Let th : (0 < 3 / 5 <= 1)%Re. Proof. lra. Qed.
Let d := with_spheres c p q.
Let U N M m k := trip exact_bessels (truncated d N M) m k.
Lemma far_near m k : (0 < k)%Re -> (rate (3 / 5) e u k (rim p) (rim q) (c_L c) < 1)%Re /\ (0 < reach (3 / 5) e u m k (rim p) (rim q) (c_L c) <= bnd d e m k)%Re.
Proof. by move=> hk; exact: (@near d (rim p) (rim q) e u hm ha hbq hL5 hu m k hk). Qed.
Lemma far_half m k : (0 < k)%Re -> (bnd d e m k <= 1 / 2)%Re.
Proof. by move=> hk; exact: (@bnd_half d (rim p) (rim q) e u hm ha hbq hL5 m k hk). Qed.
Lemma far_det N M m k : some_orders (truncated d N M) m -> (0 < k)%Re ->
  [/\ (0 <= \tr (U N M m k) <= bnd d e m k)%Re, (0 < \det (1%:M - U N M m k))%Re & (- (2 * bnd d e m k) <= ln (\det (1%:M - U N M m k)) <= - \tr (U N M m k))%Re].
Proof.
move=> ho hk; have [qq [B0 B1]] := far_near m hk; have [g1 g2] := hb hk; have Bh := far_half m hk.
have [t0 t1] := tail_trip hx hm hL hk g1 g2 th qq ho.
have B2 : (reach (3 / 5) e u m k (rim p) (rim q) (c_L c) < 1)%Re by lra.
have [_ cmp] := tail_compare hx hm hL hk g1 g2 th qq ho (le_n N) (le_n M); have [dd _ _] := cmp B2.
have tb : (\tr (U N M m k) <= bnd d e m k)%Re by exact: (Rle_trans _ _ _ t1 B1).
split=> //; have t2 : (\tr (U N M m k) < 1)%Re by apply: (Rle_lt_trans _ _ _ tb); lra.
have c0 : (0 < 1)%Re by lra.
have [_ [A eA]] := @body_A (truncated d N M) e u k hm hk 1 g1; have [_ [B eB]] := @body_B (truncated d N M) e u k hm hk 1 hx g2.
have [_ att] := @C98_attraction (truncated d N M) e u m k 1 0%Re hx hm hL hk ho g1 g2 c0; have [v [F [hF [v1 v2]]]] := att t2.
have [_ ev] := @fin_det exact_bessels (truncated d N M) m k A B e u 0%Re v F eA eB hm hL hk ho c0 hF.
have ev' : v = ln (\det (1%:M - U N M m k)) by rewrite ev Rabs_pos_eq //; left.
rewrite -ev'; split=> //; apply: (Rle_trans _ (ln (1 - \tr (U N M m k))) _ _ v1).
have aux (t b : R) : (0 <= t -> t <= b -> b <= 1 / 2 -> - (2 * b) <= ln (1 - t))%Re.
  move=> a1 a2 a3; have i0 : (0 < 1 - t)%Re by lra.
  have z := exp_ineq1_le (ln (/ (1 - t))); rewrite exp_ln in z; last exact: Rinv_0_lt_compat.
  rewrite ln_Rinv // in z; suff : (/ (1 - t) <= 1 + 2 * t)%Re by lra.
  apply: (Rmult_le_reg_r (1 - t)) => //; rewrite Rinv_l; [nra|lra].
exact: (aux _ _ t0 tb Bh).
Qed.
Lemma far_less N M N' M' m k : some_orders (truncated d N M) m -> (N <= N')%coq_nat -> (M <= M')%coq_nat -> (0 < k)%Re -> (ln (\det (1%:M - U N' M' m k)) <= ln (\det (1%:M - U N M m k)))%Re.
Proof.
move=> ho hN hM hk; have [qq [B0 B1]] := far_near m hk; have [g1 g2] := hb hk; have Bh := far_half m hk.
have B2 : (reach (3 / 5) e u m k (rim p) (rim q) (c_L c) < 1)%Re by lra.
by have [_ cmp] := tail_compare hx hm hL hk g1 g2 th qq ho hN hM; have [_ _ []] := cmp B2.
Qed.
Lemma far_lnr N M (m : nat) k : some_orders (truncated d N M) (Z.of_nat m) -> (0 < k)%Re -> lnr exact_bessels (truncated d N M) m k = ln (\det (1%:M - U N M (Z.of_nat m) k)).
Proof. by move=> ho hk; have [_ dd _] := far_det ho hk; rewrite /lnr Rabs_pos_eq //; left. Qed.
Lemma far_lower N M k : (1 <= N)%coq_nat -> (N <= M)%coq_nat -> (0 < k)%Re -> (- (4 * exp (- (way e k (c_L c) / 70))) <= gsum d N M k)%Re.
Proof.
move=> a1 a2 hk; apply: rsum_lower; first by left; exact: exp_pos.
move=> m hmx; have ho := orders_at d a1 a2 hmx; rewrite (far_lnr ho hk); have [_ _ [z _]] := far_det ho hk.
apply: (Rle_trans _ _ _ _ z); right; rewrite /bnd; have -> : lmin (Z.of_nat m) = Nat.max 1 m by rewrite /lmin; lia.
by rewrite [c_L d]/=; set pp := pow _ _; set qq := exp _; have -> : (2 * (1 / 2 * pp * qq) = pp * qq)%Re by field.
Qed.
Lemma far_gsum N M N' M' k : (1 <= N)%coq_nat -> (N <= M)%coq_nat -> (N' <= M')%coq_nat -> (N <= N')%coq_nat -> (M <= M')%coq_nat -> (0 < k)%Re -> (gsum d N' M' k <= gsum d N M k)%Re.
Proof.
move=> a1 a2 a3 a4 a5 hk; rewrite /gsum.
have nonpos m : (m <= N')%coq_nat -> (lnr exact_bessels (truncated d N' M') m k <= 0)%Re.
  move=> hmx; have b1 : (1 <= N')%coq_nat by lia.
  have ho := orders_at d b1 a3 hmx; rewrite (far_lnr ho hk); have [[t0 _] _ [_ z]] := far_det ho hk.
  have r (x t : R) : (0 <= t -> x <= - t -> x <= 0)%Re by lra.
  exact: (r _ _ t0 z).
have less m : (m <= N)%coq_nat -> (lnr exact_bessels (truncated d N' M') m k <= lnr exact_bessels (truncated d N M) m k)%Re.
  move=> hmx; have ho := orders_at d a1 a2 hmx; rewrite (far_lnr ho hk) (far_lnr (cut_orders a4 a5 ho) hk); exact: far_less.
exact: rsum_less.
Qed.
Lemma far_neg N M (m : nat) k : (1 <= N)%coq_nat -> (N <= M)%coq_nat -> (m <= N)%coq_nat -> (0 < k)%Re -> bright c p e u k -> bright c q e u k ->
  \det (1%:M - trip exact_bessels (truncated d N M) (Z.of_nat m) k) <> 0 /\ (lnr exact_bessels (truncated d N M) m k < 0)%Re.
Proof.
move=> a1 a2 a3 hk b1 b2; have ho := orders_at d a1 a2 a3; have [g1 g2] := hb hk.
have tp := @bright_trace (truncated d N M) e u (Z.of_nat m) k hx hm hL hk g1 g2 b1 b2 ho.
have [_ dd [_ z]] := far_det ho hk.
rewrite (far_lnr ho hk); split; first by move=> E; rewrite /U E in dd; exact: (Rlt_irrefl _ dd).
have r (x y : R) : (0 < y -> x <= - y -> x < 0)%Re by lra.
exact: (r _ _ tp z).
Qed.
End Bodies.

(** without early stop all terms are summed *)
Lemma full_bodies c e u precision conv t nmax : objects c e u -> (conv < 1)%Re -> (precision <= 0)%Re -> ready exact_bessels c t nmax -> t_analytic t = false -> (1 <= nmax)%coq_nat ->
  (forall m k, (m <= c_lmax c)%coq_nat -> (0 < k)%Re -> \det (1%:M - trip exact_bessels c (Z.of_nat m) k) <> 0 /\ (lnr exact_bessels c m k < 0)%Re) ->
  exists Nf, forall fuel, (Nf <= fuel)%N -> forall unk garbage empty, exists t1 F,
    [/\ free_energy (ops unk fuel exact_bessels trans_bessels c precision conv false garbage) empty t = (t1, Ok F), List.length F = Z.to_nat (pyround (t_Tmax t / t_deltaT t)) &
        forall i : nat, (i < List.length F)%coq_nat -> List.nth_error F i = Some (matsubara (fun k => rsum (fun m => lnr exact_bessels c m k) (c_lmax c)) 1e-10 (t_deltaT t) nmax i.+1)].
Proof.
move=> hS hc hp hR hA hn hneg; have [_ [_ [_ [HT _]]]] := hR.
have e10 : (0 < 1e-10)%Re by lra.
have pos n : (1 <= n)%coq_nat /\ (n <= nmax)%coq_nat -> (0 < t_deltaT t * INR n)%Re by move=> [hn1 _]; apply: Rmult_lt_0_compat => //; apply: lt_0_INR; lia.
have [m hmx|n m hn1 hmx|cut0 [cut [Nf [hc0 hcut hN]]]] := C99_free_energy precision hS hc hR hA hn.
- exact: (proj1 (hneg m _ hmx e10)).
- exact: (proj1 (hneg m _ hmx (pos n hn1))).
have full ks M : ks <> nil -> (forall k, In k ks -> (0 < k)%Re) -> stops_at precision (c_lmax c) (fun m k => ln_abs_det (1%:M - trip exact_bessels c (Z.of_nat m) k)) ks M -> M = c_lmax c.
  move=> hne hks; apply: (no_stop precision (c_lmax c) (fun m k => lnr exact_bessels c m k)) => // m k hmx /hks hk.
  by have [dd l] := hneg m k hmx hk; split=> //; exact: lnd_real.
have c1 : cut0 = c_lmax c by apply: full hc0 => // k [<-|//].
have c3 q : freqs (t_deltaT t) nmax q <> nil -> cut q = c_lmax c by move=> hq; apply: (full _ _ hq _ (hcut q hq)) => k /(freqs_in _ _ _ _) [n [hn1 ->]]; exact: pos.
exists Nf => fuel hf unk garbage empty; have [t1 [F [E1 E2 E3 E4]]] := hN fuel hf unk garbage empty; exists t1, F; split=> // i hi.
have hi1 : (1 <= i.+1)%coq_nat /\ (i.+1 <= List.length F)%coq_nat by lia.
have si : (i.+1 - 1)%coq_nat = i by lia.
have := E4 _ hi1; rewrite si => ->; congr Some; apply: sliced_matsubara; [lia|by rewrite c1|].
move=> n hn1; have hin := freqs_has (t_deltaT t) nmax n hn1.
have hne : freqs (t_deltaT t) nmax (PeanoNat.Nat.div n 50) <> nil by move=> hz; rewrite hz in hin.
by rewrite (c3 _ hne).
Qed.

(** ** the free energies converge when lmax, lssmax and nmax grow: each decreases towards its limit *)
Theorem C101_free_energy : forall c p q e u e0 precision conv dT Tmax, c_ext c = true -> has (c_med c) e u -> (5 * (rim p + rim q) <= c_L c)%Re ->
  (0 < e0)%Re -> (forall k, (0 < k)%Re -> u k = 1%Re /\ (e0 <= e k)%Re) -> (forall k, (0 < k)%Re -> body c 1 p e u k /\ body c 1 q e u k) -> (forall k, (0 < k)%Re -> bright c p e u k /\ bright c q e u k) ->
  (conv < 1)%Re -> (precision <= 0)%Re -> (0 < dT)%Re -> let d := truncated (with_spheres c p q) in
  exists w : nat -> R, (forall i, (w i < 0)%Re) /\ forall eps, (0 < eps)%Re -> exists N0, forall N M nmax t, (1 <= N)%coq_nat -> (N <= M)%coq_nat -> (1 <= nmax)%coq_nat ->
    ready exact_bessels (d N M) t nmax -> t_deltaT t = dT -> t_Tmax t = Tmax -> t_analytic t = false ->
    exists Nf, forall fuel, (Nf <= fuel)%N -> forall unk garbage empty, exists t1 F,
      [/\ free_energy (ops unk fuel exact_bessels trans_bessels (d N M) precision conv false garbage) empty t = (t1, Ok F), List.length F = Z.to_nat (pyround (Tmax / dT)) &
          forall i : nat, (i < List.length F)%coq_nat -> exists x, [/\ List.nth_error F i = Some x, (w i <= x < 0)%Re & ((N0 <= N)%coq_nat -> (N0 <= nmax)%coq_nat -> (x < w i + eps)%Re)]].
Proof.
move=> c p q e u e0 precision conv dT Tmax hx hm hL5 he0 hu hb hg hc hp hT d.
have hu' k (hk : (0 < k)%Re) := proj1 (hu k hk).
have [b1 b2] := hb 1%Re Rlt_0_1; have ra := rim_pos hm Rlt_0_1 b1; have rb := rim_pos hm Rlt_0_1 b2.
have hL : (0 < c_L c)%Re by lra.
have e10 : (0 < 1e-10)%Re by lra.
pose f := (c_L c * sqrt e0 / 70)%Re; have sp := sqrt_lt_R0 _ he0; have f0 : (0 < f)%Re by rewrite /f; have := Rmult_lt_0_compat _ _ hL sp; lra.
pose c0 := with_spheres c p q.
pose G N M n i := matsubara (gsum c0 N M) 1e-10 dT n i.+1.
have neg N M m k : (1 <= N)%coq_nat -> (N <= M)%coq_nat -> (m <= N)%coq_nat -> (0 < k)%Re -> \det (1%:M - trip exact_bessels (d N M) (Z.of_nat m) k) <> 0 /\ (lnr exact_bessels (d N M) m k < 0)%Re.
  by move=> a1 a2 a3 hk; have [g1 g2] := hg k hk; exact: (far_neg hx hm hL5 hu' hb a1 a2 a3 hk g1 g2).
have gneg N M k : (1 <= N)%coq_nat -> (N <= M)%coq_nat -> (0 < k)%Re -> (gsum c0 N M k < 0)%Re by move=> a1 a2 hk; apply: rsum_neg => m hmx; exact: (proj2 (neg N M m k a1 a2 hmx hk)).
have low k N M : (0 < k)%Re -> (1 <= N)%coq_nat -> (N <= M)%coq_nat -> (- (4 * exp (- (f * k))) <= gsum c0 N M k)%Re.
  move=> hk a1 a2; apply: (Rle_trans _ _ _ _ (far_lower hx hm hL5 hu' hb a1 a2 hk)).
  have [_ hek] := hu k hk; have sl : (sqrt e0 <= sqrt (e k))%Re by exact: sqrt_le_1_alt.
  have le : (f * k <= way e k (c_L c) / 70)%Re.
    rewrite /f /way; have := Rmult_le_compat_l (k * c_L c) _ _ (Rlt_le _ _ (Rmult_lt_0_compat _ _ hk hL)) sl; lra.
  have : (exp (- (way e k (c_L c) / 70)) <= exp (- (f * k)))%Re by case: (Req_dec (f * k) (way e k (c_L c) / 70)) => [->|ne]; [right|left; apply: exp_increasing; lra].
  lra.
have lim i : { w | (forall N M n, (1 <= N)%coq_nat -> (N <= M)%coq_nat -> (w <= G N M n i)%Re) /\
        forall eps, (0 < eps)%Re -> exists N0, forall N M n, (N0 <= N)%coq_nat -> (N <= M)%coq_nat -> (N0 <= n)%coq_nat -> (G N M n i < w + eps)%Re }.
  apply: (@triple_limit (fun N M n => G N M n i) (- (INR i.+1 * dT * (2 + 4 * (exp (- (f * (INR i.+1 * dT))) / (1 - exp (- (f * (INR i.+1 * dT)))))))))%Re.
  - move=> N M n N' M' n' a1 a2 a3 a4 a5 a6; have b3 : (1 <= N')%coq_nat by lia.
    apply: matsubara_less => //; [lia| |by move=> k hk; left; exact: gneg].
    by move=> k hk; exact: (far_gsum hx hm hL5 hu' hb).
  - by move=> N M n a1 a2; apply: matsubara_lower => //; [lia|move=> k hk; exact: low].
pose w i := proj1_sig (lim i).
have Gneg N M n i : (1 <= N)%coq_nat -> (N <= M)%coq_nat -> (G N M n i < 0)%Re.
  move=> a1 a2; rewrite /G -(sliced_matsubara _ (fun=> gsum c0 N M) (gsum c0 N M) 1e-10 dT n i.+1 (le_n_S _ _ (le_0_n i)) erefl) //.
  apply: sliced_neg => //; [lia|exact: gneg|].
  by move=> j [hj _]; left; apply: gneg => //; apply: Rmult_lt_0_compat => //; apply: lt_0_INR; lia.
exists w; split.
  move=> i; have [z _] := proj2_sig (lim i); have one : (1 <= 1)%coq_nat by [].
  exact: (Rle_lt_trans _ _ _ (z 1%N 1%N 1%N one one) (Gneg 1%N 1%N 1%N i one one)).
move=> eps heps; have [N0 hN0] : exists N0, forall i, (i < Z.to_nat (pyround (Tmax / dT)))%coq_nat -> forall N M n, (N0 <= N)%coq_nat -> (N <= M)%coq_nat -> (N0 <= n)%coq_nat -> (G N M n i < w i + eps)%Re.
  apply: (@bounded_choice (fun i N0 => forall N M n, (N0 <= N)%coq_nat -> (N <= M)%coq_nat -> (N0 <= n)%coq_nat -> (G N M n i < w i + eps)%Re)).
  - by move=> i a b h ab N M n k1 k2 k3; apply: h => //; lia.
  - by move=> i _; have [_ z] := proj2_sig (lim i); exact: z.
exists N0 => N M nmax t a1 a2 a3 hR eT eM hA.
have hS : objects (d N M) e u by do 6 (split; first by [apply: (body_object b1)|apply: (body_object b2)|]).
have [Nf hNf] := full_bodies hS hc hp hR hA a3 (fun m k hmx hk => neg N M m k a1 a2 hmx hk).
exists Nf => fuel hf unk garbage empty; have [t1 [F [E1 E2 E3]]] := hNf fuel hf unk garbage empty; rewrite eT eM in E2.
exists t1, F; split=> // i hi; exists (G N M nmax i); split; first by rewrite (E3 i hi) eT.
- by split; [have [z _] := proj2_sig (lim i); exact: z|exact: Gneg].
- by move=> k1 k2; apply: hN0 => //; rewrite -E2.
Qed.
Print Assumptions C101_free_energy.

(** ** the contribution of the frequencies beyond nmax is exponentially small *)
Theorem C101_frequencies : forall c p q e u e0 precision conv t t' nmax nmax', c_ext c = true -> has (c_med c) e u -> (1 <= c_lmax c)%coq_nat -> (c_lmax c <= c_lssmax c)%coq_nat -> (5 * (rim p + rim q) <= c_L c)%Re ->
  (0 < e0)%Re -> (forall k, (0 < k)%Re -> u k = 1%Re /\ (e0 <= e k)%Re) -> (forall k, (0 < k)%Re -> body c 1 p e u k /\ body c 1 q e u k) -> (forall k, (0 < k)%Re -> bright c p e u k /\ bright c q e u k) ->
  (conv < 1)%Re -> (precision <= 0)%Re -> (1 <= nmax)%coq_nat -> (nmax <= nmax')%coq_nat -> let d := with_spheres c p q in
  ready exact_bessels d t nmax -> ready exact_bessels d t' nmax' -> t_analytic t = false -> t_analytic t' = false -> t_deltaT t' = t_deltaT t -> t_Tmax t' = t_Tmax t ->
  exists Nf, forall fuel, (Nf <= fuel)%N -> forall unk garbage empty, exists t1 t2 F F',
    [/\ free_energy (ops unk fuel exact_bessels trans_bessels d precision conv false garbage) empty t = (t1, Ok F),
        free_energy (ops unk fuel exact_bessels trans_bessels d precision conv false garbage) empty t' = (t2, Ok F'),
        List.length F = Z.to_nat (pyround (t_Tmax t / t_deltaT t)), List.length F' = List.length F &
        forall i : nat, (i < List.length F)%coq_nat -> exists x x', [/\ List.nth_error F i = Some x, List.nth_error F' i = Some x' &
          let T := (INR i.+1 * t_deltaT t)%Re in let r := exp (- (c_L c * sqrt e0 / 70 * T)) in (x' <= x <= x' + 4 * T * r ^ (Nat.add (Nat.div nmax i.+1) 1) / (1 - r))%Re]].
Proof.
move=> c p q e u e0 precision conv t t' nmax nmax' hx hm o1 o2 hL5 he0 hu hb hg hc hp hn hn' d hR hR' hA hA' eT eM.
have [b1 b2] := hb 1%Re Rlt_0_1; have ra := rim_pos hm Rlt_0_1 b1; have rb := rim_pos hm Rlt_0_1 b2.
have hL : (0 < c_L c)%Re by lra.
have e10 : (0 < 1e-10)%Re by lra.
have [_ [_ [_ [HT _]]]] := hR.
have hS : objects d e u by do 6 (split; first by [apply: (body_object b1)|apply: (body_object b2)|]).
have hu' k (hk : (0 < k)%Re) := proj1 (hu k hk).
have neg m k : (m <= c_lmax d)%coq_nat -> (0 < k)%Re -> \det (1%:M - trip exact_bessels d (Z.of_nat m) k) <> 0 /\ (lnr exact_bessels d m k < 0)%Re.
  by move=> a3 hk; have [g1 g2] := hg k hk; exact: (@far_neg c p q e u hx hm hL5 hu' hb (c_lmax c) (c_lssmax c) m k o1 o2 a3 hk g1 g2).
pose g k := rsum (fun m => lnr exact_bessels d m k) (c_lmax d).
have gneg k : (0 < k)%Re -> (g k < 0)%Re by move=> hk; apply: rsum_neg => m hmx; exact: (proj2 (neg m k hmx hk)).
pose f := (c_L c * sqrt e0 / 70)%Re; have sp := sqrt_lt_R0 _ he0; have f0 : (0 < f)%Re by rewrite /f; have := Rmult_lt_0_compat _ _ hL sp; lra.
have low k : (0 < k)%Re -> (- (4 * exp (- (f * k))) <= g k)%Re.
  move=> hk; have z := @far_lower c p q e u hx hm hL5 hu' hb (c_lmax c) (c_lssmax c) k o1 o2 hk; apply: (Rle_trans _ _ _ _ z).
  have [_ hek] := hu k hk; have sl : (sqrt e0 <= sqrt (e k))%Re by exact: sqrt_le_1_alt.
  have le : (f * k <= way e k (c_L c) / 70)%Re.
    rewrite /f /way; have := Rmult_le_compat_l (k * c_L c) _ _ (Rlt_le _ _ (Rmult_lt_0_compat _ _ hk hL)) sl; lra.
  have : (exp (- (way e k (c_L c) / 70)) <= exp (- (f * k)))%Re by case: (Req_dec (f * k) (way e k (c_L c) / 70)) => [->|ne]; [right|left; apply: exp_increasing; lra].
  lra.
have hn1 : (1 <= nmax')%coq_nat by lia.
have [N1 hN1] := full_bodies hS hc hp hR hA hn neg; have [N2 hN2] := full_bodies hS hc hp hR' hA' hn1 neg.
exists (maxn N1 N2) => fuel; rewrite geq_max => /andP [f1 f2] unk garbage empty.
have [t1 [F [E1 E2 E3]]] := hN1 fuel f1 unk garbage empty; have [t2 [F' [E1' E2' E3']]] := hN2 fuel f2 unk garbage empty; rewrite eT eM in E2'; rewrite eT in E3'.
have EL : List.length F' = List.length F by rewrite E2 E2'.
exists t1, t2, F, F'; split=> // i hi; have hi' : (i < List.length F')%coq_nat by rewrite EL.
eexists; eexists; split; [exact: (E3 i hi)|exact: (E3' i hi')|rewrite -/g => T r; split].
- by apply: matsubara_less => //; [lia|by move=> k hk; right|by move=> k hk; left; exact: gneg].
- have i1 : (1 <= i.+1)%coq_nat by lia.
  have := matsubara_tail g f 1e-10 (t_deltaT t) nmax nmax' i.+1 f0 HT i1 hn' low; rewrite -/T -/r; move: (matsubara _ _ _ nmax _) (matsubara _ _ _ nmax' _) => y y'; lra.
Qed.
Print Assumptions C101_frequencies.

(** ** two bodies that scatter attract each other strictly *)
Theorem C101_attraction : forall c p q e u m k conv, c_ext c = true -> has (c_med c) e u -> (5 * (rim p + rim q) <= c_L c)%Re -> (forall k, (0 < k)%Re -> u k = 1%Re) ->
  (forall k, (0 < k)%Re -> body c 1 p e u k /\ body c 1 q e u k) -> some_orders c m -> (0 < k)%Re -> bright c p e u k -> bright c q e u k -> (conv < 1)%Re ->
  exists v F, (forall fuel, (F <= fuel)%N -> rt_lndet exact_bessels trans_bessels (with_spheres c p q) fuel conv m [:: k] = Some (Val [:: Fin v])) /\ (v < 0)%Re.
Proof.
move=> c p q e u m k conv hx hm hL5 hu hb ho hk b1 b2 hc; have [g1 g2] := hb k hk.
have ra := rim_pos hm hk g1; have rb := rim_pos hm hk g2.
have hL : (0 < c_L c)%Re by lra.
pose d := with_spheres c p q.
have ho' : some_orders (truncated d (c_lmax c) (c_lssmax c)) m by [].
have [_ dd [_ z]] := @far_det c p q e u hx hm hL5 hu hb (c_lmax c) (c_lssmax c) m k ho' hk.
have tp := @bright_trace d e u m k hx hm hL hk g1 g2 b1 b2 ho.
have [_ [A eA]] := @body_A d e u k hm hk 1 g1; have [_ [B eB]] := @body_B d e u k hm hk 1 hx g2.
have [_ [o1 o2]] := ho; have [F hF] := @lndet_total exact_bessels d m k A B e u conv eA eB hm hL hk o1 o2 hc.
exists (ln (\det (1%:M - trip exact_bessels d m k))), F; split; first by move=> fuel /hF ->; rewrite (lnE dd).
have r (x y : R) : (0 < y -> x <= - y -> x < 0)%Re by lra.
exact: (r _ _ tp z).
Qed.
Print Assumptions C101_attraction.

(** ** Non-vacuity: a reflector coated with gold and a hollow gold sphere in vacuum at distance 20 *)
Lemma gold_above k : (0 < k)%Re -> (eps_spec [::] k < eps_spec e_Gold k)%Re.
Proof.
move=> hk; rewrite /eps_spec /=; set a := (1.37e16 / omega_norm)%Re; set b := (0 / omega_norm)%Re; set g := (5.77e13 / omega_norm)%Re.
have on : (0 < omega_norm)%Re by exact: omega_norm_pos.
have a0 : (0 < a)%Re by apply: Rdiv_lt_0_compat => //; lra.
have g0 : (0 < g)%Re by apply: Rdiv_lt_0_compat => //; lra.
have gk := Rmult_lt_0_compat _ _ g0 hk; have kk := Rmult_lt_0_compat _ _ hk hk; have aa := Rmult_lt_0_compat _ _ a0 a0; have bb := Rle_0_sqr b; rewrite /Rsqr in bb.
suff : (0 < a * (a * 1) / (b * (b * 1) + k * (k * 1) + g * k))%Re by lra.
by apply: Rdiv_lt_0_compat; lra.
Qed.
Lemma shells_bright k : (0 < k)%Re -> bright shells coated_pec (eps_spec [::]) (mu_val None) k /\ bright shells hollow_gold (eps_spec [::]) (mu_val None) k.
Proof.
move=> hk; split; first by left.
right; exists 1%N, (eps_spec e_Gold), (mu_val None); split; first by rewrite /=; lia.
split; first by rewrite /=; lra.
by split; [exact gold_has|exact: gold_above].
Qed.
Example C101_shells : exists w : nat -> R, (forall i, (w i < 0)%Re) /\ forall eps, (0 < eps)%Re -> exists N0, forall N M nmax, (1 <= N)%coq_nat -> (N <= M)%coq_nat -> (1 <= nmax)%coq_nat ->
    exists Nf, forall fuel, (Nf <= fuel)%N -> forall unk garbage empty, exists t1 F,
      [/\ free_energy (ops unk fuel exact_bessels trans_bessels (truncated shells N M) 0 1e-10 false garbage) empty (task (1 / 10) 3 nmax false) = (t1, Ok F), List.length F = Z.to_nat (pyround (3 / (1 / 10))) &
          forall i : nat, (i < List.length F)%coq_nat -> exists x, [/\ List.nth_error F i = Some x, (w i <= x < 0)%Re & ((N0 <= N)%coq_nat -> (N0 <= nmax)%coq_nat -> (x < w i + eps)%Re)]].
Proof.
have d1 : (0 < 1 / 10)%Re by lra.
have [||k hk|k hk|k hk||||w [w0 hw]] := @C101_free_energy shells coated_pec hollow_gold (eps_spec [::]) (mu_val None) 1%Re 0%Re 1e-10%Re (1 / 10)%Re 3%Re erefl vacuum_has; try (rewrite /=; lra).
- by rewrite /mu_val /eps_spec /=; lra.
- by have [h1 [h2 _]] := C98_example hk.
- exact: shells_bright.
exists w; split=> // eps he; have [N0 h] := hw eps he; exists N0 => N M nmax a1 a2 a3.
exact: (h N M nmax (task (1 / 10) 3 nmax false) a1 a2 a3 (@task_ready _ _ _ _ _ _ d1) erefl erefl erefl).
Qed.
