(** * Property C81: free energies converge when the largest orders and the number of frequencies grow *)
From Coq Require Import Reals.
From Coq Require Import List Lia Lra ZArith.
From mathcomp Require Import all_ssreflect ssralg ssrnum fingroup perm matrix mxalgebra poly mxpoly.
From Verif Require Import Base RStruct Mat_Model Mat_Spec Mat_Proofs Thermo_Model Thermo_Proofs Geo_Model Geo_Spec Bessel_Model Scat_Model Scat_Spec Scat_Proofs Scat_Proofs4 Scat_Proofs7 Scat_Proofs9 Scat_Proofs10 Scat_Props2 Trans_Model Trans_Spec Trans_Proofs3
  Lin_Model Lin_Spec Bal_Proofs Lin_Proofs Trip_Proofs Lin_Proofs2 RT_Model RT_Spec RT_Spec2 RT_Proofs RT_Proofs2 RT_Proofs3 RT_Proofs4 RT_Proofs6 RT_Proofs7 RT_Proofs8 RT_Proofs9 RT_Proofs10
  RT_Props RT_Props2 RT_Props3 RT_Props5 Exp_Proofs2 Lap_Proofs2 Mono_Proofs Mono_Proofs2 Mono_Proofs3 RT_Props8 Cut_Proofs RT_Props9
  Run_Model Run_Spec Run_Proofs Run_Proofs2 Run_Proofs3 Run_Proofs4 Run_Proofs5 Run_Proofs9 Run_Props Run_Props2 Run_Props7 Conv_Spec Conv_Spec2 Conv_Proofs3 Conv_Proofs4 Conv_Proofs5 Conv_Proofs6 Conv_Proofs8 Conv_Proofs9 Conv_Props.
Set Implicit Arguments.
Unset Strict Implicit.
Import GRing.Theory.
Local Open Scope ring_scope.
Delimit Scope R_scope with Re.

Lemma sharp_trace c m1 m2 ra rb e u m k s : c_1 c = Solid m1 ra -> c_2 c = Solid m2 rb -> c_ext c = true -> has (c_med c) e u -> (0 < ra)%Re -> (0 < rb)%Re -> (0 < c_L c)%Re -> (0 < k)%Re ->
  sharp s m1 e u k -> sharp s m2 e u k -> some_orders c m -> (0 < \tr (trip exact_bessels c m k))%Re.
Proof.
move=> h1 h2 hx hm ha hb hL hk g1 g2 ho; have [o0 [o1 o2]] := ho.
have s1 : signed s (c_lmax c) k (mieA exact_bessels c) by rewrite /mieA h1; apply: (ext_signed _ _ ha _ _ _ hm _ hk); exact: sharp_contrast.
have s2 : signed s (c_lssmax c) k (mieB exact_bessels c) by rewrite /mieB h2 hx; apply: (ext_signed _ _ hb _ _ _ hm _ hk); exact: sharp_contrast.
have lE : lmin m = (Nat.sub (lmin m) 1 + 1)%coq_nat by rewrite /lmin; lia.
have lA : (Nat.sub (lmin m) 1 < c_lmax c)%coq_nat by rewrite /lmin; lia.
have lB : (Nat.sub (lmin m) 1 < c_lssmax c)%coq_nat by rewrite /lmin; lia.
have t1 : (0 < s * (-1) ^ lmin m * entry TE (mieA exact_bessels c) (Nat.sub (lmin m) 1) k)%Re.
  by rewrite {1}lE /mieA h1; exact: (ext_strict _ _ ha _ _ _ hm _ hk _ _ _ g1 lA).
have t2 : (0 < s * (-1) ^ lmin m * entry TE (mieB exact_bessels c) (Nat.sub (lmin m) 1) k)%Re.
  by rewrite {1}lE /mieB h2 hx; exact: (ext_strict _ _ hb _ _ _ hm _ hk _ _ _ g2 lB).
have [c2 c3] : (0 < c_L c / 2)%Re /\ (c_L c / 2 < c_L c)%Re by lra.
have [h _] := distance_strict hx hm hk ho (contrast_sq (sharp_contrast _ _ _ _ _ g1)) s1 s2 c2 c3 t1 t2.
by rewrite same_distance in h.
Qed.

Section Apart.
Context (c : config) (m1 m2 : material) (ra rb : R) (e u : R -> R) (s : R).
Context (h1 : c_1 c = Solid m1 ra) (h2 : c_2 c = Solid m2 rb) (hx : c_ext c = true) (hm : has (c_med c) e u) (ha : (0 < ra)%Re) (hb : (0 < rb)%Re) (hL5 : (5 * (ra + rb) <= c_L c)%Re).
Context (hu : forall k, (0 < k)%Re -> u k = 1%Re) (hcon : forall k, (0 < k)%Re -> contrast s m1 e u k /\ contrast s m2 e u k).
Let hL : (0 < c_L c)%Re. Proof. lra. Qed.
Let th : (0 < 3 / 5 <= 1)%Re. Proof. lra. Qed.
Let U N M m k := trip exact_bessels (truncated c N M) m k.
Definition bnd (m : Z) (k : R) : R := (1 / 2 * (1 / 81) ^ (lmin m - 1) * exp (- (way e k (c_L c) / 70)))%Re.
Lemma near m k : (0 < k)%Re -> (rate (3 / 5) e u k ra rb (c_L c) < 1)%Re /\ (0 < reach (3 / 5) e u m k ra rb (c_L c) <= bnd m k)%Re.
Proof.
move=> hk; have [_ [hp _]] := hm; have [pe _] := hp k hk; have [[q0 q1] r] := reach_near e u m k ra rb (c_L c) pe (hu hk) hk ha hb hL5.
by split; [lra|exact: r].
Qed.
Lemma bnd_half m k : (0 < k)%Re -> (bnd m k <= 1 / 2)%Re.
Proof.
move=> hk; have hw : (0 < way e k (c_L c))%Re by exact: (xpos (c_med c) e u k (c_L c) hm hk hL).
have e1 : (exp (- (way e k (c_L c) / 70)) <= 1)%Re by rewrite -exp_0; left; apply: exp_increasing; lra.
have e0 := exp_pos (- (way e k (c_L c) / 70)).
have p1 : (0 <= (1 / 81) ^ (lmin m - 1) <= 1)%Re by split; [apply: pow_le; lra|rewrite -[X in (_ <= X)%Re](pow1 (lmin m - 1)); apply: pow_incr; lra].
rewrite /bnd; move: (pow _ _) (exp _) p1 e0 e1 => p q; nra.
Qed.
Lemma apart_det N M m k : some_orders (truncated c N M) m -> (0 < k)%Re ->
  [/\ (0 <= \tr (U N M m k) <= bnd m k)%Re, (0 < \det (1%:M - U N M m k))%Re & (- (2 * bnd m k) <= ln (\det (1%:M - U N M m k)) <= - \tr (U N M m k))%Re].
Proof.
move=> ho hk; have [q [B0 B1]] := near m hk; have [g1 g2] := hcon hk; have Bh := bnd_half m hk.
have [t0 t1] := U_trace h1 h2 hx hm ha hb hL hk g1 g2 th q ho.
have B2 : (reach (3 / 5) e u m k ra rb (c_L c) < 1)%Re by lra.
have [_ cmp] := U_compare h1 h2 hx hm ha hb hL hk g1 g2 th q ho (le_n N) (le_n M); have [d _ _] := cmp B2.
have tb : (\tr (U N M m k) <= bnd m k)%Re by exact: (Rle_trans _ _ _ t1 B1).
split=> //; have t2 : (\tr (U N M m k) < 1)%Re by apply: (Rle_lt_trans _ _ _ tb); lra.
have c0 : (0 < 1)%Re by lra.
have so1 := contrast_solid g1; have so2 := contrast_solid g2.
have [[A eA] [B eB]] := @exact_val (truncated c N M) m1 m2 ra rb k e u h1 h2 so1 so2 hm ha hb hk.
have [_ att] := @C61_attraction (truncated c N M) m1 m2 ra rb e u m k s 0%Re h1 h2 hm ha hb hL hk ho g1 g2 c0; have [v [F [hF [v1 v2]]]] := att t2.
have [_ ev] := @fin_det exact_bessels (truncated c N M) m k A B e u 0%Re v F eA eB hm hL hk ho c0 hF.
have ev' : v = ln (\det (1%:M - U N M m k)) by rewrite ev Rabs_pos_eq //; left.
rewrite -ev'; split=> //; apply: (Rle_trans _ (ln (1 - \tr (U N M m k))) _ _ v1).
have aux (t b : R) : (0 <= t -> t <= b -> b <= 1 / 2 -> - (2 * b) <= ln (1 - t))%Re.
  move=> a1 a2 a3; have i0 : (0 < 1 - t)%Re by lra.
  have z := exp_ineq1_le (ln (/ (1 - t))); rewrite exp_ln in z; last exact: Rinv_0_lt_compat.
  rewrite ln_Rinv // in z; suff : (/ (1 - t) <= 1 + 2 * t)%Re by lra.
  apply: (Rmult_le_reg_r (1 - t)) => //; rewrite Rinv_l; [nra|lra].
exact: (aux _ _ t0 tb Bh).
Qed.
Lemma apart_less N M N' M' m k : some_orders (truncated c N M) m -> (N <= N')%coq_nat -> (M <= M')%coq_nat -> (0 < k)%Re -> (ln (\det (1%:M - U N' M' m k)) <= ln (\det (1%:M - U N M m k)))%Re.
Proof.
move=> ho hN hM hk; have [q [B0 B1]] := near m hk; have [g1 g2] := hcon hk; have Bh := bnd_half m hk.
have B2 : (reach (3 / 5) e u m k ra rb (c_L c) < 1)%Re by lra.
by have [_ cmp] := U_compare h1 h2 hx hm ha hb hL hk g1 g2 th q ho hN hM; have [_ _ []] := cmp B2.
Qed.
Lemma lnrE N M (m : nat) k : some_orders (truncated c N M) (Z.of_nat m) -> (0 < k)%Re -> lnr exact_bessels (truncated c N M) m k = ln (\det (1%:M - U N M (Z.of_nat m) k)).
Proof. by move=> ho hk; have [_ d _] := apart_det ho hk; rewrite /lnr Rabs_pos_eq //; left. Qed.
Lemma orders_at N M (m : nat) : (1 <= N)%coq_nat -> (N <= M)%coq_nat -> (m <= N)%coq_nat -> some_orders (truncated c N M) (Z.of_nat m).
Proof. by move=> a1 a2 a3; rewrite /some_orders /truncated /=; lia. Qed.
(** the sum over m *)
Definition gsum N M (k : R) : R := rsum (fun m => lnr exact_bessels (truncated c N M) m k) N.
Lemma gsum_lower N M k : (1 <= N)%coq_nat -> (N <= M)%coq_nat -> (0 < k)%Re -> (- (4 * exp (- (way e k (c_L c) / 70))) <= gsum N M k)%Re.
Proof.
move=> a1 a2 hk; apply: rsum_lower; first by left; exact: exp_pos.
move=> m hmx; have ho := orders_at a1 a2 hmx; rewrite (lnrE ho hk); have [_ _ [z _]] := apart_det ho hk.
apply: (Rle_trans _ _ _ _ z); right; rewrite /bnd; have -> : lmin (Z.of_nat m) = Nat.max 1 m by rewrite /lmin; lia.
by set p := pow _ _; set q := exp _; have -> : (2 * (1 / 2 * p * q) = p * q)%Re by field.
Qed.
Lemma gsum_less N M N' M' k : (1 <= N)%coq_nat -> (N <= M)%coq_nat -> (N' <= M')%coq_nat -> (N <= N')%coq_nat -> (M <= M')%coq_nat -> (0 < k)%Re -> (gsum N' M' k <= gsum N M k)%Re.
Proof.
move=> a1 a2 a3 a4 a5 hk; rewrite /gsum.
have nonpos m : (m <= N')%coq_nat -> (lnr exact_bessels (truncated c N' M') m k <= 0)%Re.
  move=> hmx; have b1 : (1 <= N')%coq_nat by lia.
  have ho := orders_at b1 a3 hmx; rewrite (lnrE ho hk); have [[t0 _] _ [_ z]] := apart_det ho hk.
  have r (x t : R) : (0 <= t -> x <= - t -> x <= 0)%Re by lra.
  exact: (r _ _ t0 z).
have less m : (m <= N)%coq_nat -> (lnr exact_bessels (truncated c N' M') m k <= lnr exact_bessels (truncated c N M) m k)%Re.
  move=> hmx; have ho := orders_at a1 a2 hmx; rewrite (lnrE ho hk) (lnrE (cut_orders a4 a5 ho) hk); exact: apart_less.
exact: rsum_less.
Qed.
End Apart.

(** ** two spheres with centres at least five sums of radii apart, non-magnetic medium: the round trips, for all orders and frequencies *)
Theorem C81_round_trips : forall c m1 m2 ra rb e u s m k conv, c_1 c = Solid m1 ra -> c_2 c = Solid m2 rb -> c_ext c = true -> has (c_med c) e u -> (0 < ra)%Re -> (0 < rb)%Re -> (5 * (ra + rb) <= c_L c)%Re ->
  (forall k, (0 < k)%Re -> u k = 1%Re) -> (forall k, (0 < k)%Re -> contrast s m1 e u k /\ contrast s m2 e u k) -> some_orders c m -> (0 < k)%Re -> (conv < 1)%Re ->
  let b := (1 / 2 * (1 / 81) ^ (lmin m - 1) * exp (- (k * c_L c * sqrt (e k) / 70)))%Re in
  (0 <= \tr (trip exact_bessels c m k) <= b)%Re /\
  exists v F, (forall fuel, (F <= fuel)%N -> rt_lndet exact_bessels trans_bessels c fuel conv m [:: k] = Some (Val [:: Fin v])) /\ (- (2 * b) <= v <= - \tr (trip exact_bessels c m k))%Re.
Proof.
move=> c m1 m2 ra rb e u s m k conv h1 h2 hx hm ha hb hL5 hu hcon ho hk hc b.
have ec : truncated c (c_lmax c) (c_lssmax c) = c by case: (c).
have ho' : some_orders (truncated c (c_lmax c) (c_lssmax c)) m by rewrite ec.
have hL : (0 < c_L c)%Re by lra.
have := apart_det h1 h2 hx hm ha hb hL5 hu hcon ho' hk; rewrite ec => -[t d v]; split=> //.
have [g1 g2] := hcon k hk; have [[A eA] [B eB]] := exact_val h1 h2 (contrast_solid g1) (contrast_solid g2) hm ha hb hk.
have [_ [o1 o2]] := ho; have [F hF] := lndet_total eA eB hm hL hk o1 o2 hc.
by exists (ln (\det (1%:M - trip exact_bessels c m k))), F; split=> // fuel /hF ->; rewrite (lnE d).
Qed.
Print Assumptions C81_round_trips.

(** without early stop all terms are summed *)
Lemma full_exact c m1 m2 ra rb e u precision conv t nmax : solids c m1 m2 ra rb e u -> c_ext c = true -> (conv < 1)%Re -> (precision <= 0)%Re -> ready exact_bessels c t nmax -> t_analytic t = false -> (1 <= nmax)%coq_nat ->
  (forall m k, (m <= c_lmax c)%coq_nat -> (0 < k)%Re -> \det (1%:M - trip exact_bessels c (Z.of_nat m) k) <> 0 /\ (lnr exact_bessels c m k < 0)%Re) ->
  exists Nf, forall fuel, (Nf <= fuel)%N -> forall unk garbage empty, exists t1 F,
    [/\ free_energy (ops unk fuel exact_bessels trans_bessels c precision conv false garbage) empty t = (t1, Ok F), List.length F = Z.to_nat (pyround (t_Tmax t / t_deltaT t)) &
        forall i : nat, (i < List.length F)%coq_nat -> List.nth_error F i = Some (matsubara (fun k => rsum (fun m => lnr exact_bessels c m k) (c_lmax c)) 1e-10 (t_deltaT t) nmax i.+1)].
Proof.
move=> hS hx hc hp hR hA hn hneg; have [_ [_ [_ [HT _]]]] := hR.
have e10 : (0 < 1e-10)%Re by lra.
have pos n : (1 <= n)%coq_nat /\ (n <= nmax)%coq_nat -> (0 < t_deltaT t * INR n)%Re by move=> [hn1 _]; apply: Rmult_lt_0_compat => //; apply: lt_0_INR; lia.
have [||m hmx|n m hn1 hmx|cut0 [cut [Nf [hc0 hcut hN]]]] := C66_free_energy_numeric precision hS hc hR hA hn.
- exact: (exact_at _ _ (trans_at_ext _ _ hx)).
- by move=> q hq; exact: (exact_at _ _ (trans_at_ext _ _ hx)).
- exact: (proj1 (hneg m _ hmx e10)).
- exact: (proj1 (hneg m _ hmx (pos n hn1))).
have full ks M : ks <> nil -> (forall k, In k ks -> (0 < k)%Re) -> stops_at precision (c_lmax c) (fun m k => ln_abs_det (1%:M - trip exact_bessels c (Z.of_nat m) k)) ks M -> M = c_lmax c.
  move=> hne hks; apply: (no_stop precision (c_lmax c) (fun m k => lnr exact_bessels c m k)) => // m k hmx /hks hk.
  by have [d l] := hneg m k hmx hk; split=> //; exact: lnd_real.
have c1 : cut0 = c_lmax c by apply: full hc0 => // k [<-|//].
have c3 q : freqs (t_deltaT t) nmax q <> nil -> cut q = c_lmax c by move=> hq; apply: (full _ _ hq _ (hcut q hq)) => k /(freqs_in _ _ _ _) [n [hn1 ->]]; exact: pos.
exists Nf => fuel hf unk garbage empty; have [t1 [F [E1 E2 E3 E4]]] := hN fuel hf unk garbage empty; exists t1, F; split=> // i hi.
have hi1 : (1 <= i.+1)%coq_nat /\ (i.+1 <= List.length F)%coq_nat by lia.
have si : (i.+1 - 1)%coq_nat = i by lia.
have := E4 _ hi1; rewrite si => ->; congr Some; apply: sliced_matsubara; [lia|by rewrite c1|].
move=> n hn1; have hin := freqs_has (t_deltaT t) nmax n hn1.
have hne : freqs (t_deltaT t) nmax (PeanoNat.Nat.div n 50) <> nil by move=> hz; rewrite hz in hin.
by rewrite (c3 _ hne).
Qed.

(** a decreasing function of three numbers that is bounded below *)
Lemma triple_limit (G : nat -> nat -> nat -> R) K : (forall N M n N' M' n', (1 <= N)%coq_nat -> (N <= M)%coq_nat -> (N' <= M')%coq_nat -> (N <= N')%coq_nat -> (M <= M')%coq_nat -> (n <= n')%coq_nat -> (G N' M' n' <= G N M n)%Re) ->
  (forall N M n, (1 <= N)%coq_nat -> (N <= M)%coq_nat -> (K <= G N M n)%Re) ->
  { w | (forall N M n, (1 <= N)%coq_nat -> (N <= M)%coq_nat -> (w <= G N M n)%Re) /\
        forall eps, (0 < eps)%Re -> exists N0, forall N M n, (N0 <= N)%coq_nat -> (N <= M)%coq_nat -> (N0 <= n)%coq_nat -> (G N M n < w + eps)%Re }.
Proof.
move=> dec low.
have [w [w1 w2]] : { w | is_lub (fun y => exists N M n, (1 <= N)%coq_nat /\ (N <= M)%coq_nat /\ y = (- G N M n)%Re) w }.
  apply: completeness; last by exists (- G 1%N 1%N 0%N)%Re, 1%N, 1%N, 0%N.
  by exists (- K)%Re => y [N [M [n [a [b ->]]]]]; have := low N M n a b; lra.
exists (- w)%Re; split.
- move=> N M n a b; have : (- G N M n <= w)%Re by apply: w1; exists N, M, n.
  lra.
- move=> eps he; apply: Classical_Prop.NNPP => no.
  have : (w <= w - eps)%Re; last lra.
  apply: w2 => y [N1 [M1 [n1 [a [b ->]]]]]; apply: Rnot_lt_le => hy; apply: no; exists (Nat.add N1 (Nat.add M1 n1)) => N M n c1 c2 c3.
  have : (G N M n <= G N1 M1 n1)%Re by apply: dec; lia.
  lra.
Qed.
Lemma bounded_choice (P : nat -> nat -> Prop) n : (forall i a b, P i a -> (a <= b)%coq_nat -> P i b) -> (forall i, (i < n)%coq_nat -> exists a, P i a) -> exists a, forall i, (i < n)%coq_nat -> P i a.
Proof.
move=> up; elim: n => [|n IH] h; first by exists 0%N => i hi; lia.
have [a ha] : exists a, forall i, (i < n)%coq_nat -> P i a by apply: IH => i hi; apply: h; lia.
have hn : (n < n.+1)%coq_nat by lia.
have [b hb] := h n hn; exists (a + b)%coq_nat => i hi.
case: (PeanoNat.Nat.eq_dec i n) => [->|ne]; first by apply: up hb _; lia.
have hi' : (i < n)%coq_nat by lia.
by apply: up (ha i hi') _; lia.
Qed.

(** ** the free energies converge when lmax, lssmax and nmax grow: each decreases towards its limit *)
Theorem C81_free_energy : forall c m1 m2 ra rb e u e0 s precision conv dT Tmax, c_1 c = Solid m1 ra -> c_2 c = Solid m2 rb -> c_ext c = true -> has (c_med c) e u -> (0 < ra)%Re -> (0 < rb)%Re -> (5 * (ra + rb) <= c_L c)%Re ->
  (0 < e0)%Re -> (forall k, (0 < k)%Re -> u k = 1%Re /\ (e0 <= e k)%Re) -> (forall k, (0 < k)%Re -> sharp s m1 e u k /\ sharp s m2 e u k) -> (conv < 1)%Re -> (precision <= 0)%Re -> (0 < dT)%Re ->
  exists w : nat -> R, (forall i, (w i < 0)%Re) /\ forall eps, (0 < eps)%Re -> exists N0, forall N M nmax t, (1 <= N)%coq_nat -> (N <= M)%coq_nat -> (1 <= nmax)%coq_nat ->
    ready exact_bessels (truncated c N M) t nmax -> t_deltaT t = dT -> t_Tmax t = Tmax -> t_analytic t = false ->
    exists Nf, forall fuel, (Nf <= fuel)%N -> forall unk garbage empty, exists t1 F,
      [/\ free_energy (ops unk fuel exact_bessels trans_bessels (truncated c N M) precision conv false garbage) empty t = (t1, Ok F), List.length F = Z.to_nat (pyround (Tmax / dT)) &
          forall i : nat, (i < List.length F)%coq_nat -> exists x, [/\ List.nth_error F i = Some x, (w i <= x < 0)%Re & ((N0 <= N)%coq_nat -> (N0 <= nmax)%coq_nat -> (x < w i + eps)%Re)]].
Proof.
move=> c m1 m2 ra rb e u e0 s precision conv dT Tmax h1 h2 hx hm ha hb hL5 he0 hu hcon hc hp hT.
have hu' k (hk : (0 < k)%Re) := proj1 (hu k hk).
have con k (hk : (0 < k)%Re) : contrast s m1 e u k /\ contrast s m2 e u k by have [g1 g2] := hcon k hk; split; exact: sharp_contrast.
have hL : (0 < c_L c)%Re by lra.
have e10 : (0 < 1e-10)%Re by lra.
pose d := (c_L c * sqrt e0 / 70)%Re; have sp := sqrt_lt_R0 _ he0; have d0 : (0 < d)%Re by rewrite /d; have := Rmult_lt_0_compat _ _ hL sp; lra.
pose G N M n i := matsubara (gsum c N M) 1e-10 dT n i.+1.
have neg N M m k : (1 <= N)%coq_nat -> (N <= M)%coq_nat -> (m <= N)%coq_nat -> (0 < k)%Re -> \det (1%:M - trip exact_bessels (truncated c N M) (Z.of_nat m) k) <> 0 /\ (lnr exact_bessels (truncated c N M) m k < 0)%Re.
  move=> a1 a2 a3 hk; have ho := orders_at c a1 a2 a3; have [g1 g2] := hcon k hk.
  have tp := @sharp_trace (truncated c N M) m1 m2 ra rb e u (Z.of_nat m) k s h1 h2 hx hm ha hb hL hk g1 g2 ho.
  have [_ dd [_ z]] := apart_det h1 h2 hx hm ha hb hL5 hu' con ho hk.
  rewrite (lnrE h1 h2 hx hm ha hb hL5 hu' con ho hk); split; first by move=> E; rewrite E in dd; exact: (Rlt_irrefl _ dd).
  have r (x y : R) : (0 < y -> x <= - y -> x < 0)%Re by lra.
  exact: (r _ _ tp z).
have gneg N M k : (1 <= N)%coq_nat -> (N <= M)%coq_nat -> (0 < k)%Re -> (gsum c N M k < 0)%Re by move=> a1 a2 hk; apply: rsum_neg => m hmx; exact: (proj2 (neg N M m k a1 a2 hmx hk)).
have low k N M : (0 < k)%Re -> (1 <= N)%coq_nat -> (N <= M)%coq_nat -> (- (4 * exp (- (d * k))) <= gsum c N M k)%Re.
  move=> hk a1 a2; apply: (Rle_trans _ _ _ _ (gsum_lower h1 h2 hx hm ha hb hL5 hu' con a1 a2 hk)).
  have [_ hek] := hu k hk; have sl : (sqrt e0 <= sqrt (e k))%Re by exact: sqrt_le_1_alt.
  have le : (d * k <= way e k (c_L c) / 70)%Re.
    rewrite /d /way; have := Rmult_le_compat_l (k * c_L c) _ _ (Rlt_le _ _ (Rmult_lt_0_compat _ _ hk hL)) sl; lra.
  have : (exp (- (way e k (c_L c) / 70)) <= exp (- (d * k)))%Re by case: (Req_dec (d * k) (way e k (c_L c) / 70)) => [->|ne]; [right|left; apply: exp_increasing; lra].
  lra.
have lim i : { w | (forall N M n, (1 <= N)%coq_nat -> (N <= M)%coq_nat -> (w <= G N M n i)%Re) /\
        forall eps, (0 < eps)%Re -> exists N0, forall N M n, (N0 <= N)%coq_nat -> (N <= M)%coq_nat -> (N0 <= n)%coq_nat -> (G N M n i < w + eps)%Re }.
  apply: (@triple_limit (fun N M n => G N M n i) (- (INR i.+1 * dT * (2 + 4 * (exp (- (d * (INR i.+1 * dT))) / (1 - exp (- (d * (INR i.+1 * dT)))))))))%Re.
  - move=> N M n N' M' n' a1 a2 a3 a4 a5 a6; have b1 : (1 <= N')%coq_nat by lia.
    apply: matsubara_less => //; [lia| |by move=> k hk; left; exact: gneg].
    by move=> k hk; exact: (gsum_less h1 h2 hx hm ha hb hL5 hu' con).
  - by move=> N M n a1 a2; apply: matsubara_lower => //; [lia|move=> k hk; exact: low].
pose w i := proj1_sig (lim i).
have Gneg N M n i : (1 <= N)%coq_nat -> (N <= M)%coq_nat -> (G N M n i < 0)%Re.
  move=> a1 a2; rewrite /G -(sliced_matsubara _ (fun=> gsum c N M) (gsum c N M) 1e-10 dT n i.+1 (le_n_S _ _ (le_0_n i)) erefl) //.
  apply: sliced_neg => //; [lia|exact: gneg|].
  by move=> j [hj _]; left; apply: gneg => //; apply: Rmult_lt_0_compat => //; apply: lt_0_INR; lia.
exists w; split.
  move=> i; have [z _] := proj2_sig (lim i); have one : (1 <= 1)%coq_nat by [].
  exact: (Rle_lt_trans _ _ _ (z 1%N 1%N 1%N one one) (Gneg 1%N 1%N 1%N i one one)).
move=> eps heps; have [N0 hN0] : exists N0, forall i, (i < Z.to_nat (pyround (Tmax / dT)))%coq_nat -> forall N M n, (N0 <= N)%coq_nat -> (N <= M)%coq_nat -> (N0 <= n)%coq_nat -> (G N M n i < w i + eps)%Re.
  apply: (@bounded_choice (fun i N0 => forall N M n, (N0 <= N)%coq_nat -> (N <= M)%coq_nat -> (N0 <= n)%coq_nat -> (G N M n i < w i + eps)%Re)).
  - by move=> i a b h ab N M n b1 b2 b3; apply: h => //; lia.
  - by move=> i _; have [_ z] := proj2_sig (lim i); exact: z.
exists N0 => N M nmax t a1 a2 a3 hR eT eM hA.
have hS : solids (truncated c N M) m1 m2 ra rb e u.
  by have [g1 g2] := con 1%Re Rlt_0_1; rewrite /solids /=; do 2 split=> //; split; [exact: contrast_solid g1|split; [exact: contrast_solid g2|]].
have [Nf hNf] := full_exact hS hx hc hp hR hA a3 (fun m k hmx hk => neg N M m k a1 a2 hmx hk).
exists Nf => fuel hf unk garbage empty; have [t1 [F [E1 E2 E3]]] := hNf fuel hf unk garbage empty; rewrite eT eM in E2.
exists t1, F; split=> // i hi; exists (G N M nmax i); split; first by rewrite (E3 i hi) eT.
- by split; [have [z _] := proj2_sig (lim i); exact: z|exact: Gneg].
- by move=> b1 b2; apply: hN0 => //; rewrite -E2.
Qed.
Print Assumptions C81_free_energy.

(** ** the contribution of the frequencies beyond nmax is exponentially small *)
Theorem C81_frequencies : forall c m1 m2 ra rb e u e0 s precision conv t t' nmax nmax', solids c m1 m2 ra rb e u -> c_ext c = true -> (0 < ra)%Re -> (0 < rb)%Re -> (5 * (ra + rb) <= c_L c)%Re ->
  (0 < e0)%Re -> (forall k, (0 < k)%Re -> u k = 1%Re /\ (e0 <= e k)%Re) -> (forall k, (0 < k)%Re -> sharp s m1 e u k /\ sharp s m2 e u k) -> (conv < 1)%Re -> (precision <= 0)%Re ->
  (1 <= nmax)%coq_nat -> (nmax <= nmax')%coq_nat -> ready exact_bessels c t nmax -> ready exact_bessels c t' nmax' -> t_analytic t = false -> t_analytic t' = false -> t_deltaT t' = t_deltaT t -> t_Tmax t' = t_Tmax t ->
  exists Nf, forall fuel, (Nf <= fuel)%N -> forall unk garbage empty, exists t1 t2 F F',
    [/\ free_energy (ops unk fuel exact_bessels trans_bessels c precision conv false garbage) empty t = (t1, Ok F),
        free_energy (ops unk fuel exact_bessels trans_bessels c precision conv false garbage) empty t' = (t2, Ok F'),
        List.length F = Z.to_nat (pyround (t_Tmax t / t_deltaT t)), List.length F' = List.length F &
        forall i : nat, (i < List.length F)%coq_nat -> exists x x', [/\ List.nth_error F i = Some x, List.nth_error F' i = Some x' &
          let T := (INR i.+1 * t_deltaT t)%Re in let r := exp (- (c_L c * sqrt e0 / 70 * T)) in (x' <= x <= x' + 4 * T * r ^ (Nat.add (Nat.div nmax i.+1) 1) / (1 - r))%Re]].
Proof.
move=> c m1 m2 ra rb e u e0 s precision conv t t' nmax nmax' hS hx ha hb hL5 he0 hu hcon hc hp hn hn' hR hR' hA hA' eT eM.
have [h1 [h2 [s1 [s2 [hm [hL [o1 o2]]]]]]] := hS; have [_ [_ [_ [HT _]]]] := hR.
have ec : truncated c (c_lmax c) (c_lssmax c) = c by case: (c).
have hu' k (hk : (0 < k)%Re) := proj1 (hu k hk).
have con k (hk : (0 < k)%Re) : contrast s m1 e u k /\ contrast s m2 e u k by have [g1 g2] := hcon k hk; split; exact: sharp_contrast.
have e10 : (0 < 1e-10)%Re by lra.
have neg m k : (m <= c_lmax c)%coq_nat -> (0 < k)%Re -> \det (1%:M - trip exact_bessels c (Z.of_nat m) k) <> 0 /\ (lnr exact_bessels c m k < 0)%Re.
  move=> a3 hk; have ho := orders_at c o1 o2 a3; have [g1 g2] := hcon k hk.
  have tp := @sharp_trace (truncated c (c_lmax c) (c_lssmax c)) m1 m2 ra rb e u (Z.of_nat m) k s h1 h2 hx hm ha hb hL hk g1 g2 ho.
  have [_ dd [_ z]] := apart_det h1 h2 hx hm ha hb hL5 hu' con ho hk; have lE := lnrE h1 h2 hx hm ha hb hL5 hu' con ho hk; rewrite ec in tp dd z lE.
  rewrite lE; split; first by move=> E; rewrite E in dd; exact: (Rlt_irrefl _ dd).
  have r (x y : R) : (0 < y -> x <= - y -> x < 0)%Re by lra.
  exact: (r _ _ tp z).
pose g k := rsum (fun m => lnr exact_bessels c m k) (c_lmax c).
have gneg k : (0 < k)%Re -> (g k < 0)%Re by move=> hk; apply: rsum_neg => m hmx; exact: (proj2 (neg m k hmx hk)).
pose d := (c_L c * sqrt e0 / 70)%Re; have sp := sqrt_lt_R0 _ he0; have d0 : (0 < d)%Re by rewrite /d; have := Rmult_lt_0_compat _ _ hL sp; lra.
have low k : (0 < k)%Re -> (- (4 * exp (- (d * k))) <= g k)%Re.
  move=> hk; have z := gsum_lower h1 h2 hx hm ha hb hL5 hu' con o1 o2 hk; rewrite /gsum ec in z; apply: (Rle_trans _ _ _ _ z).
  have [_ hek] := hu k hk; have sl : (sqrt e0 <= sqrt (e k))%Re by exact: sqrt_le_1_alt.
  have le : (d * k <= way e k (c_L c) / 70)%Re.
    rewrite /d /way; have := Rmult_le_compat_l (k * c_L c) _ _ (Rlt_le _ _ (Rmult_lt_0_compat _ _ hk hL)) sl; lra.
  have : (exp (- (way e k (c_L c) / 70)) <= exp (- (d * k)))%Re by case: (Req_dec (d * k) (way e k (c_L c) / 70)) => [->|ne]; [right|left; apply: exp_increasing; lra].
  lra.
have hn1 : (1 <= nmax')%coq_nat by lia.
have [N1 hN1] := full_exact hS hx hc hp hR hA hn neg; have [N2 hN2] := full_exact hS hx hc hp hR' hA' hn1 neg.
exists (maxn N1 N2) => fuel; rewrite geq_max => /andP [f1 f2] unk garbage empty.
have [t1 [F [E1 E2 E3]]] := hN1 fuel f1 unk garbage empty; have [t2 [F' [E1' E2' E3']]] := hN2 fuel f2 unk garbage empty; rewrite eT eM in E2'; rewrite eT in E3'.
have EL : List.length F' = List.length F by rewrite E2 E2'.
exists t1, t2, F, F'; split=> // i hi; have hi' : (i < List.length F')%coq_nat by rewrite EL.
eexists; eexists; split; [exact: (E3 i hi)|exact: (E3' i hi')|rewrite -/g => T r; split].
- by apply: matsubara_less => //; [lia|by move=> k hk; right|by move=> k hk; left; exact: gneg].
- have i1 : (1 <= i.+1)%coq_nat by lia.
  have := matsubara_tail g d 1e-10 (t_deltaT t) nmax nmax' i.+1 d0 HT i1 hn' low; rewrite -/T -/r; move: (matsubara _ _ _ nmax _) (matsubara _ _ _ nmax' _) => y y'; lra.
Qed.
Print Assumptions C81_frequencies.

(** ** Non-vacuity: a gold sphere and a perfect reflector in vacuum at distance 20 *)
Lemma gold_sharp k : (0 < k)%Re -> sharp 1 (Lorentz e_Gold None) (eps_spec [::]) (mu_val None) k.
Proof.
move=> hk; right; exists (eps_spec e_Gold), (mu_val None); have [_ [_ [_ [_ h]]]] := drude_flags _ _ _ gold_drude; split=> //; left; split=> //; split; first by right.
rewrite /mu_val /eps_spec /=; set a := (1.37e16 / omega_norm)%Re; set b := (0 / omega_norm)%Re; set g := (5.77e13 / omega_norm)%Re.
have on : (0 < omega_norm)%Re by exact: omega_norm_pos.
have a0 : (0 < a)%Re by apply: Rdiv_lt_0_compat => //; lra.
have g0 : (0 < g)%Re by apply: Rdiv_lt_0_compat => //; lra.
have gk := Rmult_lt_0_compat _ _ g0 hk; have kk := Rmult_lt_0_compat _ _ hk hk; have aa := Rmult_lt_0_compat _ _ a0 a0; have bb := Rle_0_sqr b; rewrite /Rsqr in bb.
suff : (0 < a * (a * 1) / (b * (b * 1) + k * (k * 1) + g * k))%Re by lra.
by apply: Rdiv_lt_0_compat; lra.
Qed.
Example C81_gold : exists w : nat -> R, (forall i, (w i < 0)%Re) /\ forall eps, (0 < eps)%Re -> exists N0, forall N nmax, (1 <= N)%coq_nat -> (1 <= nmax)%coq_nat ->
    exists Nf, forall fuel, (Nf <= fuel)%N -> forall unk garbage empty, exists t1 F,
      [/\ free_energy (ops unk fuel exact_bessels trans_bessels (truncated (at_distance gold_in_vacuum 20) N N) 0 1e-10 false garbage) empty (task (1 / 10) 3 nmax false) = (t1, Ok F), List.length F = Z.to_nat (pyround (3 / (1 / 10))) &
          forall i : nat, (i < List.length F)%coq_nat -> exists x, [/\ List.nth_error F i = Some x, (w i <= x < 0)%Re & ((N0 <= N)%coq_nat -> (N0 <= nmax)%coq_nat -> (x < w i + eps)%Re)]].
Proof.
have [||||k hk|k hk||||w [w0 hw]] := @C81_free_energy (at_distance gold_in_vacuum 20) (Lorentz e_Gold None) PEC 1%Re 2%Re _ _ 1%Re 1%Re 0%Re 1e-10%Re (1 / 10)%Re 3%Re erefl erefl erefl vacuum_has; try (rewrite /=; lra).
- by rewrite /mu_val /eps_spec /=; lra.
- by split; [exact: gold_sharp|left].
exists w; split=> // eps /hw [N0 h]; exists N0 => N nmax a1 a2.
by apply: (h N N nmax (task (1 / 10) 3 nmax false) a1 (le_n N) a2) => //; apply: task_ready; lra.
Qed.
(** 60 against 600 frequencies for the same spheres; and the bound of one round trip *)
Example C81_gold_frequencies : let c := at_distance gold_in_vacuum 20 in exists Nf, forall fuel, (Nf <= fuel)%N -> forall unk garbage empty, exists t1 t2 F F',
    [/\ free_energy (ops unk fuel exact_bessels trans_bessels c 0 1e-10 false garbage) empty (task (1 / 10) 3 60 false) = (t1, Ok F),
        free_energy (ops unk fuel exact_bessels trans_bessels c 0 1e-10 false garbage) empty (task (1 / 10) 3 600 false) = (t2, Ok F'),
        List.length F = Z.to_nat (pyround (3 / (1 / 10))), List.length F' = List.length F &
        forall i : nat, (i < List.length F)%coq_nat -> exists x x', [/\ List.nth_error F i = Some x, List.nth_error F' i = Some x' &
          let T := (INR i.+1 * (1 / 10))%Re in let r := exp (- (20 * sqrt 1 / 70 * T)) in (x' <= x <= x' + 4 * T * r ^ (Nat.add (Nat.div 60 i.+1) 1) / (1 - r))%Re]].
Proof.
have hS : solids (at_distance gold_in_vacuum 20) (Lorentz e_Gold None) PEC 1 2 (eps_spec [::]) (mu_val None).
  do 2 split=> //; split; first exact: gold_solid.
  split; first by left.
  split; first exact: vacuum_has.
  by rewrite /=; split; [lra|lia].
apply: (@C81_frequencies (at_distance gold_in_vacuum 20) (Lorentz e_Gold None) PEC 1%Re 2%Re _ _ 1%Re 1%Re 0%Re 1e-10%Re (task (1 / 10) 3 60 false) (task (1 / 10) 3 600 false) 60 600 hS erefl) => //; try (rewrite /=; lra); try (apply: task_ready; lra); try lia.
- by move=> k hk; rewrite /mu_val /eps_spec /=; lra.
- by move=> k hk; split; [exact: gold_sharp|left].
Qed.
Example C81_gold_trip : (0 <= \tr (trip exact_bessels (at_distance gold_in_vacuum 20) 1 2) <= 1 / 2)%Re.
Proof.
have c0 : (0 < 1)%Re by lra.
have p2 : (0 < 2)%Re by lra.
have ho : some_orders (at_distance gold_in_vacuum 20) 1 by rewrite /some_orders /=; lia.
have [|||k hk|k hk|[t1 t2] _] := @C81_round_trips (at_distance gold_in_vacuum 20) (Lorentz e_Gold None) PEC 1%Re 2%Re _ _ 1%Re 1%Z 2%Re 0%Re erefl erefl erefl vacuum_has _ _ _ _ _ ho p2 c0; try (rewrite /=; lra).
- by have [g1 [g2 _]] := C61_gold hk.
split=> //; apply: (Rle_trans _ _ _ t2); have ep : (exp (- (2 * c_L (at_distance gold_in_vacuum 20) * sqrt (eps_spec [::] 2) / 70)) <= 1)%Re.
  rewrite -exp_0 /eps_spec /= Rplus_0_r sqrt_1; left; apply: exp_increasing; lra.
have l0 : (1 / 81) ^ (lmin 1 - 1) = 1%Re by [].
by move: l0 ep; move: (pow _ _) (exp _) => p x -> hx; lra.
Qed.
