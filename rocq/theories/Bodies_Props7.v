(** * Property C105: free energies of solid and stratified spheres on opposite sides of the medium are positive and converge *)
From Coq Require Import Reals.
From Coq Require Import List Lia Lra ZArith Sorted.
From mathcomp Require Import all_ssreflect ssralg ssrnum fingroup perm matrix mxalgebra poly mxpoly.
From Verif Require Import Base RStruct Mat_Model Mat_Spec Mat_Proofs Thermo_Model Thermo_Proofs Geo_Model Geo_Spec Bessel_Model Scat_Model Scat_Spec Scat_Proofs Scat_Proofs4 Scat_Proofs7 Scat_Proofs9 Scat_Proofs10 Scat_Props Scat_Props2 Trans_Model Trans_Spec Trans_Proofs3
  Lin_Model Lin_Spec Bal_Proofs Lin_Proofs Trip_Proofs Lin_Proofs2 RT_Model RT_Spec RT_Spec2 RT_Proofs RT_Proofs2 RT_Proofs3 RT_Proofs4 RT_Proofs6 RT_Proofs7 RT_Proofs8 RT_Proofs9 RT_Proofs10
  RT_Props RT_Props2 RT_Props3 RT_Props5 Exp_Proofs2 Lap_Proofs2 Mono_Proofs Mono_Proofs2 Mono_Proofs3 RT_Props8 Cut_Proofs RT_Props9 RT_Props10
  Run_Model Run_Spec Run_Proofs Run_Proofs2 Run_Proofs3 Run_Proofs4 Run_Proofs5 Run_Proofs9 Run_Props Run_Props2 Run_Props7 Conv_Spec Conv_Spec2 Conv_Proofs3 Conv_Proofs4 Conv_Proofs5 Conv_Proofs6 Conv_Proofs8 Conv_Proofs9 Conv_Props Conv_Props2
  Far_Proofs3 Lim_Proofs Lim_Proofs2 Lim_Proofs3 Lim_Props Rep_Spec Rep_Proofs Rep_Props
  Rad_Spec Rad_Proofs Rad_Proofs2 Layer_Spec Layer_Proofs3 Layer_Proofs4 Layer_Props Bodies_Spec Bodies_Proofs Bodies_Proofs2 Bodies_Proofs3 Bodies_Props Bodies_Proofs4 Bodies_Props2 Bodies_Spec2 Bodies_Proofs6 Bodies_Props3 Bodies_Proofs7 Bodies_Props5 Bodies_Proofs8 Bodies_Props6 Bodies_Spec3 Bodies_Proofs9.
Set Implicit Arguments.
Unset Strict Implicit.
Import GRing.Theory.
Local Open Scope ring_scope.
Delimit Scope R_scope with Re.

(** ** the electric coefficients of bodies that scatter do not vanish, on either side of the medium *)
Theorem C105_coefficients : forall c s sp e u k lmax j, has (c_med c) e u -> (0 < k)%Re -> body c s sp e u k -> visible c s sp e u k -> (j < lmax)%coq_nat ->
  (0 < s * (-1) ^ j.+1 * entry TE (fun ks => match sp with Solid mm r => mie exact_bessels ks 0 (Z.of_nat lmax) r mm (c_med c) | Layered mats rs => flat (strat exact_bessels ks 0 (Z.of_nat lmax) (c_mat c) mats rs) end) j k)%Re.
Proof.
move=> c s [mm r|mats rs] e u k lmax j hm hk hb hg hj.
- have [hr _] := hb; have := ext_strict _ _ hr _ _ _ hm _ hk _ _ _ hg hj.
  by have -> : (j + 1)%coq_nat = j.+1 by lia.
- have [hs hF] := hb; case: hg => [[es hg]|[es hg]]; rewrite es in hF *; case: hF => [[h F]|[h F]]; try (by exfalso; lra).
  + have := stacked_bright _ _ _ hk lmax mats rs e u j hm hs F hg hj.
    by have r (x y : R) : (0 < x * y -> 0 < 1 * x * y)%Re by [rewrite Rmult_1_l]; exact: r.
  + have := stacked_dim _ _ _ hk lmax mats rs e u j hm hs F hg hj.
    by have r (x y : R) : (0 < - (x * y) -> 0 < - (1) * x * y)%Re by [lra]; exact: r.
Qed.
Print Assumptions C105_coefficients.

Lemma seen_part c e u m k s1 s2 N M : c_ext c = true -> has (c_med c) e u -> (0 < c_L c)%Re -> (0 < k)%Re -> body c s1 (c_1 c) e u k -> body c s2 (c_2 c) e u k ->
  visible c s1 (c_1 c) e u k -> visible c s2 (c_2 c) e u k -> some_orders (truncated c N M) m -> (0 < \tr (part c m k s1 s2 N M *m (part c m k s1 s2 N M)^T))%Re.
Proof.
move=> hx hm hL hk c1 c2 g1 g2 ho.
rewrite (any_box hx hm hk c1 c2 ho); set d := truncated c N M in ho *; have [n0 ns0] := orders_pos ho.
have [d1 d2] := any_definite hx hm hk c1 c2 ho; rewrite -/d in d1 d2.
have [o0 [o1 o2]] := ho.
have lE : lmin m = (Nat.sub (lmin m) 1).+1 by rewrite /lmin; lia.
have lA : (Nat.sub (lmin m) 1 < c_lmax d)%coq_nat by rewrite /lmin; lia.
have lB : (Nat.sub (lmin m) 1 < c_lssmax d)%coq_nat by rewrite /lmin; lia.
have t1 : (0 < s1 * (-1) ^ lmin m * entry TE (mieA exact_bessels d) (Nat.sub (lmin m) 1) k)%Re.
  by rewrite {1}lE; exact: (@C105_coefficients c s1 (c_1 c) e u k _ _ hm hk c1 g1 lA).
have t2 : (0 < s2 * (-1) ^ lmin m * entry TE (mieB exact_bessels d) (Nat.sub (lmin m) 1) k)%Re.
  by rewrite {1}lE /mieB [c_ext d]/= hx; exact: (@C105_coefficients c s2 (c_2 c) e u k _ _ hm hk c2 g2 lB).
set rt := rt_with exact_bessels d m k in d1 d2 *.
apply: box_pos => //.
- move=> i s hi hs; have [q1 q2] := d1 i hi; have [q3 q4] := d2 s hs; rewrite /weight.
  have sq z : (0 <= z ^ 2)%Re by simpl; nra.
  have nn (a z b : R) : (0 <= a -> 0 <= b -> 0 <= a * z ^ 2 * b)%Re by move=> a0 b0; apply: Rmult_le_pos => //; apply: Rmult_le_pos.
  have p1 : (0 <= pE (s_of m s1) (aTE rt) (a2 rt) i)%Re by exact: q1.
  have p2 : (0 <= pM (s_of m s1) (aTM rt) (a2 rt) i)%Re by exact: q2.
  have p3 : (0 <= pE (s_of m s2) (bTE rt) (b2 rt) s)%Re by exact: q3.
  have p4 : (0 <= pM (s_of m s2) (bTM rt) (b2 rt) s)%Re by exact: q4.
  by repeat apply: Rplus_le_le_0_compat; exact: nn.
- have [q1 q2] := d1 0%N n0; have [q3 q4] := d2 0%N ns0; rewrite /weight.
  have sq z : (0 <= z ^ 2)%Re by simpl; nra.
  have nn (a z b : R) : (0 <= a -> 0 <= b -> 0 <= a * z ^ 2 * b)%Re by move=> a0 b0; apply: Rmult_le_pos => //; apply: Rmult_le_pos.
  have p2 : (0 <= pM (s_of m s1) (aTM rt) (a2 rt) 0)%Re by exact: q2.
  have p4 : (0 <= pM (s_of m s2) (bTM rt) (b2 rt) 0)%Re by exact: q4.
  have g s (t : R) : (0 < s * (-1) ^ lmin m * t)%Re -> (0 < (s_of m s * (-1) ^+ 0 * (t * exp 0)%Re)%R)%Re.
    by move=> ht; rewrite expr0 mulr1 exp_0 Rmult_1_r /s_of; move: ht; rewrite RpowE => ht; exact: ht.
  have A0 := g _ _ t1; have B0 := g _ _ t2; rewrite -(PeanoNat.Nat.add_0_r (lmin m - 1)%coq_nat) in A0 B0.
  have p1 : (0 < pE (s_of m s1) (aTE rt) (a2 rt) 0)%Re by exact: A0.
  have p3 : (0 < pE (s_of m s2) (bTE rt) (b2 rt) 0)%Re by exact: B0.
  have [P [Q [fp [fq E]]]] := @trans_falls exact_bessels d m k e u hx hm hk o0 0%N 0%N (elimT ltP n0) (elimT ltP ns0).
  have [E1 _] := E (c_L d) hL; have ed : at_distance d (c_L d) = d by case: (d).
  rewrite ed -/rt in E1.
  have vp : (0 < (V0 rt 0 0 * exp (V4 rt 0 0)) ^ 2)%Re.
    have pp : (0 < P (k * c_L d * sqrt (e k)))%Re by apply: (proj1 fp); exact: (xpos (c_med c) e u k (c_L c) hm hk hL).
    rewrite -E1 in pp; move: pp; move: (sgnZ m) (V0 rt 0 0 * _)%Re => g' y pp; simpl; nra.
  have -> : vv 1%Re (V0 rt) (V4 rt) 0 0 = (V0 rt 0 0 * exp (V4 rt 0 0))%Re by exact: Rmult_1_l.
  have p13 : (0 < pE (s_of m s1) (aTE rt) (a2 rt) 0 * (V0 rt 0 0 * exp (V4 rt 0 0)) ^ 2 * pE (s_of m s2) (bTE rt) (b2 rt) 0)%Re by apply: Rmult_lt_0_compat => //; apply: Rmult_lt_0_compat.
  by repeat (apply: Rplus_lt_le_0_compat; [|by apply: nn => //; left]).
Qed.

Section Separate.
Context (c : config) (e u : R -> R) (s th : R).
Let ra := rim (c_1 c).
Let rb := rim (c_2 c).
Context (hx : c_ext c = true) (hm : has (c_med c) e u) (hL : (0 < c_L c)%Re) (hth : (0 < th <= 1)%Re).
Context (hq : forall k, (0 < k)%Re -> (rate th e u k ra rb (c_L c) < 1)%Re) (hcon : forall k, (0 < k)%Re -> body c s (c_1 c) e u k /\ body c (- s) (c_2 c) e u k).
Let ha : (0 < ra)%Re. Proof. by have [b1 _] := hcon Rlt_0_1; exact: (rim_pos hm Rlt_0_1 b1). Qed.
Let hb : (0 < rb)%Re. Proof. by have [_ b1] := hcon Rlt_0_1; exact: (rim_pos hm Rlt_0_1 b1). Qed.
Let U N M m k := trip exact_bessels (truncated c N M) m k.
Let P N M m k := part c m k s (- s) N M.
Lemma sep_gram N M m k : some_orders (truncated c N M) m -> (0 < k)%Re -> \det (1%:M - U N M m k) = \det (1%:M + P N M m k *m (P N M m k)^T).
Proof.
move=> o hk; have [g1 g2] := hcon hk; rewrite /U; have [-> _] := any_gram hx hm hk g1 g2 o.
by have -> : s * - s = -1; [rewrite mulrN (body_sq g1)|rewrite scaleN1r opprK].
Qed.
Lemma sep_det N M m k : some_orders (truncated c N M) m -> (0 < k)%Re -> (1 + \tr (P N M m k *m (P N M m k)^T) <= \det (1%:M - U N M m k) <= exp (reach th e u m k ra rb (c_L c)))%Re /\ (0 <= \tr (P N M m k *m (P N M m k)^T))%Re.
Proof.
move=> o hk; have [g1 g2] := hcon hk; have [r1 r2] := any_reach hx hm hL hk g1 g2 hth (hq hk) o.
rewrite (sep_gram o hk) -/(P N M m k); have l := psd_plus (psd_gram (P N M m k)); have [_ up] := psd_plus_up (psd_gram (P N M m k)).
split; last exact: r1.
split; first exact: l.
apply: (Rle_trans _ _ _ up); case: r2 => [lt|eq]; [left; exact: exp_increasing|right; congr exp; exact: eq].
Qed.
Lemma sep_more N M N' M' m k : some_orders (truncated c N M) m -> (N <= N')%coq_nat -> (M <= M')%coq_nat -> (0 < k)%Re -> (\det (1%:M - U N M m k) <= \det (1%:M - U N' M' m k))%Re.
Proof.
move=> o a b hk; have [g1 g2] := hcon hk; rewrite (sep_gram o hk) (sep_gram (cut_orders a b o) hk).
by have [_ _ [z _] _] := either_step hx hm hL hk g1 g2 hth (hq hk) o a b.
Qed.
Lemma sep_ln N M (m : nat) k : some_orders (truncated c N M) (Z.of_nat m) -> (0 < k)%Re ->
  [/\ (1 <= \det (1%:M - U N M (Z.of_nat m) k))%Re, lnr exact_bessels (truncated c N M) m k = ln (\det (1%:M - U N M (Z.of_nat m) k)) & (0 <= lnr exact_bessels (truncated c N M) m k <= reach th e u (Z.of_nat m) k ra rb (c_L c))%Re].
Proof.
move=> o hk; have [[a b] t] := sep_det o hk.
have d1 : (1 <= \det (1%:M - U N M (Z.of_nat m) k))%Re by move: a t; move: (\tr _) (\det _) => x y; lra.
have E : lnr exact_bessels (truncated c N M) m k = ln (\det (1%:M - U N M (Z.of_nat m) k)) by rewrite /lnr Rabs_pos_eq //; move: d1; rewrite /U; move: (\det _) => y; lra.
split=> //; rewrite E; move: d1 b; move: (\det _) => y d1 b; split.
- by rewrite -ln_1; apply: ln_le => //; lra.
- by rewrite -[X in (_ <= X)%Re]ln_exp; apply: ln_le => //; lra.
Qed.
Lemma sep_gsum N M k : (1 <= N)%coq_nat -> (N <= M)%coq_nat -> (0 < k)%Re -> (0 <= gsum c N M k <= total th e u k ra rb (c_L c))%Re.
Proof.
move=> a1 a2 hk; have od m (hmx : (m <= N)%coq_nat) := sep_ln (orders_at c a1 a2 hmx) hk; split.
- have -> : (0%Re = rsum (fun=> 0%Re) N)%Re by rewrite rsum_zero.
  by apply: rsum_le => m hmx; have [_ _ []] := od m hmx.
- have [q0 q1] := @q_ok c ra rb e u k th (hq hk); rewrite /gsum /total; apply: rsum_upper => //.
    have := @B_pos c ra rb e u 0%Z k th hm ha hb hL hk hth (hq hk); rewrite reach_height.
    have pq : (0 <= rate th e u k ra rb (c_L c) ^ (2 * lmin 0))%Re by exact: pow_le.
    move: pq; move: (height _ _ _ _ _ _ _) (pow _ _) => y z; nra.
  move=> m hmx; have [_ _ [_ z]] := od m hmx; move: z; rewrite reach_height; have -> : lmin (Z.of_nat m) = Nat.max 1 m by rewrite /lmin; lia.
  by [].
Qed.
Lemma sep_gsum_more N M N' M' k : (1 <= N)%coq_nat -> (N <= M)%coq_nat -> (N' <= M')%coq_nat -> (N <= N')%coq_nat -> (M <= M')%coq_nat -> (0 < k)%Re -> (gsum c N M k <= gsum c N' M' k)%Re.
Proof.
move=> a1 a2 a3 a4 a5 hk; have b1 : (1 <= N')%coq_nat by lia.
apply: Ropp_le_cancel; rewrite /gsum -!rsum_opp; apply: rsum_less => //.
- move=> m hmx; have o := orders_at c a1 a2 hmx; have o' := cut_orders a4 a5 o; have [d -> _] := sep_ln o hk; have [d' -> _] := sep_ln o' hk.
  by apply: Ropp_le_contravar; apply: ln_le; [move: d; move: (\det _) => y; lra|exact: sep_more].
- by move=> m hmx; have [_ _ [z _]] := sep_ln (orders_at c b1 a3 hmx) hk; lra.
Qed.
Lemma sep_sharp N M m k : some_orders (truncated c N M) (Z.of_nat m) -> (0 < k)%Re -> visible c s (c_1 c) e u k -> visible c (- s) (c_2 c) e u k ->
  \det (1%:M - U N M (Z.of_nat m) k) <> 0 /\ (0 < lnr exact_bessels (truncated c N M) m k)%Re.
Proof.
move=> o hk g1 g2; have [d E _] := sep_ln o hk; have [[a _] _] := sep_det o hk; have [b1 b2] := hcon hk; have t := seen_part hx hm hL hk b1 b2 g1 g2 o.
rewrite E; move: d a t; rewrite /P; move: (\tr _) (\det _) => x y d a t; split; first by rewrite zE => E0; lra.
by rewrite -ln_1; apply: ln_increasing; lra.
Qed.
End Separate.

Lemma full_seen c e u precision conv t nmax : objects c e u -> (conv < 1)%Re -> (precision <= 0)%Re -> ready exact_bessels c t nmax -> t_analytic t = false -> (1 <= nmax)%coq_nat ->
  (forall m k, (m <= c_lmax c)%coq_nat -> (0 < k)%Re -> \det (1%:M - trip exact_bessels c (Z.of_nat m) k) <> 0 /\ (0 < lnr exact_bessels c m k)%Re) ->
  exists Nf, forall fuel, (Nf <= fuel)%N -> forall unk garbage empty, exists t1 F,
    [/\ free_energy (ops unk fuel exact_bessels trans_bessels c precision conv false garbage) empty t = (t1, Ok F), List.length F = Z.to_nat (pyround (t_Tmax t / t_deltaT t)) &
        forall i : nat, (i < List.length F)%coq_nat -> List.nth_error F i = Some (matsubara (fun k => rsum (fun m => lnr exact_bessels c m k) (c_lmax c)) 1e-10 (t_deltaT t) nmax i.+1)].
Proof.
move=> hS hc hp hR hA hn hpos; have [_ [_ [_ [HT _]]]] := hR.
have e10 : (0 < 1e-10)%Re by lra.
have pos n : (1 <= n)%coq_nat /\ (n <= nmax)%coq_nat -> (0 < t_deltaT t * INR n)%Re by move=> [hn1 _]; apply: Rmult_lt_0_compat => //; apply: lt_0_INR; lia.
have [m hmx|n m hn1 hmx|cut0 [cut [Nf [hc0 hcut hN]]]] := C99_free_energy precision hS hc hR hA hn.
- exact: (proj1 (hpos m _ hmx e10)).
- exact: (proj1 (hpos m _ hmx (pos n hn1))).
have full ks M : ks <> nil -> (forall k, In k ks -> (0 < k)%Re) -> stops_at precision (c_lmax c) (fun m k => ln_abs_det (1%:M - trip exact_bessels c (Z.of_nat m) k)) ks M -> M = c_lmax c.
  move=> hne hks; apply: (no_stop_pos precision (c_lmax c) (fun m k => lnr exact_bessels c m k)) => // m k hmx /hks hk.
  by have [dd l] := hpos m k hmx hk; split=> //; exact: lnd_real.
have c1 : cut0 = c_lmax c by apply: full hc0 => // k [<-|//].
have c3 q : freqs (t_deltaT t) nmax q <> nil -> cut q = c_lmax c by move=> hq; apply: (full _ _ hq _ (hcut q hq)) => k /(freqs_in _ _ _ _) [n [hn1 ->]]; exact: pos.
exists Nf => fuel hf unk garbage empty; have [t1 [F [E1 E2 E3 E4]]] := hN fuel hf unk garbage empty; exists t1, F; split=> // i hi.
have hi1 : (1 <= i.+1)%coq_nat /\ (i.+1 <= List.length F)%coq_nat by lia.
have si : (i.+1 - 1)%coq_nat = i by lia.
have := E4 _ hi1; rewrite si => ->; congr Some; apply: sliced_matsubara; [lia|by rewrite c1|].
move=> n hn1; have hin := freqs_has (t_deltaT t) nmax n hn1.
have hne : freqs (t_deltaT t) nmax (PeanoNat.Nat.div n 50) <> nil by move=> hz; rewrite hz in hin.
by rewrite (c3 _ hne).
Qed.

(** ** any distance without overlap: for each number of frequencies the free energies rise with lmax and lssmax to a positive finite limit *)
Theorem C105_orders : forall c e u s precision conv dT Tmax, c_ext c = true -> has (c_med c) e u -> ((rim (c_1 c)) + (rim (c_2 c)) < c_L c)%Re ->
  (forall k, (0 < k)%Re -> u k = 1%Re) -> (forall k, (0 < k)%Re -> body c s (c_1 c) e u k /\ body c (- s) (c_2 c) e u k) -> (forall k, (0 < k)%Re -> visible c s (c_1 c) e u k /\ visible c (- s) (c_2 c) e u k) -> (conv < 1)%Re -> (precision <= 0)%Re -> (0 < dT)%Re ->
  exists w : nat -> nat -> R, (forall n i, (0 < w n i <= matsubara (fun k => total 1 e u k (rim (c_1 c)) (rim (c_2 c)) (c_L c)) 1e-10 dT n i.+1)%Re) /\ (forall n n' i, (n <= n')%coq_nat -> (w n i <= w n' i)%Re) /\
    forall nmax eps, (1 <= nmax)%coq_nat -> (0 < eps)%Re -> exists N0, forall N M t, (1 <= N)%coq_nat -> (N <= M)%coq_nat ->
    ready exact_bessels (truncated c N M) t nmax -> t_deltaT t = dT -> t_Tmax t = Tmax -> t_analytic t = false ->
    exists Nf, forall fuel, (Nf <= fuel)%N -> forall unk garbage empty, exists t1 F,
      [/\ free_energy (ops unk fuel exact_bessels trans_bessels (truncated c N M) precision conv false garbage) empty t = (t1, Ok F), List.length F = Z.to_nat (pyround (Tmax / dT)) &
          forall i : nat, (i < List.length F)%coq_nat -> exists x, [/\ List.nth_error F i = Some x, (0 < x <= w nmax i)%Re & ((N0 <= N)%coq_nat -> (w nmax i - eps < x)%Re)]].
Proof.
move=> c e u s precision conv dT Tmax hx hm hab hu con hcon hc hp hT.
have [b1 b2] := con 1%Re Rlt_0_1; have ha := rim_pos hm Rlt_0_1 b1; have hb := rim_pos hm Rlt_0_1 b2.
have hL : (0 < c_L c)%Re by lra.
have th1 : (0 < 1 <= 1)%Re by lra.
have hq k : (0 < k)%Re -> (rate 1 e u k (rim (c_1 c)) (rim (c_2 c)) (c_L c) < 1)%Re.
  move=> hk; have [_ [hpp _]] := hm; have [pe _] := hpp k hk; rewrite (rate_gap (rim (c_1 c)) (rim (c_2 c)) pe (hu k hk) hk hL).
  have iL : (0 < / c_L c)%Re by exact: Rinv_0_lt_compat.
  have p0 : (0 <= ((rim (c_1 c)) + (rim (c_2 c))) / c_L c)%Re by apply: Rmult_le_pos; lra.
  have p1 : (((rim (c_1 c)) + (rim (c_2 c))) / c_L c < 1)%Re by apply: (Rmult_lt_reg_r (c_L c)) => //; rewrite /Rdiv Rmult_assoc Rinv_l; lra.
  simpl; nra.
have e10 : (0 < 1e-10)%Re by lra.
pose G N M n i := matsubara (gsum c N M) 1e-10 dT n i.+1.
have strict N M m k : (1 <= N)%coq_nat -> (N <= M)%coq_nat -> (m <= N)%coq_nat -> (0 < k)%Re -> \det (1%:M - trip exact_bessels (truncated c N M) (Z.of_nat m) k) <> 0 /\ (0 < lnr exact_bessels (truncated c N M) m k)%Re.
  by move=> a1 a2 a3 hk; have [g1 g2] := hcon k hk; exact: (sep_sharp hx hm hL th1 hq con (orders_at c a1 a2 a3) hk g1 g2).
have gpos N M k : (1 <= N)%coq_nat -> (N <= M)%coq_nat -> (0 < k)%Re -> (0 < gsum c N M k)%Re by move=> a1 a2 hk; apply: rsum_pos => m hmx; exact: (proj2 (strict N M m k a1 a2 hmx hk)).
have Gpos N M n i : (1 <= N)%coq_nat -> (N <= M)%coq_nat -> (0 < G N M n i)%Re by move=> a1 a2; apply: matsubara_pos => //; [lia|move=> k hk; exact: gpos].
have more N M n N' M' n' i : (1 <= N)%coq_nat -> (N <= M)%coq_nat -> (N' <= M')%coq_nat -> (N <= N')%coq_nat -> (M <= M')%coq_nat -> (n <= n')%coq_nat -> (G N M n i <= G N' M' n' i)%Re.
  move=> a1 a2 a3 a4 a5 a6; have bN : (1 <= N')%coq_nat by lia.
  apply: matsubara_more => //; [lia| |by move=> k hk; left; exact: gpos].
  by move=> k hk; exact: (sep_gsum_more hx hm hL th1 hq con).
have up N M n i : (1 <= N)%coq_nat -> (N <= M)%coq_nat -> (G N M n i <= matsubara (fun k => total 1 e u k (rim (c_1 c)) (rim (c_2 c)) (c_L c)) 1e-10 dT n i.+1)%Re.
  move=> a1 a2; apply: matsubara_more => //; [lia|move=> k hk; exact: (proj2 (sep_gsum hx hm hL th1 hq con a1 a2 hk))|].
  by move=> k hk; have [z1 z2] := sep_gsum hx hm hL th1 hq con a1 a2 hk; exact: (Rle_trans _ _ _ z1 z2).
have one : (1 <= 1)%coq_nat by [].
have lim n i : { w | (forall N M, (1 <= N)%coq_nat -> (N <= M)%coq_nat -> (G N M n i <= w)%Re) /\ forall eps, (0 < eps)%Re -> exists N0, forall N M, (N0 <= N)%coq_nat -> (N <= M)%coq_nat -> (w - eps < G N M n i)%Re }.
  have [||w [w1 w2]] := @triple_limit (fun N M _ => - G N M n i)%Re (- matsubara (fun k => total 1 e u k (rim (c_1 c)) (rim (c_2 c)) (c_L c)) 1e-10 dT n i.+1)%Re.
  - by move=> N M _ N' M' _ a1 a2 a3 a4 a5 _; apply: Ropp_le_contravar; exact: more.
  - by move=> N M _ a1 a2; apply: Ropp_le_contravar; exact: up.
  exists (- w)%Re; split; first by move=> N M a1 a2; have := w1 N M 0%N a1 a2; lra.
  move=> eps he; have [N0 h] := w2 eps he; exists N0 => N M a1 a2; have := h N M N0 a1 a2 (le_n _); lra.
pose w n i := proj1_sig (lim n i); have lo n i := proj1 (proj2_sig (lim n i)); have hi n i := proj2 (proj2_sig (lim n i)).
have near n i (z : R) : (forall N M, (1 <= N)%coq_nat -> (N <= M)%coq_nat -> (G N M n i <= z)%Re) -> (w n i <= z)%Re.
  move=> hz; apply: le_epsilon => eps he; have [N0 h] := hi n i eps he; have g1 : (N0 <= N0.+1)%coq_nat by lia.
  have g2 : (1 <= N0.+1)%coq_nat by lia.
  by have := h _ _ g1 (le_n _); have := hz _ _ g2 (le_n _); rewrite /w; lra.
exists w; split.
  move=> n i; split; last by apply: near => N M a1 a2; exact: up.
  exact: (Rlt_le_trans _ _ _ (Gpos 1%N 1%N n i one one) (lo n i 1%N 1%N one one)).
split.
  by move=> n n' i hn; apply: near => N M a1 a2; apply: (Rle_trans _ (G N M n' i)); [apply: more; lia|exact: lo].
move=> nmax eps a3 heps; have [N0 hN0] : exists N0, forall i, (i < Z.to_nat (pyround (Tmax / dT)))%coq_nat -> forall N M, (N0 <= N)%coq_nat -> (N <= M)%coq_nat -> (w nmax i - eps < G N M nmax i)%Re.
  apply: (@bounded_choice (fun i N0 => forall N M, (N0 <= N)%coq_nat -> (N <= M)%coq_nat -> (w nmax i - eps < G N M nmax i)%Re)).
  - by move=> i a b h ab N M z1 z2; apply: h => //; lia.
  - by move=> i _; exact: hi.
exists N0 => N M t a1 a2 hR eT eM hA.
have hS : objects (truncated c N M) e u by do 6 (split; first by [apply: (body_object b1)|apply: (body_object b2)|]).
have [Nf hNf] := full_seen hS hc hp hR hA a3 (fun m k hmx hk => strict N M m k a1 a2 hmx hk).
exists Nf => fuel hf unk garbage empty; have [t1 [F [E1 E2 E3]]] := hNf fuel hf unk garbage empty; rewrite eT eM in E2.
exists t1, F; split=> // i hi'; exists (G N M nmax i); split; first by rewrite (E3 i hi') eT.
- by split; [exact: Gpos|exact: lo].
- by move=> z1; apply: hN0 => //; rewrite -E2.
Qed.
Print Assumptions C105_orders.

(** ** centres more than two sums of radii apart: the limit for growing lmax, lssmax and nmax *)
Theorem C105_limit : forall c e u e0 s precision conv dT Tmax, c_ext c = true -> has (c_med c) e u -> (2 * ((rim (c_1 c)) + (rim (c_2 c))) < c_L c)%Re ->
  (0 < e0)%Re -> (forall k, (0 < k)%Re -> u k = 1%Re /\ (e0 <= e k)%Re) -> (forall k, (0 < k)%Re -> body c s (c_1 c) e u k /\ body c (- s) (c_2 c) e u k) -> (forall k, (0 < k)%Re -> visible c s (c_1 c) e u k /\ visible c (- s) (c_2 c) e u k) -> (conv < 1)%Re -> (precision <= 0)%Re -> (0 < dT)%Re ->
  exists w : nat -> R, (forall i, (0 < w i <= let T := INR i.+1 * dT in let r := exp (- (decay (rim (c_1 c)) (rim (c_2 c)) (c_L c) * c_L c * sqrt e0 * T)) in factor (rim (c_1 c)) (rim (c_2 c)) (c_L c) * T * (1 / 2 + r / (1 - r)))%Re) /\
    forall eps, (0 < eps)%Re -> exists N0, forall N M nmax t, (1 <= N)%coq_nat -> (N <= M)%coq_nat -> (1 <= nmax)%coq_nat ->
    ready exact_bessels (truncated c N M) t nmax -> t_deltaT t = dT -> t_Tmax t = Tmax -> t_analytic t = false ->
    exists Nf, forall fuel, (Nf <= fuel)%N -> forall unk garbage empty, exists t1 F,
      [/\ free_energy (ops unk fuel exact_bessels trans_bessels (truncated c N M) precision conv false garbage) empty t = (t1, Ok F), List.length F = Z.to_nat (pyround (Tmax / dT)) &
          forall i : nat, (i < List.length F)%coq_nat -> exists x, [/\ List.nth_error F i = Some x, (0 < x <= w i)%Re & ((N0 <= N)%coq_nat -> (N0 <= nmax)%coq_nat -> (w i - eps < x)%Re)]].
Proof.
move=> c e u e0 s precision conv dT Tmax hx hm hab he0 hu con hcon hc hp hT.
have [b1 b2] := con 1%Re Rlt_0_1; have ha := rim_pos hm Rlt_0_1 b1; have hb := rim_pos hm Rlt_0_1 b2.
have hL : (0 < c_L c)%Re by lra.
have th1 : (0 < 1 / 2 <= 1)%Re by lra.
have hu' k (hk : (0 < k)%Re) := proj1 (hu k hk).
have pe k (hk : (0 < k)%Re) : (0 < e k)%Re by have [_ [hpp _]] := hm; have [pe _] := hpp k hk.
have hq k : (0 < k)%Re -> (rate (1 / 2) e u k (rim (c_1 c)) (rim (c_2 c)) (c_L c) < 1)%Re by move=> hk; have [_ []] := two_rate e u k (rim (c_1 c)) (rim (c_2 c)) (c_L c) (pe k hk) (hu' k hk) hk ha hb hab.
have e10 : (0 < 1e-10)%Re by lra.
pose G N M n i := matsubara (gsum c N M) 1e-10 dT n i.+1.
have strict N M m k : (1 <= N)%coq_nat -> (N <= M)%coq_nat -> (m <= N)%coq_nat -> (0 < k)%Re -> \det (1%:M - trip exact_bessels (truncated c N M) (Z.of_nat m) k) <> 0 /\ (0 < lnr exact_bessels (truncated c N M) m k)%Re.
  by move=> a1 a2 a3 hk; have [g1 g2] := hcon k hk; exact: (sep_sharp hx hm hL th1 hq con (orders_at c a1 a2 a3) hk g1 g2).
have gpos N M k : (1 <= N)%coq_nat -> (N <= M)%coq_nat -> (0 < k)%Re -> (0 < gsum c N M k)%Re by move=> a1 a2 hk; apply: rsum_pos => m hmx; exact: (proj2 (strict N M m k a1 a2 hmx hk)).
have Gpos N M n i : (1 <= N)%coq_nat -> (N <= M)%coq_nat -> (0 < G N M n i)%Re by move=> a1 a2; apply: matsubara_pos => //; [lia|move=> k hk; exact: gpos].
have more N M n N' M' n' i : (1 <= N)%coq_nat -> (N <= M)%coq_nat -> (N' <= M')%coq_nat -> (N <= N')%coq_nat -> (M <= M')%coq_nat -> (n <= n')%coq_nat -> (G N M n i <= G N' M' n' i)%Re.
  move=> a1 a2 a3 a4 a5 a6; have bN : (1 <= N')%coq_nat by lia.
  apply: matsubara_more => //; [lia| |by move=> k hk; left; exact: gpos].
  by move=> k hk; exact: (sep_gsum_more hx hm hL th1 hq con).
have sp := sqrt_lt_R0 _ he0.
have [dp [fp _]] := two_total e u 1%Re (rim (c_1 c)) (rim (c_2 c)) (c_L c) (pe _ Rlt_0_1) (hu' _ Rlt_0_1) Rlt_0_1 ha hb hab.
pose d := (decay (rim (c_1 c)) (rim (c_2 c)) (c_L c) * c_L c * sqrt e0)%Re; have d0 : (0 < d)%Re by apply: Rmult_lt_0_compat => //; apply: Rmult_lt_0_compat.
have top k N M : (0 < k)%Re -> (1 <= N)%coq_nat -> (N <= M)%coq_nat -> (gsum c N M k <= factor (rim (c_1 c)) (rim (c_2 c)) (c_L c) * exp (- (d * k)))%Re.
  move=> hk a1 a2; have [_ z] := sep_gsum hx hm hL th1 hq con a1 a2 hk; have [_ [_ z2]] := two_total e u k (rim (c_1 c)) (rim (c_2 c)) (c_L c) (pe k hk) (hu' k hk) hk ha hb hab.
  apply: (Rle_trans _ _ _ z); apply: (Rle_trans _ _ _ z2); apply: Rmult_le_compat_l; first by left.
  have [_ hek] := hu k hk; have sl : (sqrt e0 <= sqrt (e k))%Re by exact: sqrt_le_1_alt.
  have le : (d * k <= decay (rim (c_1 c)) (rim (c_2 c)) (c_L c) * way e k (c_L c))%Re.
    rewrite /d /way; have := Rmult_le_compat_l (decay (rim (c_1 c)) (rim (c_2 c)) (c_L c) * (k * c_L c)) _ _ (Rlt_le _ _ (Rmult_lt_0_compat _ _ dp (Rmult_lt_0_compat _ _ hk hL))) sl; lra.
  by case: le => [lt|->]; [left; apply: exp_increasing; lra|right].
pose bnd i := let T := (INR i.+1 * dT)%Re in let r := exp (- (d * T)) in (factor (rim (c_1 c)) (rim (c_2 c)) (c_L c) * T * (1 / 2 + r / (1 - r)))%Re.
have up N M n i : (1 <= N)%coq_nat -> (N <= M)%coq_nat -> (G N M n i <= bnd i)%Re.
  by move=> a1 a2; apply: matsubara_upper => //; [lia|move=> k hk; exact: top].
have one : (1 <= 1)%coq_nat by [].
have lim i : { w | (forall N M n, (1 <= N)%coq_nat -> (N <= M)%coq_nat -> (G N M n i <= w)%Re) /\ (w <= bnd i)%Re /\ forall eps, (0 < eps)%Re -> exists N0, forall N M n, (N0 <= N)%coq_nat -> (N <= M)%coq_nat -> (N0 <= n)%coq_nat -> (w - eps < G N M n i)%Re }.
  have [||w [w1 w2]] := @triple_limit (fun N M n => - G N M n i)%Re (- bnd i)%Re.
  - by move=> N M n N' M' n' a1 a2 a3 a4 a5 a6; apply: Ropp_le_contravar; exact: more.
  - by move=> N M n a1 a2; apply: Ropp_le_contravar; exact: up.
  exists (- w)%Re; split; first by move=> N M n a1 a2; have := w1 N M n a1 a2; lra.
  have w3 : forall eps, (0 < eps)%Re -> exists N0, forall N M n, (N0 <= N)%coq_nat -> (N <= M)%coq_nat -> (N0 <= n)%coq_nat -> (- w - eps < G N M n i)%Re by move=> eps he; have [N0 h] := w2 eps he; exists N0 => N M n a1 a2 a3; have := h N M n a1 a2 a3; lra.
  split; last exact: w3.
  apply: le_epsilon => eps he; have [N0 h] := w3 eps he; have g1 : (N0 <= N0.+1)%coq_nat by lia.
  have g2 : (1 <= N0.+1)%coq_nat by lia.
  by have := h _ _ _ g1 (le_n _) g1; have := up _ _ N0.+1 i g2 (le_n _); lra.
pose w i := proj1_sig (lim i); have lo i := proj1 (proj2_sig (lim i)); have hi i := proj2 (proj2_sig (lim i)).
exists w; split.
  by move=> i; split; [exact: (Rlt_le_trans _ _ _ (Gpos 1%N 1%N 1%N i one one) (lo i 1%N 1%N 1%N one one))|exact: (proj1 (hi i))].
move=> eps heps; have [N0 hN0] : exists N0, forall i, (i < Z.to_nat (pyround (Tmax / dT)))%coq_nat -> forall N M n, (N0 <= N)%coq_nat -> (N <= M)%coq_nat -> (N0 <= n)%coq_nat -> (w i - eps < G N M n i)%Re.
  apply: (@bounded_choice (fun i N0 => forall N M n, (N0 <= N)%coq_nat -> (N <= M)%coq_nat -> (N0 <= n)%coq_nat -> (w i - eps < G N M n i)%Re)).
  - by move=> i a b h ab N M n z1 z2 z3; apply: h => //; lia.
  - by move=> i _; exact: (proj2 (hi i)).
exists N0 => N M nmax t a1 a2 a3 hR eT eM hA.
have hS : objects (truncated c N M) e u by do 6 (split; first by [apply: (body_object b1)|apply: (body_object b2)|]).
have [Nf hNf] := full_seen hS hc hp hR hA a3 (fun m k hmx hk => strict N M m k a1 a2 hmx hk).
exists Nf => fuel hf unk garbage empty; have [t1 [F [E1 E2 E3]]] := hNf fuel hf unk garbage empty; rewrite eT eM in E2.
exists t1, F; split=> // i hi'; exists (G N M nmax i); split; first by rewrite (E3 i hi') eT.
- by split; [exact: Gpos|exact: lo].
- by move=> z1 z2; apply: hN0 => //; rewrite -E2.
Qed.
Print Assumptions C105_limit.

(** ** Non-vacuity: a coated reflector and a bubble with a shell in a metallic medium, one unit apart and far apart *)
Lemma bubble_sides k : (0 < k)%Re -> body bubble 1 (c_1 bubble) (eps_spec e_Gold) (mu_val None) k /\ body bubble (- (1 : R)) (c_2 bubble) (eps_spec e_Gold) (mu_val None) k.
Proof. by move=> hk; split; [exact: reflector_denser|exact: foam_thinner]. Qed.
Lemma bubble_visible k : (0 < k)%Re -> visible bubble 1 (c_1 bubble) (eps_spec e_Gold) (mu_val None) k /\ visible bubble (- (1 : R)) (c_2 bubble) (eps_spec e_Gold) (mu_val None) k.
Proof.
move=> hk; split; first by left; split=> //; left.
right; split; first by [].
exists 0%N, (eps_spec [::]), (mu_val None); split; first by rewrite /=; lia.
split; first by rewrite /=; lra.
by split; [exact vacuum_has|exact: gold_above].
Qed.
Example C105_bubble : exists w : nat -> nat -> R, (forall n i, (0 < w n i)%Re) /\ (forall n n' i, (n <= n')%coq_nat -> (w n i <= w n' i)%Re) /\
    forall nmax eps, (1 <= nmax)%coq_nat -> (0 < eps)%Re -> exists N0, forall N, (1 <= N)%coq_nat ->
    exists Nf, forall fuel, (Nf <= fuel)%N -> forall unk garbage empty, exists t1 F,
      [/\ free_energy (ops unk fuel exact_bessels trans_bessels (truncated bubble N N) 0 1e-10 false garbage) empty (task (1 / 10) 3 nmax false) = (t1, Ok F), List.length F = Z.to_nat (pyround (3 / (1 / 10))) &
          forall i : nat, (i < List.length F)%coq_nat -> exists x, [/\ List.nth_error F i = Some x, (0 < x <= w nmax i)%Re & ((N0 <= N)%coq_nat -> (w nmax i - eps < x)%Re)]].
Proof.
have d1 : (0 < 1 / 10)%Re by lra.
have hab : (rim (c_1 bubble) + rim (c_2 bubble) < c_L bubble)%Re by rewrite /rim /=; lra.
have [|||w [w0 [w1 h]]] := @C105_orders bubble (eps_spec e_Gold) (mu_val None) 1%Re 0%Re 1e-10%Re (1 / 10)%Re 3%Re erefl gold_has hab (fun _ _ => erefl) bubble_sides bubble_visible; try lra.
exists w; split; first by move=> n i; have [] := w0 n i.
split; first exact: w1.
move=> nmax eps a1 /(h nmax eps a1) [N0 h']; exists N0 => N a2.
exact: (h' N N (task (1 / 10) 3 nmax false) a2 (le_n N) (@task_ready _ _ _ _ _ _ d1) erefl erefl erefl).
Qed.
Example C105_far_bubble : exists w : nat -> R, (forall i, (0 < w i)%Re) /\ forall eps, (0 < eps)%Re -> exists N0, forall N nmax, (1 <= N)%coq_nat -> (1 <= nmax)%coq_nat ->
    exists Nf, forall fuel, (Nf <= fuel)%N -> forall unk garbage empty, exists t1 F,
      [/\ free_energy (ops unk fuel exact_bessels trans_bessels (truncated (at_distance bubble 20) N N) 0 1e-10 false garbage) empty (task (1 / 10) 3 nmax false) = (t1, Ok F), List.length F = Z.to_nat (pyround (3 / (1 / 10))) &
          forall i : nat, (i < List.length F)%coq_nat -> exists x, [/\ List.nth_error F i = Some x, (0 < x <= w i)%Re & ((N0 <= N)%coq_nat -> (N0 <= nmax)%coq_nat -> (w i - eps < x)%Re)]].
Proof.
have d1 : (0 < 1 / 10)%Re by lra.
have hab : (2 * (rim (c_1 (at_distance bubble 20)) + rim (c_2 (at_distance bubble 20))) < c_L (at_distance bubble 20))%Re by rewrite /rim /=; lra.
have g k : (0 < k)%Re -> mu_val None k = 1%Re /\ (1 <= eps_spec e_Gold k)%Re by move=> hk; split=> //; have := gold_above hk; rewrite {1}/eps_spec /=; move: (eps_spec e_Gold k) => y; lra.
have [||||w [w0 h]] := @C105_limit (at_distance bubble 20) (eps_spec e_Gold) (mu_val None) 1%Re 1%Re 0%Re 1e-10%Re (1 / 10)%Re 3%Re erefl gold_has hab _ g bubble_sides bubble_visible; try lra.
exists w; split; first by move=> i; have [] := w0 i.
move=> eps /h [N0 h']; exists N0 => N nmax a1 a2.
exact: (h' N N nmax (task (1 / 10) 3 nmax false) a1 (le_n N) a2 (@task_ready _ _ _ _ _ _ d1) erefl erefl erefl).
Qed.
