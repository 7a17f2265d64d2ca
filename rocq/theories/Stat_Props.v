(** * Property C88: convergence of free energies with the analytic zero-frequency term *)
From Coq Require Import Reals.
From Coq Require Import Epsilon List Lia Lra ZArith.
From mathcomp Require Import all_ssreflect ssralg ssrnum fingroup perm matrix mxalgebra poly mxpoly.
From Verif Require Import Base RStruct Mat_Model Mat_Spec Mat_Proofs Thermo_Model Thermo_Proofs Geo_Model Geo_Spec Bessel_Model Scat_Model Scat_Spec Scat_Proofs Scat_Proofs4 Scat_Proofs7 Scat_Proofs8 Scat_Proofs9 Scat_Proofs10 Scat_Props2 Trans_Model Trans_Spec Trans_Proofs3
  Lin_Model Lin_Spec Bal_Proofs Lin_Proofs Trip_Proofs Lin_Proofs2 RT_Model RT_Spec RT_Spec2 RT_Proofs RT_Proofs2 RT_Proofs3 RT_Proofs4 RT_Proofs6 RT_Proofs7 RT_Proofs8 RT_Proofs9 RT_Proofs10
  RT_Props RT_Props2 RT_Props3 RT_Props5 Exp_Proofs2 Lap_Proofs2 Mono_Proofs Mono_Proofs2 Mono_Proofs3 RT_Props8 Cut_Proofs RT_Props9 RT_Props10
  Run_Model Run_Spec Run_Proofs Run_Proofs2 Run_Proofs3 Run_Proofs4 Run_Proofs5 Run_Proofs9 Run_Props Run_Props2 Run_Props7 Conv_Spec Conv_Spec2 Conv_Proofs3 Conv_Proofs4 Conv_Proofs5 Conv_Proofs6 Conv_Proofs8 Conv_Proofs9 Conv_Props Conv_Props2
  Far_Proofs3 Lim_Proofs Lim_Proofs2 Lim_Proofs3 Lim_Props Rep_Spec Rep_Proofs Rep_Props Far_Proofs2 Far_Props Far_Props2 Stat_Spec Stat_Proofs.
Set Implicit Arguments.
Unset Strict Implicit.
Import GRing.Theory.
Local Open Scope ring_scope.
Delimit Scope R_scope with Re.

Lemma lim0_unique f a b : lim0 f a -> lim0 f b -> a = b.
Proof. by move=> h1 h2; apply: Rle_antisym; apply: (lim0_le f f) => // k _; right. Qed.

(** ** the free energies as Matsubara sums, if the sum over m runs up to lmax *)
Lemma full_static c m1 m2 ra rb e b precision conv t nmax g0 : two_spheres c m1 m2 ra rb e b -> static_sphere m1 -> static_sphere m2 -> c_ext c = true -> mu_val b 0 = 1%Re -> (1 <= c_lmax c)%coq_nat -> (c_lmax c <= c_lssmax c)%coq_nat ->
  (conv < 1)%Re -> (precision <= 0)%Re -> ready exact_bessels c t nmax -> t_analytic t = true ->
  (forall m, (m <= c_lmax c)%coq_nat -> exists d, limit0 (fun k => \det (1%:M - trip exact_bessels c (Z.of_nat m) k)) d /\ (0 < d)%Re) ->
  (forall m k, (m <= c_lmax c)%coq_nat -> (0 < k)%Re -> \det (1%:M - trip exact_bessels c (Z.of_nat m) k) <> 0) ->
  (forall m k, (m <= c_lmax c)%coq_nat -> (0 < k)%Re -> lnr exact_bessels c m k < 0)%Re \/ (forall m k, (m <= c_lmax c)%coq_nat -> (0 < k)%Re -> 0 < lnr exact_bessels c m k)%Re ->
  limit0 (fun k => rsum (fun m => lnr exact_bessels c m k) (c_lmax c)) g0 ->
  exists Nf, forall fuel, (Nf <= fuel)%N -> forall unk garbage empty, exists t1 F,
    [/\ free_energy (ops unk fuel exact_bessels trans_bessels c precision conv false garbage) empty t = (t1, Ok F), List.length F = Z.to_nat (pyround (t_Tmax t / t_deltaT t)) &
        forall i : nat, (i < List.length F)%coq_nat -> List.nth_error F i = Some (matsubara_static g0 (fun k => rsum (fun m => lnr exact_bessels c m k) (c_lmax c)) (t_deltaT t) nmax i.+1)].
Proof.
move=> HC S1 S2 hx mu0 hl hls hc hp hR hA hd hreg hsgn hg0; have [_ [_ [_ [HT _]]]] := hR.
have om m : (m <= c_lmax c)%coq_nat -> some_orders c (Z.of_nat m) by move=> hmx; split; [lia|split; lia].
have [d0 hd0] : exists d0 : nat -> R, forall m, (m <= c_lmax c)%coq_nat -> (limit0 (fun k => \det (1%:M - trip mie_bessels c (Z.of_nat m) k)) (d0 m) /\ (0 < d0 m)%Re) /\ limit0 (fun k => \det (1%:M - trip exact_bessels c (Z.of_nat m) k)) (d0 m).
  apply: (@choose_upto R (fun m d => (limit0 (fun k => \det (1%:M - trip mie_bessels c (Z.of_nat m) k)) d /\ (0 < d)%Re) /\ limit0 (fun k => \det (1%:M - trip exact_bessels c (Z.of_nat m) k)) d) 0%Re (c_lmax c)) => m hmx.
  have [A0 [B0 [TE0 [TM0 [_ _ _ hz]]]]] := C85_static_limit HC S1 S2 hx (om m hmx) mu0.
  have [z1 _] := hz mie_bessels (or_introl erefl); have [z2 _] := hz exact_bessels (or_intror erefl).
  have [d [d1 d2]] := hd m hmx; have E := lim0_unique d1 (z2 1); exists d; split; last exact d1.
  by split; [rewrite E; exact (z1 1)|exact d2].
have hd' m : (m <= c_lmax c)%coq_nat -> limit0 (fun k => \det (1%:M - trip mie_bessels c (Z.of_nat m) k)) (d0 m) /\ (0 < d0 m)%Re by move=> hmx; exact: (proj1 (hd0 m hmx)).
have pos n : (1 <= n)%coq_nat /\ (n <= nmax)%coq_nat -> (0 < t_deltaT t * INR n)%Re by move=> [hn1 _]; apply: Rmult_lt_0_compat => //; apply: lt_0_INR; lia.
have hel q : freqs (t_deltaT t) nmax q <> nil -> elementwise_at exact_bessels c (freqs (t_deltaT t) nmax q) by move=> _; exact: (exact_at _ _ (trans_at_ext _ _ hx)).
have [cut0 [cut [Nf [hc0 hcut hN]]]] := C66_free_energy precision HC S1 S2 hx mu0 hl hls hc hR hA hel hd' (fun n m hn hmx => hreg m _ hmx (pos n hn)).
have full ks M : ks <> nil -> (forall k, In k ks -> (0 < k)%Re) -> stops_at precision (c_lmax c) (fun m k => ln_abs_det (1%:M - trip exact_bessels c (Z.of_nat m) k)) ks M -> M = c_lmax c.
  move=> hne hks; case: hsgn => hs.
  - by apply: (no_stop precision (c_lmax c) (fun m k => lnr exact_bessels c m k)) => // m k hmx /hks hk; split; [exact: lnd_real (hreg m k hmx hk)|exact: hs].
  - by apply: (no_stop_pos precision (c_lmax c) (fun m k => lnr exact_bessels c m k)) => // m k hmx /hks hk; split; [exact: lnd_real (hreg m k hmx hk)|exact: hs].
have c1 : cut0 = c_lmax c by exact: never_early hp hc0.
have c3 q : freqs (t_deltaT t) nmax q <> nil -> cut q = c_lmax c by move=> hq; apply: (full _ _ hq _ (hcut q hq)) => k /(freqs_in _ _ _ _) [n [hn1 ->]]; exact: pos.
have g0E : rsum (fun m => ln (d0 m)) (c_lmax c) = g0.
  apply: (lim0_unique _ hg0); apply: (lim0_rsum (fun m k => lnr exact_bessels c m k)) => m hmx.
  by have [[_ p] l] := hd0 m hmx; exact: lim0_lnabs.
exists Nf => fuel hf unk garbage empty; have [t1 [F [E1 _ E3 E4]]] := hN fuel hf unk garbage empty; exists t1, F; split=> // i hi.
have hi1 : (1 <= i.+1)%coq_nat /\ (i.+1 <= List.length F)%coq_nat by lia.
have si : (i.+1 - 1)%coq_nat = i by lia.
have := E4 _ hi1; rewrite si => ->; congr Some; rewrite c1 g0E; apply: sliced_static; first lia.
move=> n hn1; have hin := freqs_has (t_deltaT t) nmax n hn1.
have hne : freqs (t_deltaT t) nmax (PeanoNat.Nat.div n 50) <> nil by move=> hz; rewrite hz in hin.
by rewrite (c3 _ hne).
Qed.

(** ** the static part of the sum over m *)
Definition stat c N M : R := Epsilon.epsilon (inhabits 0%Re) (fun v => limit0 (gsum c N M) v).
Lemma stat_spec c N M : (forall m, (m <= N)%coq_nat -> exists d, limit0 (fun k => \det (1%:M - trip exact_bessels (truncated c N M) (Z.of_nat m) k)) d /\ (0 < d)%Re) -> limit0 (gsum c N M) (stat c N M).
Proof.
move=> h; rewrite /stat; apply: (Epsilon.epsilon_spec (inhabits 0%Re) (fun v => limit0 (gsum c N M) v)).
have [d0 hd0] := @choose_upto R (fun m d => limit0 (fun k => \det (1%:M - trip exact_bessels (truncated c N M) (Z.of_nat m) k)) d /\ (0 < d)%Re) 0%Re N h.
exists (rsum (fun m => ln (d0 m)) N); apply: (lim0_rsum (fun m k => lnr exact_bessels (truncated c N M) m k)) => m hmx.
by have [l p] := hd0 m hmx; exact: lim0_lnabs.
Qed.

(** ** spheres on the same side of the medium, at least five sums of the radii apart *)
Theorem C88_attraction : forall c m1 m2 ra rb e b s dT Tmax, two_spheres c m1 m2 ra rb e b -> static_sphere m1 -> static_sphere m2 -> c_ext c = true -> (forall k, (0 <= k)%Re -> mu_val b k = 1%Re) -> (5 * (ra + rb) <= c_L c)%Re ->
  (forall k, (0 < k)%Re -> sharp s m1 (eps_spec e) (mu_val b) k /\ sharp s m2 (eps_spec e) (mu_val b) k) -> (0 < dT)%Re ->
  exists w : nat -> R, (forall i, let T := INR i.+1 * dT in let r := exp (- (c_L c / 70 * T)) in - (T * (2 + 4 * (r / (1 - r)))) <= w i < 0)%Re /\
    forall eps, (0 < eps)%Re -> exists N0, forall N M nmax t, (1 <= N)%coq_nat -> (N <= M)%coq_nat ->
    ready exact_bessels (truncated c N M) t nmax -> t_deltaT t = dT -> t_Tmax t = Tmax -> t_analytic t = true -> forall precision conv, (conv < 1)%Re -> (precision <= 0)%Re ->
    exists Nf, forall fuel, (Nf <= fuel)%N -> forall unk garbage empty, exists t1 F,
      [/\ free_energy (ops unk fuel exact_bessels trans_bessels (truncated c N M) precision conv false garbage) empty t = (t1, Ok F), List.length F = Z.to_nat (pyround (Tmax / dT)) &
          forall i : nat, (i < List.length F)%coq_nat -> exists x, [/\ List.nth_error F i = Some x, (w i <= x <= 0)%Re, ((i < nmax)%coq_nat -> (x < 0)%Re) & ((N0 <= N)%coq_nat -> (N0 <= nmax)%coq_nat -> (x < w i + eps)%Re)]].
Proof.
move=> c m1 m2 ra rb e b s dT Tmax HC S1 S2 hx hmu hL5 hcon hT.
have [h1 [h2 [hi [ha [hb hL]]]]] := HC; have hm := insulator_has _ _ _ hi; have [_ [hph _]] := hi.
have mu0 : mu_val b 0 = 1%Re by apply: hmu; right.
have hu' k (hk : (0 < k)%Re) : mu_val b k = 1%Re by apply: hmu; left.
have con k (hk : (0 < k)%Re) : contrast s m1 (eps_spec e) (mu_val b) k /\ contrast s m2 (eps_spec e) (mu_val b) k by have [g1 g2] := hcon k hk; split; exact: sharp_contrast.
pose d := (c_L c / 70)%Re; have d0 : (0 < d)%Re by rewrite /d; lra.
have HC' N M : two_spheres (truncated c N M) m1 m2 ra rb e b by exact: HC.
have neg N M m k : (1 <= N)%coq_nat -> (N <= M)%coq_nat -> (m <= N)%coq_nat -> (0 < k)%Re -> \det (1%:M - trip exact_bessels (truncated c N M) (Z.of_nat m) k) <> 0 /\ (lnr exact_bessels (truncated c N M) m k < 0)%Re.
  move=> a1 a2 a3 hk; have ho := orders_at c a1 a2 a3; have [g1 g2] := hcon k hk.
  have tp := @sharp_trace (truncated c N M) m1 m2 ra rb _ _ (Z.of_nat m) k s h1 h2 hx hm ha hb hL hk g1 g2 ho.
  have [_ dd [_ z]] := apart_det h1 h2 hx hm ha hb hL5 hu' con ho hk.
  rewrite (lnrE h1 h2 hx hm ha hb hL5 hu' con ho hk); split; first by move=> E; rewrite E in dd; exact: (Rlt_irrefl _ dd).
  have r (x y : R) : (0 < y -> x <= - y -> x < 0)%Re by lra.
  exact: (r _ _ tp z).
have hd N M : (1 <= N)%coq_nat -> (N <= M)%coq_nat -> forall m, (m <= N)%coq_nat -> exists d, limit0 (fun k => \det (1%:M - trip exact_bessels (truncated c N M) (Z.of_nat m) k)) d /\ (0 < d)%Re.
  move=> a1 a2 m hmx; have [dd [tt [_ z _ [p _] _]]] := far_static (HC' N M) S1 S2 hx hmu hL5 con (orders_at c a1 a2 hmx).
  by exists dd.
have lim0s N M : (1 <= N)%coq_nat -> (N <= M)%coq_nat -> limit0 (gsum c N M) (stat c N M) by move=> a1 a2; apply: stat_spec; exact: hd.
have gneg N M k : (1 <= N)%coq_nat -> (N <= M)%coq_nat -> (0 < k)%Re -> (gsum c N M k < 0)%Re by move=> a1 a2 hk; apply: rsum_neg => m hmx; exact: (proj2 (neg N M m k a1 a2 hmx hk)).
have low k N M : (0 < k)%Re -> (1 <= N)%coq_nat -> (N <= M)%coq_nat -> (- (4 * exp (- (d * k))) <= gsum c N M k)%Re.
  move=> hk a1 a2; apply: (Rle_trans _ _ _ _ (gsum_lower h1 h2 hx hm ha hb hL5 hu' con a1 a2 hk)).
  have ge := Mat_Proofs.eps_ge_1 _ _ hph hk; have sl : (1 <= sqrt (eps_spec e k))%Re by rewrite -sqrt_1; exact: sqrt_le_1_alt.
  have le : (d * k <= way (eps_spec e) k (c_L c) / 70)%Re.
    rewrite /d /way; have := Rmult_le_compat_l (k * c_L c) _ _ (Rlt_le _ _ (Rmult_lt_0_compat _ _ hk hL)) sl; lra.
  have : (exp (- (way (eps_spec e) k (c_L c) / 70)) <= exp (- (d * k)))%Re by case: (Req_dec (d * k) (way (eps_spec e) k (c_L c) / 70)) => [->|ne]; [right|left; apply: exp_increasing; lra].
  lra.
have s_low N M : (1 <= N)%coq_nat -> (N <= M)%coq_nat -> (-4 <= stat c N M)%Re.
  move=> a1 a2; apply: (lim0_le (fun=> (-4)%Re) (gsum c N M) _ _ _ (lim0_const _) (lim0s N M a1 a2)) => k hk; have ep : (exp (- (d * k)) <= 1)%Re.
    by rewrite -exp_0; left; apply: exp_increasing; have := Rmult_lt_0_compat _ _ d0 hk; lra.
  have := low k N M hk a1 a2; lra.
have s_neg N M : (1 <= N)%coq_nat -> (N <= M)%coq_nat -> (stat c N M <= 0)%Re.
  by move=> a1 a2; apply: (lim0_le (gsum c N M) (fun=> 0%Re) _ _ _ (lim0s N M a1 a2) (lim0_const _)) => k hk; left; exact: gneg.
pose G N M n i := matsubara_static (stat c N M) (gsum c N M) dT n i.+1.
have lim i : { w | (forall N M n, (1 <= N)%coq_nat -> (N <= M)%coq_nat -> (w <= G N M n i)%Re) /\
        forall eps, (0 < eps)%Re -> exists N0, forall N M n, (N0 <= N)%coq_nat -> (N <= M)%coq_nat -> (N0 <= n)%coq_nat -> (G N M n i < w + eps)%Re }.
  apply: (@triple_limit (fun N M n => G N M n i) (- (INR i.+1 * dT * (2 + 4 * (exp (- (d * (INR i.+1 * dT))) / (1 - exp (- (d * (INR i.+1 * dT)))))))))%Re.
  - move=> N M n N' M' n' a1 a2 a3 a4 a5 a6; have b1 : (1 <= N')%coq_nat by lia.
    apply: static_less => //; [lia| | |by move=> k hk; left; exact: gneg].
    + by apply: (lim0_le (gsum c N' M') (gsum c N M) _ _ _ (lim0s _ _ b1 a3) (lim0s _ _ a1 a2)) => k hk; exact: (gsum_less h1 h2 hx hm ha hb hL5 hu' con).
    + by move=> k hk; exact: (gsum_less h1 h2 hx hm ha hb hL5 hu' con).
  - by move=> N M n a1 a2; apply: static_lower => //; [lia|exact: s_low|move=> k hk; exact: low].
pose w i := proj1_sig (lim i); have lo i := proj1 (proj2_sig (lim i)); have hi' i := proj2 (proj2_sig (lim i)).
have Gneg N M n i : (1 <= N)%coq_nat -> (N <= M)%coq_nat -> (G N M n i <= 0)%Re /\ ((i < n)%coq_nat -> (G N M n i < 0)%Re).
  move=> a1 a2; have i1 : (1 <= i.+1)%coq_nat by lia.
  have o0 : (0 <= - stat c N M)%Re by have := s_neg N M a1 a2; lra.
  have og k : (0 < k)%Re -> (0 < - gsum c N M k)%Re by move=> hk; have := gneg N M k a1 a2 hk; lra.
  have [p1 p2] := static_pos (- stat c N M) (fun k => - gsum c N M k)%Re dT n i.+1 hT i1 o0 og; rewrite static_opp -/(G N M n i) in p1 p2.
  by split; [lra|move=> hin; have := p2 hin; lra].
have one : (1 <= 1)%coq_nat by [].
exists w; split.
  move=> i; split.
  - apply: le_epsilon => eps he; have [N0 h] := hi' i eps he; have g1 : (N0 <= N0.+1)%coq_nat by lia.
    have g2 : (1 <= N0.+1)%coq_nat by lia.
    have i1 : (1 <= i.+1)%coq_nat by lia.
    have z := static_lower _ _ d dT N0.+1 i.+1 d0 hT i1 (s_low _ _ g2 (le_n _)) (fun k hk => low k _ _ hk g2 (le_n _)).
    exact: (Rlt_le _ _ (Rle_lt_trans _ _ _ z (h _ _ _ g1 (le_n _) g1))).
  - exact: (Rle_lt_trans _ _ _ (lo i 1%N 1%N i.+1 one one) (proj2 (Gneg 1%N 1%N i.+1 i one one) (le_n _))).
move=> eps heps; have [N0 hN0] : exists N0, forall i, (i < Z.to_nat (pyround (Tmax / dT)))%coq_nat -> forall N M n, (N0 <= N)%coq_nat -> (N <= M)%coq_nat -> (N0 <= n)%coq_nat -> (G N M n i < w i + eps)%Re.
  apply: (@bounded_choice (fun i N0 => forall N M n, (N0 <= N)%coq_nat -> (N <= M)%coq_nat -> (N0 <= n)%coq_nat -> (G N M n i < w i + eps)%Re)).
  - by move=> i a b' h ab N M n b1 b2 b3; apply: h => //; lia.
  - by move=> i _; exact: hi'.
exists N0 => N M nmax t a1 a2 hR eT eM hA precision conv hc hp.
have [Nf hNf] := @full_static (truncated c N M) m1 m2 ra rb e b precision conv t nmax (stat c N M) (HC' N M) S1 S2 hx mu0 a1 a2 hc hp hR hA (hd N M a1 a2) (fun m k hmx hk => proj1 (neg N M m k a1 a2 hmx hk))
  (or_introl (fun m k hmx hk => proj2 (neg N M m k a1 a2 hmx hk))) (lim0s N M a1 a2).
exists Nf => fuel hf unk garbage empty; have [t1 [F [E1 E2 E3]]] := hNf fuel hf unk garbage empty; rewrite eT eM in E2.
exists t1, F; split=> // i hil; exists (G N M nmax i); have [n1 n2] := Gneg N M nmax i a1 a2; split; first by rewrite (E3 i hil) eT.
- by split; [exact: lo|exact: n1].
- exact: n2.
- by move=> b1 b2; apply: hN0 => //; rewrite -E2.
Qed.
Print Assumptions C88_attraction.

(** ** spheres on opposite sides of the medium *)
Section Opposite.
Context (c : config) (m1 m2 : material) (ra rb : R) (e : list osc) (b : bprops) (s th : R).
Context (HC : two_spheres c m1 m2 ra rb e b) (S1 : static_sphere m1) (S2 : static_sphere m2) (hx : c_ext c = true) (hmu : forall k, (0 <= k)%Re -> mu_val b k = 1%Re) (hth : (0 < th <= 1)%Re).
Context (hq : forall k, (0 < k)%Re -> (rate th (eps_spec e) (mu_val b) k ra rb (c_L c) < 1)%Re) (hcon : forall k, (0 < k)%Re -> sharp s m1 (eps_spec e) (mu_val b) k /\ sharp (- s) m2 (eps_spec e) (mu_val b) k).
Lemma opp_con k : (0 < k)%Re -> contrast s m1 (eps_spec e) (mu_val b) k /\ contrast (- s) m2 (eps_spec e) (mu_val b) k.
Proof. by move=> hk; have [g1 g2] := hcon hk; split; exact: sharp_contrast. Qed.
Lemma opp_strict N M m k : (1 <= N)%coq_nat -> (N <= M)%coq_nat -> (m <= N)%coq_nat -> (0 < k)%Re -> \det (1%:M - trip exact_bessels (truncated c N M) (Z.of_nat m) k) <> 0 /\ (0 < lnr exact_bessels (truncated c N M) m k)%Re.
Proof.
move=> a1 a2 a3 hk; have [h1 [h2 [hi [ha [hb hL]]]]] := HC; have [g1 g2] := hcon hk.
exact: (opp_sharp h1 h2 hx (insulator_has _ _ _ hi) ha hb hL hth hq opp_con (orders_at c a1 a2 a3) hk g1 g2).
Qed.
Lemma opp_gpos N M k : (1 <= N)%coq_nat -> (N <= M)%coq_nat -> (0 < k)%Re -> (0 < gsum c N M k)%Re.
Proof. by move=> a1 a2 hk; apply: rsum_pos => m hmx; exact: (proj2 (opp_strict a1 a2 hmx hk)). Qed.
Lemma opp_limits N M : (1 <= N)%coq_nat -> (N <= M)%coq_nat -> forall m, (m <= N)%coq_nat -> exists d, limit0 (fun k => \det (1%:M - trip exact_bessels (truncated c N M) (Z.of_nat m) k)) d /\ (0 < d)%Re.
Proof.
move=> a1 a2 m hmx; have [h1 [h2 [hi [ha [hb hL]]]]] := HC; have mu0 : mu_val b 0 = 1%Re by apply: hmu; right.
have HC' : two_spheres (truncated c N M) m1 m2 ra rb e b by exact: HC.
have [A0 [B0 [TE0 [TM0 [_ _ _ hz]]]]] := C85_static_limit HC' S1 S2 hx (orders_at c a1 a2 hmx) mu0; have [z2 _] := hz exact_bessels (or_intror erefl).
exists (\det (1%:M - TE0) * \det (1%:M - TM0))%Re; split; first exact (z2 1).
apply: (Rlt_le_trans _ 1); first lra.
apply: (lim0_below _ _ _ (z2 1)) => k hk.
by have [d _ _] := opp_ln h1 h2 hx (insulator_has _ _ _ hi) ha hb hL hth hq opp_con (orders_at c a1 a2 hmx) hk.
Qed.
Lemma opp_stat N M : (1 <= N)%coq_nat -> (N <= M)%coq_nat -> limit0 (gsum c N M) (stat c N M).
Proof. by move=> a1 a2; apply: stat_spec; exact: opp_limits. Qed.
Lemma opp_stat_pos N M : (1 <= N)%coq_nat -> (N <= M)%coq_nat -> (0 <= stat c N M)%Re.
Proof. by move=> a1 a2; apply: (lim0_le (fun=> 0%Re) (gsum c N M) _ _ _ (lim0_const _) (opp_stat a1 a2)) => k hk; left; exact: opp_gpos. Qed.
Lemma opp_static_more dT N M n N' M' n' i : (0 < dT)%Re -> (1 <= N)%coq_nat -> (N <= M)%coq_nat -> (N' <= M')%coq_nat -> (N <= N')%coq_nat -> (M <= M')%coq_nat -> (n <= n')%coq_nat ->
  (matsubara_static (stat c N M) (gsum c N M) dT n i.+1 <= matsubara_static (stat c N' M') (gsum c N' M') dT n' i.+1)%Re.
Proof.
move=> hT a1 a2 a3 a4 a5 a6; have b1 : (1 <= N')%coq_nat by lia.
have [h1 [h2 [hi [ha [hb hL]]]]] := HC.
have le k (hk : (0 < k)%Re) := opp_gsum_more h1 h2 hx (insulator_has _ _ _ hi) ha hb hL hth hq opp_con a1 a2 a3 a4 a5 hk.
apply: static_more => //; [lia| |by move=> k hk; left; exact: opp_gpos].
by apply: (lim0_le (gsum c N M) (gsum c N' M') _ _ le (opp_stat a1 a2)); exact: opp_stat.
Qed.
Lemma opp_static_pos dT N M n i : (0 < dT)%Re -> (1 <= N)%coq_nat -> (N <= M)%coq_nat -> (0 <= matsubara_static (stat c N M) (gsum c N M) dT n i.+1)%Re /\ ((i < n)%coq_nat -> (0 < matsubara_static (stat c N M) (gsum c N M) dT n i.+1)%Re).
Proof. by move=> hT a1 a2; apply: static_pos => //; [lia|exact: opp_stat_pos|move=> k hk; exact: opp_gpos]. Qed.
Lemma opp_run N M precision conv t nmax : (1 <= N)%coq_nat -> (N <= M)%coq_nat -> (conv < 1)%Re -> (precision <= 0)%Re -> ready exact_bessels (truncated c N M) t nmax -> t_analytic t = true ->
  exists Nf, forall fuel, (Nf <= fuel)%N -> forall unk garbage empty, exists t1 F,
    [/\ free_energy (ops unk fuel exact_bessels trans_bessels (truncated c N M) precision conv false garbage) empty t = (t1, Ok F), List.length F = Z.to_nat (pyround (t_Tmax t / t_deltaT t)) &
        forall i : nat, (i < List.length F)%coq_nat -> List.nth_error F i = Some (matsubara_static (stat c N M) (gsum c N M) (t_deltaT t) nmax i.+1)].
Proof.
move=> a1 a2 hc hp hR hA; have mu0 : mu_val b 0 = 1%Re by apply: hmu; right.
exact: (@full_static (truncated c N M) m1 m2 ra rb e b precision conv t nmax (stat c N M) HC S1 S2 hx mu0 a1 a2 hc hp hR hA (opp_limits a1 a2) (fun m k hmx hk => proj1 (opp_strict a1 a2 hmx hk))
  (or_intror (fun m k hmx hk => proj2 (opp_strict a1 a2 hmx hk))) (opp_stat a1 a2)).
Qed.
End Opposite.

Theorem C88_orders : forall c m1 m2 ra rb e b s dT Tmax, two_spheres c m1 m2 ra rb e b -> static_sphere m1 -> static_sphere m2 -> c_ext c = true -> (forall k, (0 <= k)%Re -> mu_val b k = 1%Re) -> (ra + rb < c_L c)%Re ->
  (forall k, (0 < k)%Re -> sharp s m1 (eps_spec e) (mu_val b) k /\ sharp (- s) m2 (eps_spec e) (mu_val b) k) -> (0 < dT)%Re ->
  exists w : nat -> nat -> R, (forall n i, (0 <= w n i <= matsubara_static (total0 ra rb (c_L c)) (fun k => total 1 (eps_spec e) (mu_val b) k ra rb (c_L c)) dT n i.+1)%Re) /\ (forall n n' i, (n <= n')%coq_nat -> (w n i <= w n' i)%Re) /\
    forall nmax eps, (0 < eps)%Re -> exists N0, forall N M t, (1 <= N)%coq_nat -> (N <= M)%coq_nat ->
    ready exact_bessels (truncated c N M) t nmax -> t_deltaT t = dT -> t_Tmax t = Tmax -> t_analytic t = true -> forall precision conv, (conv < 1)%Re -> (precision <= 0)%Re ->
    exists Nf, forall fuel, (Nf <= fuel)%N -> forall unk garbage empty, exists t1 F,
      [/\ free_energy (ops unk fuel exact_bessels trans_bessels (truncated c N M) precision conv false garbage) empty t = (t1, Ok F), List.length F = Z.to_nat (pyround (Tmax / dT)) &
          forall i : nat, (i < List.length F)%coq_nat -> exists x, [/\ List.nth_error F i = Some x, (0 <= x <= w nmax i)%Re, ((i < nmax)%coq_nat -> (0 < x)%Re) & ((N0 <= N)%coq_nat -> (w nmax i - eps < x)%Re)]].
Proof.
move=> c m1 m2 ra rb e b s dT Tmax HC S1 S2 hx hmu hab hcon hT.
have [h1 [h2 [hi0 [ha [hb hL]]]]] := HC; have hm := insulator_has _ _ _ hi0; have [_ [hph [hw _]]] := hi0.
have th1 : (0 < 1 <= 1)%Re by lra.
have hu k : (0 < k)%Re -> mu_val b k = 1%Re by move=> hk; apply: hmu; left.
have hq k : (0 < k)%Re -> (rate 1 (eps_spec e) (mu_val b) k ra rb (c_L c) < 1)%Re.
  move=> hk; have [_ [hpp _]] := hm; have [pe _] := hpp k hk; rewrite (rate_gap ra rb pe (hu k hk) hk hL).
  have iL : (0 < / c_L c)%Re by exact: Rinv_0_lt_compat.
  have p0 : (0 <= (ra + rb) / c_L c)%Re by apply: Rmult_le_pos; lra.
  have p1 : ((ra + rb) / c_L c < 1)%Re by apply: (Rmult_lt_reg_r (c_L c)) => //; rewrite /Rdiv Rmult_assoc Rinv_l; lra.
  simpl; nra.
pose G N M n i := matsubara_static (stat c N M) (gsum c N M) dT n i.+1.
have more N M n N' M' n' i : (1 <= N)%coq_nat -> (N <= M)%coq_nat -> (N' <= M')%coq_nat -> (N <= N')%coq_nat -> (M <= M')%coq_nat -> (n <= n')%coq_nat -> (G N M n i <= G N' M' n' i)%Re.
  by move=> *; exact: (@opp_static_more c m1 m2 ra rb e b s 1%Re HC S1 S2 hx hmu th1 hq hcon).
have up N M n i : (1 <= N)%coq_nat -> (N <= M)%coq_nat -> (G N M n i <= matsubara_static (total0 ra rb (c_L c)) (fun k => total 1 (eps_spec e) (mu_val b) k ra rb (c_L c)) dT n i.+1)%Re.
  move=> a1 a2; have le k (hk : (0 < k)%Re) := opp_gsum h1 h2 hx hm ha hb hL th1 hq (opp_con hcon) a1 a2 hk.
  apply: static_more => //; [lia| |by move=> k hk; have [] := le k hk|by move=> k hk; have [z1 z2] := le k hk; exact: (Rle_trans _ _ _ z1 z2)].
  apply: (lim0_le (gsum c N M) (fun k => total 1 (eps_spec e) (mu_val b) k ra rb (c_L c)) _ _ (fun k hk => proj2 (le k hk)) (@opp_stat c m1 m2 ra rb e b s 1%Re HC S1 S2 hx hmu th1 hq hcon N M a1 a2)).
  exact: lim0_total.
have Gpos N M n i (a1 : (1 <= N)%coq_nat) (a2 : (N <= M)%coq_nat) := @opp_static_pos c m1 m2 ra rb e b s 1%Re HC S1 S2 hx hmu th1 hq hcon dT N M n i hT a1 a2.
have one : (1 <= 1)%coq_nat by [].
have lim n i : { w | (forall N M, (1 <= N)%coq_nat -> (N <= M)%coq_nat -> (G N M n i <= w)%Re) /\ forall eps, (0 < eps)%Re -> exists N0, forall N M, (N0 <= N)%coq_nat -> (N <= M)%coq_nat -> (w - eps < G N M n i)%Re }.
  have [||w [w1 w2]] := @triple_limit (fun N M _ => - G N M n i)%Re (- matsubara_static (total0 ra rb (c_L c)) (fun k => total 1 (eps_spec e) (mu_val b) k ra rb (c_L c)) dT n i.+1)%Re.
  - by move=> N M _ N' M' _ a1 a2 a3 a4 a5 _; apply: Ropp_le_contravar; exact: more.
  - by move=> N M _ a1 a2; apply: Ropp_le_contravar; exact: up.
  exists (- w)%Re; split; first by move=> N M a1 a2; have := w1 N M 0%N a1 a2; lra.
  move=> eps he; have [N0 h] := w2 eps he; exists N0 => N M a1 a2; have := h N M N0 a1 a2 (le_n _); lra.
pose w n i := proj1_sig (lim n i); have lo n i := proj1 (proj2_sig (lim n i)); have hi n i := proj2 (proj2_sig (lim n i)).
have near n i (z : R) : (forall N M, (1 <= N)%coq_nat -> (N <= M)%coq_nat -> (G N M n i <= z)%Re) -> (w n i <= z)%Re.
  move=> hz; apply: le_epsilon => eps he; have [N0 h] := hi n i eps he; have g1 : (N0 <= N0.+1)%coq_nat by lia.
  have g2 : (1 <= N0.+1)%coq_nat by lia.
  by have := h _ _ g1 (le_n _); have := hz _ _ g2 (le_n _); rewrite /w; lra.
exists w; split.
  move=> n i; split; last by apply: near => N M a1 a2; exact: up.
  exact: (Rle_trans _ _ _ (proj1 (Gpos 1%N 1%N n i one one)) (lo n i 1%N 1%N one one)).
split.
  by move=> n n' i hn; apply: near => N M a1 a2; apply: (Rle_trans _ (G N M n' i)); [apply: more; lia|exact: lo].
move=> nmax eps heps; have [N0 hN0] : exists N0, forall i, (i < Z.to_nat (pyround (Tmax / dT)))%coq_nat -> forall N M, (N0 <= N)%coq_nat -> (N <= M)%coq_nat -> (w nmax i - eps < G N M nmax i)%Re.
  apply: (@bounded_choice (fun i N0 => forall N M, (N0 <= N)%coq_nat -> (N <= M)%coq_nat -> (w nmax i - eps < G N M nmax i)%Re)).
  - by move=> i a b' h ab N M b1 b2; apply: h => //; lia.
  - by move=> i _; exact: hi.
exists N0 => N M t a1 a2 hR eT eM hA precision conv hc hp.
have [Nf hNf] := @opp_run c m1 m2 ra rb e b s 1%Re HC S1 S2 hx hmu th1 hq hcon N M precision conv t nmax a1 a2 hc hp hR hA.
exists Nf => fuel hf unk garbage empty; have [t1 [F [E1 E2 E3]]] := hNf fuel hf unk garbage empty; rewrite eT eM in E2.
exists t1, F; split=> // i hil; exists (G N M nmax i); have [p1 p2] := Gpos N M nmax i a1 a2; split; first by rewrite (E3 i hil) eT.
- by split; [exact: p1|exact: lo].
- exact: p2.
- by move=> b1; apply: hN0 => //; rewrite -E2.
Qed.
Print Assumptions C88_orders.

Theorem C88_limit : forall c m1 m2 ra rb e b s dT Tmax, two_spheres c m1 m2 ra rb e b -> static_sphere m1 -> static_sphere m2 -> c_ext c = true -> (forall k, (0 <= k)%Re -> mu_val b k = 1%Re) -> (2 * (ra + rb) < c_L c)%Re ->
  (forall k, (0 < k)%Re -> sharp s m1 (eps_spec e) (mu_val b) k /\ sharp (- s) m2 (eps_spec e) (mu_val b) k) -> (0 < dT)%Re ->
  exists w : nat -> R, (forall i, (0 < w i <= let T := INR i.+1 * dT in let r := exp (- (decay ra rb (c_L c) * c_L c * T)) in factor ra rb (c_L c) * T * (1 / 2 + r / (1 - r)))%Re) /\
    forall eps, (0 < eps)%Re -> exists N0, forall N M nmax t, (1 <= N)%coq_nat -> (N <= M)%coq_nat ->
    ready exact_bessels (truncated c N M) t nmax -> t_deltaT t = dT -> t_Tmax t = Tmax -> t_analytic t = true -> forall precision conv, (conv < 1)%Re -> (precision <= 0)%Re ->
    exists Nf, forall fuel, (Nf <= fuel)%N -> forall unk garbage empty, exists t1 F,
      [/\ free_energy (ops unk fuel exact_bessels trans_bessels (truncated c N M) precision conv false garbage) empty t = (t1, Ok F), List.length F = Z.to_nat (pyround (Tmax / dT)) &
          forall i : nat, (i < List.length F)%coq_nat -> exists x, [/\ List.nth_error F i = Some x, (0 <= x <= w i)%Re, ((i < nmax)%coq_nat -> (0 < x)%Re) & ((N0 <= N)%coq_nat -> (N0 <= nmax)%coq_nat -> (w i - eps < x)%Re)]].
Proof.
move=> c m1 m2 ra rb e b s dT Tmax HC S1 S2 hx hmu hab hcon hT.
have [h1 [h2 [hi0 [ha [hb hL]]]]] := HC; have hm := insulator_has _ _ _ hi0; have [_ [hph [hw _]]] := hi0.
have th1 : (0 < 1 / 2 <= 1)%Re by lra.
have hu k : (0 < k)%Re -> mu_val b k = 1%Re by move=> hk; apply: hmu; left.
have ge k (hk : (0 < k)%Re) := Mat_Proofs.eps_ge_1 _ _ hph hk.
have pe k (hk : (0 < k)%Re) : (0 < eps_spec e k)%Re by have := ge k hk; lra.
have hq k : (0 < k)%Re -> (rate (1 / 2) (eps_spec e) (mu_val b) k ra rb (c_L c) < 1)%Re by move=> hk; have [_ []] := two_rate (eps_spec e) (mu_val b) k ra rb (c_L c) (pe k hk) (hu k hk) hk ha hb hab.
have [dp [fp _]] := two_total (eps_spec e) (mu_val b) 1%Re ra rb (c_L c) (pe _ Rlt_0_1) (hu _ Rlt_0_1) Rlt_0_1 ha hb hab.
pose d := (decay ra rb (c_L c) * c_L c)%Re; have d0 : (0 < d)%Re by exact: Rmult_lt_0_compat.
have top k N M : (0 < k)%Re -> (1 <= N)%coq_nat -> (N <= M)%coq_nat -> (gsum c N M k <= factor ra rb (c_L c) * exp (- (d * k)))%Re.
  move=> hk a1 a2; have [_ z] := opp_gsum h1 h2 hx hm ha hb hL th1 hq (opp_con hcon) a1 a2 hk; have [_ [_ z2]] := two_total (eps_spec e) (mu_val b) k ra rb (c_L c) (pe k hk) (hu k hk) hk ha hb hab.
  apply: (Rle_trans _ _ _ z); apply: (Rle_trans _ _ _ z2); apply: Rmult_le_compat_l; first by left.
  have sl : (1 <= sqrt (eps_spec e k))%Re by rewrite -sqrt_1; apply: sqrt_le_1_alt; exact: ge.
  have le : (d * k <= decay ra rb (c_L c) * way (eps_spec e) k (c_L c))%Re.
    rewrite /d /way; have := Rmult_le_compat_l (decay ra rb (c_L c) * (k * c_L c)) _ _ (Rlt_le _ _ (Rmult_lt_0_compat _ _ dp (Rmult_lt_0_compat _ _ hk hL))) sl; lra.
  by case: le => [lt|->]; [left; apply: exp_increasing; lra|right].
pose G N M n i := matsubara_static (stat c N M) (gsum c N M) dT n i.+1.
pose bnd i := let T := (INR i.+1 * dT)%Re in let r := exp (- (d * T)) in (factor ra rb (c_L c) * T * (1 / 2 + r / (1 - r)))%Re.
have more N M n N' M' n' i : (1 <= N)%coq_nat -> (N <= M)%coq_nat -> (N' <= M')%coq_nat -> (N <= N')%coq_nat -> (M <= M')%coq_nat -> (n <= n')%coq_nat -> (G N M n i <= G N' M' n' i)%Re.
  by move=> *; exact: (@opp_static_more c m1 m2 ra rb e b s (1 / 2)%Re HC S1 S2 hx hmu th1 hq hcon).
have up N M n i : (1 <= N)%coq_nat -> (N <= M)%coq_nat -> (G N M n i <= bnd i)%Re.
  move=> a1 a2; apply: static_upper => //; [lia| |by move=> k hk; exact: top].
  apply: (lim0_le (gsum c N M) (fun=> factor ra rb (c_L c)) _ _ _ (@opp_stat c m1 m2 ra rb e b s (1 / 2)%Re HC S1 S2 hx hmu th1 hq hcon N M a1 a2) (lim0_const _)) => k hk.
  have ep : (exp (- (d * k)) <= 1)%Re by rewrite -exp_0; left; apply: exp_increasing; have := Rmult_lt_0_compat _ _ d0 hk; lra.
  apply: (Rle_trans _ _ _ (top k N M hk a1 a2)); rewrite -{2}(Rmult_1_r (factor ra rb (c_L c))); apply: Rmult_le_compat_l => //; by left.
have Gpos N M n i (a1 : (1 <= N)%coq_nat) (a2 : (N <= M)%coq_nat) := @opp_static_pos c m1 m2 ra rb e b s (1 / 2)%Re HC S1 S2 hx hmu th1 hq hcon dT N M n i hT a1 a2.
have one : (1 <= 1)%coq_nat by [].
have lim i : { w | (forall N M n, (1 <= N)%coq_nat -> (N <= M)%coq_nat -> (G N M n i <= w)%Re) /\ (w <= bnd i)%Re /\ forall eps, (0 < eps)%Re -> exists N0, forall N M n, (N0 <= N)%coq_nat -> (N <= M)%coq_nat -> (N0 <= n)%coq_nat -> (w - eps < G N M n i)%Re }.
  have [||w [w1 w2]] := @triple_limit (fun N M n => - G N M n i)%Re (- bnd i)%Re.
  - by move=> N M n N' M' n' a1 a2 a3 a4 a5 a6; apply: Ropp_le_contravar; exact: more.
  - by move=> N M n a1 a2; apply: Ropp_le_contravar; exact: up.
  exists (- w)%Re; split; first by move=> N M n a1 a2; have := w1 N M n a1 a2; lra.
  have w3 : forall eps, (0 < eps)%Re -> exists N0, forall N M n, (N0 <= N)%coq_nat -> (N <= M)%coq_nat -> (N0 <= n)%coq_nat -> (- w - eps < G N M n i)%Re by move=> eps he; have [N0 h] := w2 eps he; exists N0 => N M n a1 a2 a3; have := h N M n a1 a2 a3; lra.
  split; last exact: w3.
  apply: le_epsilon => eps he; have [N0 h] := w3 eps he; have g1 : (N0 <= N0.+1)%coq_nat by lia.
  have g2 : (1 <= N0.+1)%coq_nat by lia.
  by have := h _ _ _ g1 (le_n _) g1; have := up _ _ N0.+1 i g2 (le_n _); lra.
pose w i := proj1_sig (lim i); have lo i := proj1 (proj2_sig (lim i)); have hi i := proj2 (proj2_sig (lim i)).
exists w; split.
  by move=> i; split; [exact: (Rlt_le_trans _ _ _ (proj2 (Gpos 1%N 1%N i.+1 i one one) (le_n _)) (lo i 1%N 1%N i.+1 one one))|exact: (proj1 (hi i))].
move=> eps heps; have [N0 hN0] : exists N0, forall i, (i < Z.to_nat (pyround (Tmax / dT)))%coq_nat -> forall N M n, (N0 <= N)%coq_nat -> (N <= M)%coq_nat -> (N0 <= n)%coq_nat -> (w i - eps < G N M n i)%Re.
  apply: (@bounded_choice (fun i N0 => forall N M n, (N0 <= N)%coq_nat -> (N <= M)%coq_nat -> (N0 <= n)%coq_nat -> (w i - eps < G N M n i)%Re)).
  - by move=> i a b' h ab N M n b1 b2 b3; apply: h => //; lia.
  - by move=> i _; exact: (proj2 (hi i)).
exists N0 => N M nmax t a1 a2 hR eT eM hA precision conv hc hp.
have [Nf hNf] := @opp_run c m1 m2 ra rb e b s (1 / 2)%Re HC S1 S2 hx hmu th1 hq hcon N M precision conv t nmax a1 a2 hc hp hR hA.
exists Nf => fuel hf unk garbage empty; have [t1 [F [E1 E2 E3]]] := hNf fuel hf unk garbage empty; rewrite eT eM in E2.
exists t1, F; split=> // i hil; exists (G N M nmax i); have [p1 p2] := Gpos N M nmax i a1 a2; split; first by rewrite (E3 i hil) eT.
- by split; [exact: p1|exact: lo].
- exact: p2.
- by move=> b1 b2; apply: hN0 => //; rewrite -E2.
Qed.
Print Assumptions C88_limit.
