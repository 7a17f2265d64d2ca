(** * Property C99: free energies with stratified spheres *)
From Coq Require Import Reals.
From Coq Require Import List Lia Lra ZArith.
From mathcomp Require Import all_ssreflect ssralg ssrnum fingroup perm matrix mxalgebra poly mxpoly.
From Verif Require Import Base RStruct Mat_Model Mat_Spec Mat_Proofs Thermo_Model Thermo_Proofs Geo_Model Geo_Spec Bessel_Model Scat_Model Scat_Spec Scat_Proofs Scat_Proofs4 Scat_Proofs7 Scat_Proofs9 Scat_Proofs10 Scat_Props Scat_Props2 Trans_Model Trans_Spec Trans_Proofs3
  Lin_Model Lin_Spec Bal_Proofs Lin_Proofs Trip_Proofs Lin_Proofs2 RT_Model RT_Spec RT_Spec2 RT_Proofs RT_Proofs2 RT_Proofs3 RT_Proofs4 RT_Proofs6 RT_Proofs7 RT_Proofs8 RT_Proofs9 RT_Proofs10
  RT_Props RT_Props2 RT_Props3 RT_Props5 Exp_Proofs2 Lap_Proofs2 Mono_Proofs Mono_Proofs2 Mono_Proofs3 RT_Props8 Cut_Proofs RT_Props9
  Run_Model Run_Spec Run_Proofs Run_Proofs2 Run_Proofs3 Run_Proofs4 Run_Proofs5 Run_Proofs9 Run_Props Run_Props2 Run_Props7 Conv_Spec Conv_Spec2 Conv_Proofs3 Conv_Proofs4 Conv_Proofs5 Conv_Proofs6 Conv_Proofs8 Conv_Proofs9 Conv_Props Conv_Props2
  Rad_Spec Rad_Proofs Rad_Proofs2 RT_Props10 Layer_Spec Layer_Proofs3 Layer_Proofs4 Layer_Props Bodies_Spec Bodies_Proofs Bodies_Proofs2 Bodies_Proofs3.
Set Implicit Arguments.
Unset Strict Implicit.
Import GRing.Theory.
Local Open Scope ring_scope.
Delimit Scope R_scope with Re.

(** ** the sum over m *)
Theorem C99_mSumme : forall c e u precision conv ks, objects c e u -> (conv < 1)%Re -> ks <> nil -> (forall k, In k ks -> (0 < k)%Re) ->
  exists M N, stops_at precision (c_lmax c) (fun m k => ln_abs_det (1%:M - trip exact_bessels c (Z.of_nat m) k)) ks M /\
  forall fuel, (N <= fuel)%N -> forall unk s, sound exact_bessels c s -> exists s', sound exact_bessels c s' /\ g_K s' = Some ks /\
    geo_mSumme unk fuel exact_bessels trans_bessels c precision conv ks s = (s', Ok (List.map (fun k => msum (fun m => ln_abs_det (1%:M - trip exact_bessels c (Z.of_nat m) k)) M) ks)).
Proof.
move=> c e u precision conv ks H hc hne hp; have [A [B [M [N [eA eB hM hN]]]]] := bodies_mSumme precision H hc hne hp.
exists M, N; split=> // fuel hf unk s hs; exists (loaded ks A B s); split; first exact: (sound_loaded exact_bessels c ks s A B hs eA eB).
by split=> //; exact: hN.
Qed.
Print Assumptions C99_mSumme.

(** ** the free energies *)
Theorem C99_free_energy : forall c e u precision conv t nmax,
  objects c e u -> (conv < 1)%Re -> ready exact_bessels c t nmax -> t_analytic t = false -> (1 <= nmax)%coq_nat ->
  (forall m, (m <= c_lmax c)%coq_nat -> \det (1%:M - trip exact_bessels c (Z.of_nat m) 1e-10%Re) <> 0) ->
  (forall n m : nat, (1 <= n)%coq_nat /\ (n <= nmax)%coq_nat -> (m <= c_lmax c)%coq_nat -> \det (1%:M - trip exact_bessels c (Z.of_nat m) (t_deltaT t * INR n)%Re) <> 0) ->
  let term m k := ln (Rabs (\det (1%:M - trip exact_bessels c (Z.of_nat m) k))) in
  let stops := stops_at precision (c_lmax c) (fun m k => ln_abs_det (1%:M - trip exact_bessels c (Z.of_nat m) k)) in
  exists cut0 cut N, [/\ stops [:: 1e-10%Re] cut0, forall q, freqs (t_deltaT t) nmax q <> nil -> stops (freqs (t_deltaT t) nmax q) (cut q) &
    forall fuel, (N <= fuel)%N -> forall unk garbage empty, exists t' F,
      [/\ free_energy (ops unk fuel exact_bessels trans_bessels c precision conv false garbage) empty t = (t', Ok F), sound exact_bessels c (t_geom t'),
          List.length F = Z.to_nat (pyround (t_Tmax t / t_deltaT t)) &
          forall i : nat, (1 <= i)%coq_nat /\ (i <= List.length F)%coq_nat -> List.nth_error F (i - 1)%coq_nat =
            Some (sliced_sum (rsum (term^~ 1e-10%Re) cut0) (fun q k => rsum (term^~ k) (cut q)) (t_deltaT t) nmax i)]].
Proof.
move=> c e u precision conv t nmax H hc hR hA hn1 hreg0 hreg term stops.
have [|k [<-|//]|k [<-|//] m hm|M0 [N0 hN0]] := @bodies_real c e u conv precision H hc [:: 1e-10%Re]; [by []|lra|exact: hreg0|].
have [cut [N hN]] := @bodies_slices c e u conv precision H hc t nmax hR (fun n hn m hm => hreg n m hn hm).
exists M0, cut, (maxn N0 N); split; first by have [] := hN0 N0 (leqnn N0).
  by move=> q /(hN N (leqnn N)) [].
move=> fuel; rewrite geq_max => /andP [f0 f1] unk garbage empty.
have [Hn [Hp [Hf [HT [Hnone Hs]]]]] := hR.
have HT0 : t_deltaT t <> 0%Re by lra.
have [||q hq s hs|t' [F [E1 [E2 [E3 E4]]]]] := @free_energy_run _ (ops unk fuel exact_bessels trans_bessels c precision conv false garbage) empty (sound exact_bessels c)
  (rsum (fun m => lnr exact_bessels c m 1e-10%Re) M0) (fun q k => rsum (fun m => lnr exact_bessels c m k) (cut q)) t nmax Hn Hp Hf HT0 _ _ _ Hnone Hs.
- by rewrite hA.
- move=> _; split=> // s hs; have [_ h] := hN0 fuel f0; have [s' [hs' E]] := h unk s hs; exists s'; split=> //.
- by have [_ h] := hN fuel f1 q hq; have [s' [hs' E]] := h unk s hs; exists s'.
- by exists t', F.
Qed.
Print Assumptions C99_free_energy.

Lemma body_object c s sp e u k : body c s sp e u k -> object c sp.
Proof. by case: sp => [m r [h1 h2]|mats rs [h _]] //; split=> //; exact: contrast_solid h2. Qed.
Lemma fin_lnr c (m : nat) k v : ln_abs_det (1%:M - trip exact_bessels c (Z.of_nat m) k) = Fin v -> \det (1%:M - trip exact_bessels c (Z.of_nat m) k) <> 0 /\ lnr exact_bessels c m k = v.
Proof. by rewrite /ln_abs_det /lnr; case: eqP => // h [<-]. Qed.
Lemma stops_le precision lmax f ks M : stops_at precision lmax f ks M -> (M <= lmax)%coq_nat.
Proof. by case. Qed.

(** ** opposite contrasts: positive free energies at all distances *)
Theorem C99_repulsion : forall c e u s precision conv t nmax, c_ext c = true -> has (c_med c) e u -> (0 < c_L c)%Re -> (1 <= c_lmax c)%coq_nat -> (c_lmax c <= c_lssmax c)%coq_nat ->
  (forall k, (0 < k)%Re -> body c s (c_1 c) e u k /\ body c (- s) (c_2 c) e u k) -> (conv < 1)%Re -> ready exact_bessels c t nmax -> t_analytic t = false -> (1 <= nmax)%coq_nat ->
  exists N, forall fuel, (N <= fuel)%N -> forall unk garbage empty, exists t' F,
    [/\ free_energy (ops unk fuel exact_bessels trans_bessels c precision conv false garbage) empty t = (t', Ok F), List.length F = Z.to_nat (pyround (t_Tmax t / t_deltaT t)) &
        forall x, In x F -> (0 <= x)%Re].
Proof.
move=> c e u s precision conv t nmax hx hm hL l1 l2 hb hc hR hA hn.
have H : objects c e u by have [b1 b2] := hb 1%Re Rlt_0_1; do 6 (split; first by [apply: body_object b1|apply: body_object b2|]).
have e10 : (0 < 1e-10)%Re by lra.
have [_ [_ [_ [HT _]]]] := hR.
have pos n : (1 <= n)%coq_nat /\ (n <= nmax)%coq_nat -> (0 < t_deltaT t * INR n)%Re by move=> [hn1 _]; apply: Rmult_lt_0_compat => //; apply: lt_0_INR; lia.
have key m k : (m <= c_lmax c)%coq_nat -> (0 < k)%Re -> \det (1%:M - trip exact_bessels c (Z.of_nat m) k) <> 0 /\ (0 <= lnr exact_bessels c m k)%Re.
  move=> hmx hk; have [g1 g2] := hb k hk; have ho : some_orders c (Z.of_nat m) by rewrite /some_orders; lia.
  have [s1 _] := body_A hm hk g1; have [s2 _] := body_B hm hk hx g2.
  have [d1 d2] := solid_definite ho s1 s2; have ss := body_sq g1.
  have sq : s_of (Z.of_nat m) s * s_of (Z.of_nat m) s = 1 by rewrite s_ofM.
  have sq' : s_of (Z.of_nat m) (- s) * s_of (Z.of_nat m) (- s) = 1 by rewrite s_ofM mulrNN.
  have sq2 : s_of (Z.of_nat m) s * s_of (Z.of_nat m) (- s) = -1 by rewrite s_ofM mulrN ss.
  have [_ [_ [v [ev [v1 v2]]]]] := repel (@parity_rt exact_bessels c (Z.of_nat m) k) sq sq' d1 d2 sq2.
  have [d ->] := fin_lnr ev; split=> //; exact: Rle_trans v1 v2.
have [m hmx|n m hn1 hmx|cut0 [cut [N [hc0 hcut hN]]]] := C99_free_energy precision H hc hR hA hn; first exact: (proj1 (key m _ hmx e10)).
  exact: (proj1 (key m _ hmx (pos n hn1))).
exists N => fuel hf unk garbage empty; have [t' [F [E1 _ E2 E3]]] := hN fuel hf unk garbage empty; exists t', F; split=> // x /(@List.In_nth_error _ _ _) [i hi].
have li : (i < List.length F)%coq_nat by apply/(@List.nth_error_Some _ F i); rewrite hi.
have hi1 : (1 <= i.+1)%coq_nat /\ (i.+1 <= List.length F)%coq_nat by lia.
have si : (i.+1 - 1)%coq_nat = i by lia.
have := E3 _ hi1; rewrite si hi => -[->]; apply: sliced_nonneg => //; first by lia.
- by apply: rsum_nonneg => m hmM; apply: (proj2 (key m _ _ e10)); have := stops_le hc0; lia.
- move=> n hn1; have hne : freqs (t_deltaT t) nmax (PeanoNat.Nat.div n 50) <> nil by move=> hz; have := freqs_has (t_deltaT t) nmax n hn1; rewrite hz.
  by apply: rsum_nonneg => m hmM; apply: (proj2 (key m _ _ (pos n hn1))); have := stops_le (hcut _ hne); lia.
Qed.
Print Assumptions C99_repulsion.

(** ** denser bodies far apart: between the free energies of two perfect reflectors and zero *)
Theorem C99_attraction : forall c p q e u e0 precision conv t t' nmax, c_ext c = true -> has (c_med c) e u -> (1 <= c_lmax c)%coq_nat -> (c_lmax c <= c_lssmax c)%coq_nat ->
  (5 * (rim p + rim q) <= c_L c)%Re -> (0 < e0)%Re -> (forall k, (0 < k)%Re -> u k = 1%Re /\ (e0 <= e k)%Re) -> (forall k, (0 < k)%Re -> body c 1 p e u k /\ body c 1 q e u k) ->
  (conv < 1)%Re -> (precision <= 0)%Re -> (1 <= nmax)%coq_nat ->
  let c0 := with_spheres c p q in let c1 := with_spheres c (Solid PEC (rim p)) (Solid PEC (rim q)) in
  ready exact_bessels c0 t nmax -> ready exact_bessels c1 t' nmax -> t_analytic t = false -> t_analytic t' = false -> t_deltaT t' = t_deltaT t -> t_Tmax t' = t_Tmax t ->
  exists N, forall fuel, (N <= fuel)%N -> forall unk garbage empty, exists t1 t2 F F',
    [/\ free_energy (ops unk fuel exact_bessels trans_bessels c0 precision conv false garbage) empty t = (t1, Ok F),
        free_energy (ops unk fuel exact_bessels trans_bessels c1 precision conv false garbage) empty t' = (t2, Ok F'),
        List.length F = Z.to_nat (pyround (t_Tmax t / t_deltaT t)), List.length F' = List.length F &
        forall i : nat, (i < List.length F)%coq_nat -> exists x x', [/\ List.nth_error F i = Some x, List.nth_error F' i = Some x' &
          let T := (INR i.+1 * t_deltaT t)%Re in let r := exp (- (c_L c * sqrt e0 / 70 * T)) in (- (T * (2 + 4 * (r / (1 - r)))) <= x' <= x)%Re /\ (x <= 0)%Re]].
Proof.
move=> c p q e u e0 precision conv t t' nmax hx hm l1 l2 hL5 he0 hu hb hc hp hn c0 c1 hR hR' hA hA' eT eM.
have [b1 b2] := hb 1%Re Rlt_0_1; have ra := rim_pos hm Rlt_0_1 b1; have rb := rim_pos hm Rlt_0_1 b2.
have hL : (0 < c_L c)%Re by lra.
have H : objects c0 e u by do 6 (split; first by [apply: (body_object b1)|apply: (body_object b2)|]).
have hS : solids c1 PEC PEC (rim p) (rim q) e u by do 2 (split; first by []); do 2 (split; first by left).
have [_ [_ [_ [HT _]]]] := hR.
have e10 : (0 < 1e-10)%Re by lra.
have pos n : (1 <= n)%coq_nat /\ (n <= nmax)%coq_nat -> (0 < t_deltaT t * INR n)%Re by move=> [hn1 _]; apply: Rmult_lt_0_compat => //; apply: lt_0_INR; lia.
have hu' k (hk : (0 < k)%Re) := proj1 (hu k hk).
have con k (hk : (0 < k)%Re) : contrast 1 PEC e u k /\ contrast 1 PEC e u k by split; left.
have ec : truncated c1 (c_lmax c1) (c_lssmax c1) = c1 by [].
have key m k : (m <= c_lmax c)%coq_nat -> (0 < k)%Re ->
  [/\ \det (1%:M - trip exact_bessels c0 (Z.of_nat m) k) <> 0, \det (1%:M - trip exact_bessels c1 (Z.of_nat m) k) <> 0, (lnr exact_bessels c1 m k < 0)%Re & (lnr exact_bessels c1 m k <= lnr exact_bessels c0 m k <= 0)%Re].
  move=> hmx hk; have [g1 g2] := hb k hk; have ho : some_orders c (Z.of_nat m) by rewrite /some_orders; lia.
  have g1' : body c 1 (Solid PEC (rim p)) e u k by split=> //; left.
  have g2' : body c 1 (Solid PEC (rim q)) e u k by split=> //; left.
  have [tt hg] := pairs_gap hx hm hL hk ho g1 g2 g1' g2' (outdone_rim g1) (outdone_rim g2).
  have ho1 : some_orders (truncated c1 (c_lmax c1) (c_lssmax c1)) (Z.of_nat m) by [].
  have [[_ tb] dd [_ z]] := @apart_det c1 PEC PEC (rim p) (rim q) e u 1 erefl erefl hx hm ra rb hL5 hu' con _ _ _ k ho1 hk.
  have bh := @bnd_half c1 (rim p) (rim q) e u hm ra rb hL5 (Z.of_nat m) k hk; rewrite ec in tb dd z.
  have t1 : (\tr (trip exact_bessels c1 (Z.of_nat m) k) < 1)%Re by apply: (Rle_lt_trans _ _ _ tb); lra.
  have [d1 d0 gap] := hg t1; have := tt 0%N; rewrite /mxpow /= !mulmx1 => -[t00 t01].
  have s1 : sharp 1 PEC e u k by left.
  have tp := @sharp_trace c1 PEC PEC (rim p) (rim q) e u (Z.of_nat m) k 1 erefl erefl hx hm ra rb hL hk s1 s1 ho.
  have [f1 _] := @body_A c0 e u k hm hk 1 g1; have [f2 _] := @body_B c0 e u k hm hk 1 hx g2.
  have ho0 : some_orders c0 (Z.of_nat m) by [].
  have [q1 q2] := solid_definite ho0 f1 f2; have ss := body_sq g1.
  have sq : s_of (Z.of_nat m) 1 * s_of (Z.of_nat m) 1 = 1 by rewrite s_ofM.
  have [_ /(_ (Rle_lt_trans _ _ _ t01 t1)) [v [ev [_ v2]]]] := attract (@parity_rt exact_bessels c0 (Z.of_nat m) k) sq sq q1 q2 sq.
  have [n0 e2] := fin_lnr ev.
  have r (x y : R) : (0 < y -> x <= - y -> x < 0)%Re by lra.
  have r2 (x y a b : R) : (x + (a - b) <= y -> b <= a -> x <= y)%Re by lra.
  have r3 (x y : R) : (x <= - y -> 0 <= y -> x <= 0)%Re by lra.
  have l1E : lnr exact_bessels c1 m k = ln (\det (1%:M - trip exact_bessels c1 (Z.of_nat m) k)) by rewrite /lnr Rabs_pos_eq //; left.
  have l0E : lnr exact_bessels c0 m k = ln (\det (1%:M - trip exact_bessels c0 (Z.of_nat m) k)) by rewrite /lnr Rabs_pos_eq //; left.
  split=> //; first by move=> E; rewrite E in dd; exact: (Rlt_irrefl _ dd).
  - by rewrite l1E; exact: (r _ _ tp z).
  - split; first by rewrite l1E l0E; exact: (r2 _ _ _ _ gap t01).
    by rewrite e2; exact: (r3 _ _ v2 t00).
have [m hmx|n m hn1 hmx|cut0 [cut [N [hc0 hcut hN]]]] := C99_free_energy precision H hc hR hA hn.
- by have [] := key m _ hmx e10.
- by have [] := key m _ hmx (pos n hn1).
have [N' hN'] := @full_exact c1 PEC PEC (rim p) (rim q) e u precision conv t' nmax hS hx hc hp hR' hA' hn (fun m k hmx hk => match key m k hmx hk with And4 _ d l _ => conj d l end).
exists (maxn N N') => fuel; rewrite geq_max => /andP [f1 f2] unk garbage empty.
have [t1 [F [E1 _ E2 E3]]] := hN fuel f1 unk garbage empty; have [t2 [F' [E1' E2' E3']]] := hN' fuel f2 unk garbage empty; rewrite eT eM in E2'; rewrite eT in E3'.
have EL : List.length F' = List.length F by rewrite E2 E2'.
exists t1, t2, F, F'; split=> // i hi; have hi' : (i < List.length F')%coq_nat by rewrite EL.
have hi1 : (1 <= i.+1)%coq_nat /\ (i.+1 <= List.length F)%coq_nat by lia.
have si : (i.+1 - 1)%coq_nat = i by lia.
have := E3 _ hi1; rewrite si => E4.
eexists; eexists; split; [exact: E4|exact: (E3' i hi')|move=> T r].
have i1 : (1 <= i.+1)%coq_nat by lia.
have hne n : (1 <= n)%coq_nat /\ (n <= nmax)%coq_nat -> freqs (t_deltaT t) nmax (PeanoNat.Nat.div n 50) <> nil by move=> hn1 hz; have := freqs_has (t_deltaT t) nmax n hn1; rewrite hz.
have up k M : (0 < k)%Re -> (M <= c_lmax c)%coq_nat -> (rsum (fun m => lnr exact_bessels c1 m k) (c_lmax c) <= rsum (fun m => lnr exact_bessels c0 m k) M)%Re /\ (rsum (fun m => lnr exact_bessels c0 m k) M <= 0)%Re.
  move=> hk hM; split.
  - apply: (Rle_trans _ (rsum (fun m => lnr exact_bessels c0 m k) (c_lmax c))).
    + by apply: rsum_mono => m hmx; have [_ _ _ []] := key m k hmx hk.
    + by apply: rsum_cut => // m hmx; have [_ _ _ []] := key m k hmx hk.
  - by apply: rsum_nonpos => m hmM; have [|_ _ _ []] := key m k _ hk; first lia.
split; first split.
- have d0 : (0 < c_L c * sqrt e0 / 70)%Re by have := Rmult_lt_0_compat _ _ hL (sqrt_lt_R0 _ he0); lra.
  rewrite /T /r; apply: matsubara_lower => // k hk.
  have z := @gsum_lower c1 PEC PEC (rim p) (rim q) e u 1 erefl erefl hx hm ra rb hL5 hu' con (c_lmax c1) (c_lssmax c1) k l1 l2 hk; rewrite /gsum ec in z; apply: (Rle_trans _ _ _ _ z).
  have [_ hek] := hu k hk; have sl : (sqrt e0 <= sqrt (e k))%Re by exact: sqrt_le_1_alt.
  have le : (c_L c * sqrt e0 / 70 * k <= way e k (c_L c) / 70)%Re.
    rewrite /way; have := Rmult_le_compat_l (k * c_L c) _ _ (Rlt_le _ _ (Rmult_lt_0_compat _ _ hk hL)) sl; lra.
  have : (exp (- (way e k (c_L c) / 70)) <= exp (- (c_L c * sqrt e0 / 70 * k)))%Re by case: (Req_dec (c_L c * sqrt e0 / 70 * k) (way e k (c_L c) / 70)) => [->|ne]; [right|left; apply: exp_increasing; lra].
  rewrite /=; lra.
- apply: sliced_above => //; first by have [] := up _ _ e10 (stops_le hc0).
  by move=> n hn1; have [] := up _ _ (pos n hn1) (stops_le (hcut _ (hne n hn1))).
- apply: sliced_nonpos => //; first by have [] := up _ _ e10 (stops_le hc0).
  by move=> n hn1; have [] := up _ _ (pos n hn1) (stops_le (hcut _ (hne n hn1))).
Qed.
Print Assumptions C99_attraction.

(** ** Non-vacuity: the coated reflector and the hollow gold sphere of C98 in vacuum *)
Example C99_shells nmax : (1 <= nmax)%coq_nat ->
  exists N, forall fuel, (N <= fuel)%N -> forall unk garbage empty, exists t1 F,
    [/\ free_energy (ops unk fuel exact_bessels trans_bessels shells 0 1e-10 false garbage) empty (task (1 / 10) 3 nmax false) = (t1, Ok F), List.length F = Z.to_nat (pyround (3 / (1 / 10))) &
        forall i : nat, (i < List.length F)%coq_nat -> exists x, List.nth_error F i = Some x /\
          let T := (INR i.+1 * (1 / 10))%Re in let r := exp (- (20 * sqrt 1 / 70 * T)) in (- (T * (2 + 4 * (r / (1 - r)))) <= x <= 0)%Re].
Proof.
move=> hn; have d1 : (0 < 1 / 10)%Re by lra.
have [||||k hk|k hk|||N hN] := @C99_attraction shells coated_pec hollow_gold (eps_spec [::]) (mu_val None) 1%Re 0%Re 1e-10%Re (task (1 / 10) 3 nmax false) (task (1 / 10) 3 nmax false) nmax erefl vacuum_has _ _ _ _ _ _ _ _ hn
  (@task_ready _ _ _ _ _ _ d1) (@task_ready _ _ _ _ _ _ d1) erefl erefl erefl erefl; try (rewrite /=; lia); try (rewrite /=; lra).
- by rewrite /mu_val /eps_spec /=; lra.
- by have [h1 [h2 _]] := C98_example hk.
exists N => fuel hf unk garbage empty; have [t1 [t2 [F [F' [E1 _ E2 _ E3]]]]] := hN fuel hf unk garbage empty; exists t1, F; split=> // i /E3 [x [x' [hx _ [[a b] d]]]].
by exists x; split=> //; split=> //; exact: Rle_trans a b.
Qed.
(** a coated reflector and a bubble with a shell in a metallic medium repel each other *)
Definition bubble : config := {| c_1 := Layered [:: 0; 1]%N [:: 1]%Re; c_2 := Layered [:: 2; 2; 1]%N [:: 1; 2]%Re; c_med := Lorentz e_Gold None; c_L := 4; c_lmax := 3; c_lssmax := 4; c_ext := true; c_mat := some_mats |}.
Example C99_bubble nmax : (1 <= nmax)%coq_nat ->
  exists N, forall fuel, (N <= fuel)%N -> forall unk garbage empty, exists t1 F,
    [/\ free_energy (ops unk fuel exact_bessels trans_bessels bubble 1e-3 1e-10 false garbage) empty (task (1 / 10) 3 nmax false) = (t1, Ok F), List.length F = Z.to_nat (pyround (3 / (1 / 10))) & forall x, In x F -> (0 <= x)%Re].
Proof.
move=> hn; have d1 : (0 < 1 / 10)%Re by lra.
have gold m : In m [:: 1%N] -> exists e u, has (some_mats m) e u by move=> [<-|[]]; exists (eps_spec e_Gold), (mu_val None); exact gold_has.
have gw k : weaker (Lorentz e_Gold None) (Lorentz e_Gold None) k by right; exists (eps_spec e_Gold), (mu_val None), (eps_spec e_Gold), (mu_val None); do 2 (split; first exact gold_has); split; right.
have [|||k hk||N hN] := @C99_repulsion bubble (eps_spec e_Gold) (mu_val None) 1%Re 1e-3%Re 1e-10%Re (task (1 / 10) 3 nmax false) nmax erefl gold_has _ _ _ _ _ (@task_ready _ _ _ _ _ _ d1) erefl hn; try (rewrite /=; lia); try (rewrite /=; lra).
- split; split.
  + exists 0%N, 1%N, [::], 1%Re, [::]; do 3 (split; first reflexivity); split; first lra; split; first by constructor; constructor.
    by split; first reflexivity; split; [exact: gold|right; split=> //; left].
  + by left; split=> //; constructor; [left|constructor; [exact: gw|constructor]].
  + exists 2%N, 2%N, [:: 1%N], 1%Re, [:: 2%Re]; do 3 (split; first reflexivity); split; first lra; split; first exact sorted12.
    split; first reflexivity; split; last by left; exists (eps_spec [::]), (mu_val None); exact vacuum_has.
    by move=> m [<-|h]; [exists (eps_spec [::]), (mu_val None); exact vacuum_has|exact: gold].
  + right; split=> //; constructor; first exact: gold_weaker.
    by constructor; [exact: gold_weaker|constructor; [exact: gw|constructor]].
- by exists N.
Qed.
