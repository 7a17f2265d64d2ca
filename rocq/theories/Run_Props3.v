(** * Property C68: the force flag of the geometry object makes every evaluation fail *)
From Coq Require Import Reals.
From Coq Require Import List Lia Lra ZArith.
From mathcomp Require Import all_ssreflect ssralg matrix mxalgebra poly mxpoly.
From Verif Require Import Base RStruct Mat_Model Mat_Spec Thermo_Model Thermo_Spec Thermo_Proofs Geo_Model Geo_Spec Bessel_Model Scat_Model Scat_Spec Scat_Proofs Scat_Proofs7 Scat_Proofs9 Scat_Proofs10 Scat_Props2 Trans_Model Trans_Spec
  Lin_Model Lin_Spec Lin_Proofs Lin_Proofs2 RT_Model RT_Spec RT_Spec2 RT_Proofs2 RT_Proofs3 RT_Proofs4 RT_Props RT_Props2 RT_Props3 RT_Props5 RT_Props7
  Run_Model Run_Spec Run_Proofs Run_Proofs2 Run_Proofs3 Run_Proofs4 Run_Proofs5 Run_Proofs6 Run_Props Run_Props2.
Set Implicit Arguments.
Unset Strict Implicit.
Import GRing.Theory.
Local Open Scope ring_scope.
Delimit Scope R_scope with Re.

Section Flag.
Context (mieb : mbessels) (c : config) (m1 m2 : material) (ra rb : R) (e u : R -> R) (hS : solids c m1 m2 ra rb e u).
Lemma solids_coefs ks : good mieb c ks -> exists A B, mieA mieb c ks = Val A /\ mieB mieb c ks = Val B.
Proof. by move: hS => [h1 [h2 [s1 [s2 [hm _]]]]]; exact: (coefs_exist h1 h2 s1 s2 hm). Qed.
Lemma solids_trans ks m : good mieb c ks -> exists V, trans trans_bessels c m ks = Val V.
Proof.
move: hS => [h1 [h2 [s1 [s2 [hm [hL _]]]]]] [hne [hp hel]].
by have [V [eV _]] := trans_many c m e u ks hm hL (proj2 hel) hne hp; exists V.
Qed.
(** supermatrix(m, ks, 0) clears the flag *)
Lemma super_clears ks m : good mieb c ks -> (m <= c_lmax c)%coq_nat -> exists A B M, [/\ mieA mieb c ks = Val A, mieB mieb c ks = Val B &
  forall unk s, sound mieb c (set_flag false s) -> (m <= 1)%coq_nat \/ g_K s = Some ks -> s_super unk mieb trans_bessels c m ks false s = (loaded ks A B s, Ok M)].
Proof.
move=> hg hmx; have [A [B [eA eB]]] := solids_coefs hg; have [V eV] := solids_trans (Z.of_nat m) hg.
have [_ [_ [_ [_ [_ [_ [hl hls]]]]]]] := hS.
have [M [g [eM _ _]]] := supermatrix_round_trip (List.length ks) (n1 c (Z.of_nat m)) (n2 c (Z.of_nat m)) (pack (Z.of_nat m) A B V).
exists A, B, M; split=> // unk s hs hK.
have hn : (0 < n1 c (Z.of_nat m))%N by rewrite /n1 /lmin; apply/ltP; lia.
have hn2 : n1 c (Z.of_nat m) = 1%N \/ (0 < n2 c (Z.of_nat m))%N by right; rewrite /n2 /lmin; apply/ltP; lia.
have hd := good_hd hg; have [hne _] := hg.
have key : s_blocks unk mieb trans_bessels c (Z.of_nat m) ks (set_flag false s) = (loaded ks A B s, Ok (block_arrays (List.length ks) (n1 c (Z.of_nat m)) (n2 c (Z.of_nat m)) (pack (Z.of_nat m) A B V))).
  rewrite /s_blocks /mbind (@elements_run unk mieb trans_bessels c (Z.of_nat m) ks (set_flag false s) A B V hs eA eB eV); last by case: hK => [h|h]; [left; lia|right].
  by rewrite scale_ok.
move: key eM; move: (block_arrays _ _ _ _) => Bs key eM.
rewrite /s_super /mbind /put /s_blocks_all; move: key hd hne; case: (ks) => [//|k rest] key /= hd _.
by case: Reqb_spec => // _; rewrite key /= eM.
Qed.
Lemma super_force ks m : good mieb c ks -> forall unk s, sound mieb c (set_flag false s) ->
  exists s', s_super unk mieb trans_bessels c m ks true s = (s', Err AttributeError) /\ g_force s' = true /\ sound mieb c (set_flag false s').
Proof.
move=> hg unk s hs; have [A [B [eA eB]]] := solids_coefs hg; have [V eV] := solids_trans (Z.of_nat m) hg.
have [s' [E [hf [_ hsnd]]]] := blocks_force unk mieb trans_bessels c ks A B eA eB (Z.of_nat m) V (set_flag true s) eV erefl.
exists s'; split; last by split=> //; apply: hsnd.
have hd := good_hd hg; have [hne _] := hg.
rewrite /s_super /mbind /put /s_blocks_all; move: E hd hne; case: (ks) => [//|k rest] E /= hd _.
by case: Reqb_spec => // _; rewrite E.
Qed.
Lemma dot_fails garbage ks : good mieb c ks -> forall unk s, sound mieb c (set_flag false s) ->
  exists s', geo_mSum_trace_dot unk mieb trans_bessels c garbage ks s = (s', Err AttributeError) /\ g_force s' = true /\ sound mieb c (set_flag false s').
Proof.
move=> hg unk s hs; have [//|A [B [M [eA eB hM]]]] := @super_clears ks 0 hg; first by lia.
have hl := sound_loaded mieb c ks _ A B hs eA eB.
have [s' [E h]] := @super_force ks 0 hg unk (loaded ks A B s) hl; exists s'; split=> //.
by rewrite /geo_mSum_trace_dot /s_dot /mbind hM; [rewrite E|exact: hs|left; lia].
Qed.
End Flag.

(** with the flag set (forceFlag=1 at construction, or left behind by mSum_trace_dot) mSumme fails for all wavenumbers and stays that way *)
Theorem C68_flag_refuted : forall mieb c m1 m2 ra rb e u precision conv ks, solids c m1 m2 ra rb e u -> ks <> nil -> (forall k, In k ks -> (0 < k)%Re) -> elementwise_at mieb c ks ->
  forall unk fuel s, g_force s = true -> exists s', geo_mSumme unk fuel mieb trans_bessels c precision conv ks s = (s', Err AttributeError) /\ g_force s' = true.
Proof.
move=> mieb c m1 m2 ra rb e u precision conv ks hS hne hp hel unk fuel s hf.
have hg : good mieb c ks by []. 
have [A [B [eA eB]]] := solids_coefs hS hg; have [V eV] := solids_trans hS 0 hg.
have [s' [E [h _]]] := mSumme_force unk fuel mieb trans_bessels c ks A B eA eB precision conv V s hne (good_hd hg) eV hf.
by exists s'.
Qed.
Print Assumptions C68_flag_refuted.

Lemma static_ok c m1 m2 ra rb e b : two_spheres c m1 m2 ra rb e b -> static_sphere m1 -> static_sphere m2 -> c_ext c = true -> mu_val b 0 = 1%Re -> (1 <= c_lmax c)%coq_nat -> (c_lmax c <= c_lssmax c)%coq_nat ->
  exists X, elements_k0 trans_bessels c 0 = Val X /\ static_coefs c = Val tt.
Proof.
move=> HC S1 S2 hx hmu hl hls; have ho : some_orders c 0 by split; lia.
have [A0 [B0 [TE0 [TM0 [h _ _ _ _]]]]] := C57_static_limit HC S1 S2 hx ho hmu.
have [X eX] : exists X, elements_k0 trans_bessels c 0 = Val X.
  by move: h; rewrite /blockmatrices_k0 hx /blockmatrices_k0_ext; case: (elements_k0 _ _ _) => [X| |] //; exists X.
exists X; split=> //; move: eX; rewrite /elements_k0 /static_coefs; case: (c_1 c) => [? ?|//]; case: (c_2 c) => [? ?|//].
case: (mie_k0 _ _ _ _ _) => [?| |] //=; rewrite hx; case: (mie_k0 _ _ _ _ _) => [?| |] //=.
Qed.

Theorem C68_flag_zero_refuted : forall mieb c m1 m2 ra rb e b precision conv, two_spheres c m1 m2 ra rb e b -> static_sphere m1 -> static_sphere m2 -> c_ext c = true -> mu_val b 0 = 1%Re ->
  (1 <= c_lmax c)%coq_nat -> (c_lmax c <= c_lssmax c)%coq_nat ->
  forall unk fuel s, g_force s = true -> sound mieb c (set_flag false s) -> exists s', geo_mSumme_k0 unk fuel trans_bessels c precision conv s = (s', Err NotImplementedError) /\
    g_force s' = true /\ sound mieb c (set_flag false s').
Proof.
move=> mieb c m1 m2 ra rb e b precision conv HC S1 S2 hx hmu hl hls unk fuel s hf hs.
have [X [eX e0]] := static_ok HC S1 S2 hx hmu hl hls.
by have [s' [E h]] := mSumme_k0_force unk fuel mieb trans_bessels c precision conv X s e0 eX hs hf; exists s'.
Qed.
Print Assumptions C68_flag_zero_refuted.

(** mSum_trace_dot, the only method for forces, fails always and leaves the flag set *)
Theorem C68_trace_dot_refuted : forall mieb c m1 m2 ra rb e u ks, solids c m1 m2 ra rb e u -> ks <> nil -> (forall k, In k ks -> (0 < k)%Re) -> elementwise_at mieb c ks ->
  forall unk garbage s, sound mieb c s -> exists s', geo_mSum_trace_dot unk mieb trans_bessels c garbage ks s = (s', Err AttributeError) /\ g_force s' = true.
Proof.
move=> mieb c m1 m2 ra rb e u ks hS hne hp hel unk garbage s [hf hs].
have hs' : sound mieb c (set_flag false s) by split.
by have [s' [E [h _]]] := @dot_fails mieb c m1 m2 ra rb e u hS garbage ks (conj hne (conj hp hel)) unk s hs'; exists s'.
Qed.
Print Assumptions C68_trace_dot_refuted.

(** building a matrix without derivatives (supermatrix(m, ks, 0), as mSum_roundtrips does) clears it *)
Theorem C68_cleared : forall mieb c m1 m2 ra rb e u ks, solids c m1 m2 ra rb e u -> ks <> nil -> (forall k, In k ks -> (0 < k)%Re) -> elementwise_at mieb c ks ->
  exists M, forall unk s, sound mieb c (set_flag false s) -> exists s', s_super unk mieb trans_bessels c 0 ks false s = (s', Ok M) /\ sound mieb c s'.
Proof.
move=> mieb c m1 m2 ra rb e u ks hS hne hp hel; have [//|A [B [M [eA eB hM]]]] := @super_clears mieb c m1 m2 ra rb e u hS ks 0 (conj hne (conj hp hel)); first by lia.
exists M => unk s hs; exists (loaded ks A B s); split; first by apply: hM => //; left; lia.
exact: (sound_loaded mieb c ks (set_flag false s) A B hs eA eB).
Qed.
Print Assumptions C68_cleared.

(** force() with 50 or more frequencies raises, and from then on free_energy() and entropy() do, of this object and of every
    other object for the same geometry *)
Theorem C68_force_refuted : forall mieb c m1 m2 ra rb e b precision conv t nmax,
  two_spheres c m1 m2 ra rb e b -> static_sphere m1 -> static_sphere m2 -> c_ext c = true -> mu_val b 0 = 1%Re -> (1 <= c_lmax c)%coq_nat -> (c_lmax c <= c_lssmax c)%coq_nat -> (conv < 1)%Re ->
  ready mieb c t nmax -> t_ff t = None -> (50 <= nmax)%coq_nat ->
  elementwise_at mieb c [:: 1e-10%Re] -> (forall q, freqs (t_deltaT t) nmax q <> nil -> elementwise_at mieb c (freqs (t_deltaT t) nmax q)) ->
  (forall m, (m <= c_lmax c)%coq_nat -> \det (1%:M - trip mieb c (Z.of_nat m) 1e-10%Re) <> 0) ->
  (forall n m : nat, (1 <= n)%coq_nat /\ (n <= nmax)%coq_nat -> (m <= c_lmax c)%coq_nat -> \det (1%:M - trip mieb c (Z.of_nat m) (t_deltaT t * INR n)%Re) <> 0) ->
  exists N, forall fuel, (N <= fuel)%N -> forall unk garbage empty, let o := ops unk fuel mieb trans_bessels c precision conv false garbage in exists t',
    [/\ force o empty t = (t', Err AttributeError), g_force (t_geom t') = true,
        snd (free_energy o empty t') = Err AttributeError /\ snd (entropy o empty t') = Err AttributeError &
        forall t2 n2, t_geom t2 = t_geom t' -> t_nmax t2 = Z.of_nat n2 -> t_nprocs t2 = 0%Z -> t_f t2 = None ->
          exists ex, snd (free_energy o empty t2) = Err ex /\ snd (entropy o empty t2) = Err ex /\
            ex = if (negb (t_force t2) && t_analytic t2)%bool then NotImplementedError else AttributeError].
Proof.
move=> mieb c m1 m2 ra rb e b precision conv t nmax HC S1 S2 hx hmu hl hls hc hR hff hn hel0 hel hreg0 hreg.
have hS : solids c m1 m2 ra rb (eps_spec e) (mu_val b).
  move: (HC) => [h1 [h2 [hm [_ [_ hL]]]]].
  by rewrite /solids; split=> //; split=> //; split; [exact: static_solid|split; [exact: static_solid|split; [exact: insulator_has|]]].
have g0 : good mieb c [:: 1e-10%Re] by split=> //; split=> // k [<-|//]; lra.
have [|M0 [N0 hN0]] := @mSumme_real mieb c m1 m2 ra rb _ _ conv precision hS hc _ g0.
  by move=> k [<-|//] m hm; apply: hreg0.
have [cut [N hN]] := @slices_real mieb c m1 m2 ra rb _ _ conv precision hS hc t nmax hR hel (fun n hn m hm => hreg n m hn hm).
have [Hn [Hp [Hf [HT [Hnone Hs]]]]] := hR; have HT0 : t_deltaT t <> 0%Re by lra.
have [X [eX e0]] := static_ok HC S1 S2 hx hmu hl hls.
exists (maxn N0 N) => fuel; rewrite geq_max => /andP [f0 f1] unk garbage empty o.
have ne0 : freqs (t_deltaT t) nmax 0 <> nil by apply: freqs_first; lia.
have ne1 : freqs (t_deltaT t) nmax 1 <> nil by apply: freqs_second.
have [_ k0] := hN0 fuel f0; have [g1 [hg1 E1]] := k0 unk _ Hs.
have [_ k1] := hN fuel f1 0%N ne0; have [g2 [hg2 E2]] := k1 unk _ hg1.
have gd1 : good mieb c (freqs (t_deltaT t) nmax 1) by split=> //; split; [move=> k /(@freqs_pos _ _ _ _ HT) [n [_ [_ h]]]|exact: hel].
have hg2' : sound mieb c (set_flag false g2) by have [_ h] := hg2; split.
have [g3 [E3 [hf3 hs3]]] := @dot_fails mieb c m1 m2 ra rb _ _ hS garbage _ gd1 unk g2 hg2'.
have eF : force o empty t = (with_geom (with_force t true) g3, Err AttributeError).
  have L49 : List.length (List.map (fun k => rsum (fun m => lnr mieb c m k) (cut 0%N)) (freqs (t_deltaT t) nmax 0)) = 49%N.
    by rewrite List.map_length; apply: freqs_49.
  exact: (force_run o empty t nmax AttributeError _ _ _ _ g3 Hn hn hff Hp HT0 E1 E2 erefl L49 E3).
have [A [B [eA eB]]] := solids_coefs hS g0; have [V eV] := solids_trans hS 0 g0.
have dyn : exists g4, s_finite unk (geo_mSumme unk fuel mieb trans_bessels c precision conv [:: 1e-10%Re]) g3 = (g4, Err AttributeError).
  have [g4 [E _]] := mSumme_force unk fuel mieb trans_bessels c _ A B eA eB precision conv V g3 (proj1 g0) (good_hd g0) eV hf3.
  by exists g4; rewrite /s_finite /mbind E.
have sta : exists g4, s_finite unk (geo_mSumme_k0 unk fuel trans_bessels c precision conv) g3 = (g4, Err NotImplementedError).
  by have [g4 [E _]] := mSumme_k0_force unk fuel mieb trans_bessels c precision conv X g3 e0 eX hs3 hf3; exists g4; rewrite /s_finite /mbind E.
have gen t2 n2 : t_geom t2 = g3 -> t_nmax t2 = Z.of_nat n2 -> t_nprocs t2 = 0%Z -> t_f t2 = None ->
    let ex := if (negb (t_force t2) && t_analytic t2)%bool then NotImplementedError else AttributeError in snd (free_energy o empty t2) = Err ex /\ snd (entropy o empty t2) = Err ex.
  move=> eg en ep ef ex; have [g4 E4] : exists g4, (if (negb (t_force t2) && t_analytic t2)%bool then g_mSumme_k0 o (t_geom t2) else g_mSumme o [:: 1e-10%Re] (t_geom t2)) = (g4, Err ex).
    by rewrite /ex eg; case: (_ && _)%bool.
  by have [-> ->] := energy_fails o empty t2 n2 ex g4 en ep ef E4.
exists (with_geom (with_force t true) g3); split=> //.
- exact: (gen (with_geom (with_force t true) g3) nmax erefl Hn Hp Hnone).
- by move=> t2 n2 eg en ep ef; have [a1 a2] := gen t2 n2 eg en ep ef; exists (if (negb (t_force t2) && t_analytic t2)%bool then NotImplementedError else AttributeError).
Qed.
Print Assumptions C68_force_refuted.

(** force() with fewer than 50 frequencies returns: the free energies with k = 1e-10 in place of zero, no derivative at all *)
Theorem C68_force_is_energy_refuted : forall mieb c m1 m2 ra rb e u precision conv t nmax,
  solids c m1 m2 ra rb e u -> (conv < 1)%Re -> ready mieb c t nmax -> t_ff t = None -> (1 <= nmax)%coq_nat /\ (nmax <= 49)%coq_nat ->
  elementwise_at mieb c [:: 1e-10%Re] -> elementwise_at mieb c (freqs (t_deltaT t) nmax 0) ->
  (forall m, (m <= c_lmax c)%coq_nat -> \det (1%:M - trip mieb c (Z.of_nat m) 1e-10%Re) <> 0) ->
  (forall n m : nat, (1 <= n)%coq_nat /\ (n <= nmax)%coq_nat -> (m <= c_lmax c)%coq_nat -> \det (1%:M - trip mieb c (Z.of_nat m) (t_deltaT t * INR n)%Re) <> 0) ->
  let term m k := ln (Rabs (\det (1%:M - trip mieb c (Z.of_nat m) k))) in
  let stops := stops_at precision (c_lmax c) (fun m k => ln_abs_det (1%:M - trip mieb c (Z.of_nat m) k)) in
  exists cut0 cut N, [/\ stops [:: 1e-10%Re] cut0, stops (freqs (t_deltaT t) nmax 0) cut &
    forall fuel, (N <= fuel)%N -> forall unk garbage empty, exists F,
      [/\ snd (force (ops unk fuel mieb trans_bessels c precision conv false garbage) empty t) = Ok F, List.length F = Z.to_nat (pyround (t_Tmax t / t_deltaT t)) &
          forall i : nat, (1 <= i)%coq_nat /\ (i <= List.length F)%coq_nat -> List.nth_error F (i - 1)%coq_nat =
            Some (sliced_sum (rsum (term^~ 1e-10%Re) cut0) (fun=> fun k => rsum (term^~ k) cut) (t_deltaT t) nmax i)]].
Proof.
move=> mieb c m1 m2 ra rb e u precision conv t nmax hS hc hR hff [hn1 hn2] hel0 hel hreg0 hreg term stops.
pose t2 := set_analytic (with_force t false) false.
have hR2 : ready mieb c t2 nmax by move: hR => [a1 [a2 [a3 [a4 [a5 a6]]]]]; do 5 split=> //.
have only q : freqs (t_deltaT t) nmax q <> nil -> q = 0%N by apply: freqs_only.
have [|q hq|//|//|cut0 [cut [N [hc0 hcut hN]]]] := C66_free_energy_numeric precision hS hc hR2 erefl hn1.
- exact: hel0.
- by move: (hq); rewrite (only q hq).
exists cut0, (cut 0%N), N; split=> //; first by apply: hcut; apply: freqs_first.
move=> fuel hf unk garbage empty; have [t' [F [E1 E2 E3 E4]]] := hN fuel hf unk garbage empty; exists F; split=> //.
  have [Hn [_ [_ [_ [Hnone _]]]]] := hR.
  rewrite (@force_is_free_energy _ _ _ t) ?E1 //; rewrite Hn; lia.
move=> i hi; rewrite E4 //; congr Some; exact: (sliced_one _ _ _ _ _ hn2).
Qed.
Print Assumptions C68_force_is_energy_refuted.

(** ** Non-vacuity: a bubble in water *)
Lemma bubble_regular m k : (0 < k)%Re -> (m <= 3)%coq_nat -> \det (1%:M - trip exact_bessels bubble_in_water (Z.of_nat m) k) <> 0.
Proof.
move=> hk hmx; have hS := bubble_solids; have [h1 [h2 [s1 [s2 [hm [hL _]]]]]] := hS.
have ho := solids_orders hS hmx; have [g1 [g2 _]] := C61_bubble hk; have r1 : (0 < 1)%Re by lra. have r2 : (0 < 2)%Re by lra.
have hc : (0 < 1)%Re by lra.
have [[A eA] [B eB]] := exact_val h1 h2 s1 s2 hm r1 r2 hk.
have [_ [v [N [hN _]]]] := C61_repulsion h1 h2 hm r1 r2 hL hk ho g1 g2 hc.
exact: (proj1 (fin_det eA eB hm hL hk ho hc hN)).
Qed.
Example C68_bubble : exists N, forall fuel, (N <= fuel)%N -> forall unk garbage empty,
  let o := ops unk fuel exact_bessels trans_bessels bubble_in_water 1e-4 1e-10 false garbage in
  snd (force o empty (task 1 3 60 true)) = Err AttributeError /\ (exists F, snd (force o empty (task 1 3 40 true)) = Ok F /\ List.length F = 3%N) /\
  snd (geo_mSumme unk fuel exact_bessels trans_bessels bubble_in_water 1e-4 1e-10 [:: 1; 2]%Re (fresh true)) = Err AttributeError.
Proof.
have HC : two_spheres bubble_in_water (Lorentz [::] None) PEC 1 2 e_Water None.
  by rewrite /two_spheres /=; split=> //; split=> //; split; [exact water_insulator|lra].
have S1 : static_sphere (Lorentz [::] None) by right; left; exists [::], None; split.
have S2 : static_sphere PEC by left.
have d1 : (0 < 1)%Re by lra. have e10 : (0 < 1e-10)%Re by lra. have e9 : (1e-10 < 1)%Re by lra.
have el ks : elementwise_at exact_bessels bubble_in_water ks by apply: exact_at; exact: trans_at_ext.
have reg nmax (n m : nat) : (1 <= n)%coq_nat /\ (n <= nmax)%coq_nat -> (m <= 3)%coq_nat -> \det (1%:M - trip exact_bessels bubble_in_water (Z.of_nat m) (1 * INR n)%Re) <> 0.
  by move=> [h _] hm; apply: bubble_regular => //; apply: Rmult_lt_0_compat => //; apply: lt_0_INR; lia.
have [|||||||N1 h1] := @C68_force_refuted exact_bessels bubble_in_water _ _ 1%Re 2%Re _ _ 1e-4%Re 1e-10%Re (task 1 3 60 true) 60 HC S1 S2 erefl erefl _ _ e9 (task_ready _ _ _ _ _ d1) erefl; try by rewrite /=; lia.
- exact: el.
- by move=> q _; exact: el.
- by move=> m hm; apply: bubble_regular.
- exact: reg.
have [|||cut0 [cut [N2 [_ _ h2]]]] := @C68_force_is_energy_refuted exact_bessels bubble_in_water _ _ _ _ _ _ 1e-4%Re 1e-10%Re (task 1 3 40 true) 40 bubble_solids e9 (task_ready _ _ _ _ _ d1) erefl _ (el _) (el _); try by rewrite /=; lia.
- by move=> m hm; apply: bubble_regular.
- exact: reg.
exists (maxn N1 N2) => fuel; rewrite geq_max => /andP [f1 f2] unk garbage empty o; split; last split.
- by have [t' [E _ _ _]] := h1 fuel f1 unk garbage empty; rewrite E.
- have [F [E L _]] := h2 fuel f2 unk garbage empty; exists F; split=> //.
  by rewrite L /= /Rdiv Rinv_1 Rmult_1_r (pyround_IZR 3).
- have [//||s' [E _]] := @C68_flag_refuted exact_bessels bubble_in_water _ _ _ _ _ _ 1e-4%Re 1e-10%Re [:: 1; 2]%Re bubble_solids _ _ (el _) unk fuel (fresh true) erefl.
    by move=> k [<-|[<-|//]]; lra.
  by rewrite E.
Qed.
