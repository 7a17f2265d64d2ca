(** * Property C69: single round trips *)
From Coq Require Import Reals.
From Coq Require Import List Lia Lra ZArith.
From mathcomp Require Import all_ssreflect ssralg matrix mxalgebra poly mxpoly.
From Verif Require Import Base RStruct Mat_Model Mat_Spec Thermo_Model Thermo_Spec Thermo_Proofs Geo_Model Geo_Spec Bessel_Model Scat_Model Scat_Spec Scat_Proofs Scat_Proofs7 Scat_Proofs9 Scat_Proofs10 Scat_Props2 Trans_Model Trans_Spec
  Lin_Model Lin_Spec Lin_Proofs Lin_Proofs2 RT_Model RT_Spec RT_Spec2 RT_Proofs2 RT_Proofs3 RT_Proofs4 RT_Props RT_Props2 RT_Props3 RT_Props5 RT_Props7
  Run_Model Run_Spec Run_Proofs Run_Proofs2 Run_Proofs3 Run_Proofs4 Run_Proofs5 Run_Proofs6 Run_Proofs7 Run_Props Run_Props2 Run_Props3.
Set Implicit Arguments.
Unset Strict Implicit.
Import GRing.Theory.
Local Open Scope ring_scope.
Delimit Scope R_scope with Re.

Lemma traces_round_trip nk n ns e : traces (block_arrays nk n ns e) nk = List.map (fun q => \tr (round_trip n ns (e q))) (List.seq 0 nk).
Proof.
apply: List.map_ext_in => q _ /=; have := @scaled_similar n ns e q; rewrite /blocks => -[_ hd].
rewrite mtraceE; set X := block_mx _ _ _ _ in hd.
have -> : \tr (round_trip n ns (e q)) = \tr X by rewrite /mxtrace; apply: eq_bigr => i _; rewrite hd.
rewrite /X mxtrace_block -raddfD /=; congr (\tr _); apply/matrixP => i j; rewrite !mxE //.
Qed.

Section One.
Context (mieb : mbessels) (c : config) (m1 m2 : material) (ra rb : R) (e u : R -> R) (hS : solids c m1 m2 ra rb e u).
Lemma blocks_state ks m : good mieb c ks -> (m <= c_lmax c)%coq_nat -> exists A B Bs, [/\ mieA mieb c ks = Val A, mieB mieb c ks = Val B,
  forall unk s, sound mieb c s -> (m <= 1)%coq_nat \/ g_K s = Some ks -> s_blocks_all unk mieb trans_bessels c (Z.of_nat m) ks s = (loaded ks A B s, Ok Bs),
  traces Bs (List.length ks) = List.map (fun k => \tr (trip mieb c (Z.of_nat m) k)) ks & r3 (fst (fst (fst Bs))) = n1 c (Z.of_nat m)].
Proof.
move=> hg hmx; have [A [B [eA eB]]] := solids_coefs hS hg.
have [h1 [h2 [s1 [s2 [hm [hL [hl hls]]]]]]] := hS; have [hne [hp hel]] := hg.
have [V [eV hV]] := trans_many c (Z.of_nat m) e u ks hm hL (proj2 hel) hne hp.
exists A, B, (block_arrays (List.length ks) (n1 c (Z.of_nat m)) (n2 c (Z.of_nat m)) (pack (Z.of_nat m) A B V)); split=> //.
- have hn : (0 < n1 c (Z.of_nat m))%N by rewrite /n1 /lmin; apply/ltP; lia.
  have hn2 : n1 c (Z.of_nat m) = 1%N \/ (0 < n2 c (Z.of_nat m))%N by right; rewrite /n2 /lmin; apply/ltP; lia.
  move=> unk s hs hK; have hd := good_hd hg.
  have key : s_blocks unk mieb trans_bessels c (Z.of_nat m) ks s = (loaded ks A B s, Ok (block_arrays (List.length ks) (n1 c (Z.of_nat m)) (n2 c (Z.of_nat m)) (pack (Z.of_nat m) A B V))).
    rewrite /s_blocks /mbind (@elements_run unk mieb trans_bessels c (Z.of_nat m) ks s A B V hs eA eB eV); last by case: hK => [h|h]; [left; lia|right].
    by rewrite scale_ok.
  move: key hd hne; move: (block_arrays _ _ _ _) => Bs; rewrite /s_blocks_all; case: (ks) => [//|k rest] key /= hd _.
  by case: Reqb_spec.
- rewrite traces_round_trip (map_seq_nth (fun k => \tr (trip mieb c (Z.of_nat m) k))).
  apply: List.map_ext_in => q /List.in_seq [_ hq].
  have := @coefs_many mieb c m1 m2 ra rb e u ks h1 h2 s1 s2 hm hL hne hp hel (Z.of_nat m) A B V q eA eB eV hq.
  by move=> /same_round_trip; rewrite /trip => ->.
Qed.
Lemma choose_upto (T : Type) (P : nat -> T -> Prop) n : (forall m, (m <= n)%coq_nat -> exists x, P m x) -> exists f, forall m, (m <= n)%coq_nat -> P m (f m).
Proof.
elim: n => [|n IH] h.
  by have [x hx] := h 0%N (le_n 0); exists (fun=> x) => m hm; have -> : m = 0%N by lia.
have [f hf] := IH (fun m hm => h m (le_S _ _ hm)); have [x hx] := h n.+1 (le_n _).
exists (fun m => if m == n.+1 then x else f m) => m hm; case: eqP => [->//|ne]; apply: hf; lia.
Qed.
(** the sum over m of the traces *)
Lemma one_state ks precision mmax mm : good mieb c ks -> (0 < precision)%Re ->
  (match mmax with MAuto => mm = pyround (ln precision / ln 0.5) | MGiven n => mm = n /\ (n <= Z.of_nat (c_lmax c))%Z | MOther => False end) ->
  forall unk s, sound mieb c s -> exists s', [/\ sound mieb c s', g_K s' = Some ks &
    geo_mSum_oneRoundtrip unk mieb trans_bessels c precision true ks mmax s = (s', Ok (List.map (fun k => rsum (fun m => \tr (trip mieb c (Z.of_nat m) k)) (last_m c mm)) ks))].
Proof.
move=> hg hp hmm unk s hs; have [A [B [eA eB]]] := solids_coefs hS hg; have [_ [_ [_ [_ [_ [_ [hl hls]]]]]]] := hS.
have hl0 : sound mieb c (loaded ks A B s) := sound_loaded mieb c ks s A B hs eA eB.
have [m hmx|Bs hB] := @choose_upto _ (fun m Bs => [/\ forall unk s, sound mieb c s -> (m <= 1)%coq_nat \/ g_K s = Some ks -> s_blocks_all unk mieb trans_bessels c (Z.of_nat m) ks s = (loaded ks A B s, Ok Bs),
  traces Bs (List.length ks) = List.map (fun k => \tr (trip mieb c (Z.of_nat m) k)) ks & r3 (fst (fst (fst Bs))) = n1 c (Z.of_nat m)]) (c_lmax c).
  have [A' [B' [Bs [eA' eB' k1 k2 k3]]]] := blocks_state hg hmx.
  by move: eA' eB' k1; rewrite eA eB => -[<-] [<-] k1; exists Bs.
exists (loaded ks A B s); split=> //.
apply: (one_run unk mieb trans_bessels c ks (fun m k => \tr (trip mieb c (Z.of_nat m) k)) s (loaded ks A B s) Bs hl) => //.
- by have [h _ _] := hB 0%N (PeanoNat.Nat.le_0_l _); apply: h => //; left; lia.
- by move=> m [_ hmx]; have [h _ _] := hB m hmx; rewrite h //; right.
- by move=> m hmx; have [_ h1 h2] := hB m hmx.
Qed.
End One.

(** with Python 3 the sum over m fails for all wavenumbers (the name xrange does not exist) *)
Theorem C69_sum_refuted : forall mieb c m1 m2 ra rb e u precision ks mmax, solids c m1 m2 ra rb e u -> ks <> nil -> (forall k, In k ks -> (0 < k)%Re) -> elementwise_at mieb c ks ->
  forall unk s, sound mieb c s -> exists s', sound mieb c s' /\ geo_mSum_oneRoundtrip unk mieb trans_bessels c precision false ks mmax s = (s', Err NameError).
Proof.
move=> mieb c m1 m2 ra rb e u precision ks mmax hS hne hp hel unk s hs.
have [|A [B [Bs [eA eB h _ _]]]] := @blocks_state mieb c m1 m2 ra rb e u hS ks 0 (conj hne (conj hp hel)); first by lia.
exists (loaded ks A B s); split; first exact: (sound_loaded mieb c ks s A B hs eA eB).
by rewrite /geo_mSum_oneRoundtrip /mbind (h unk s hs); last by left; lia.
Qed.
Print Assumptions C69_sum_refuted.

(** so the class oneRoundtrip computes no free energy, and with no version of Python a force *)
Theorem C69_class_refuted : forall mieb c m1 m2 ra rb e u precision t nmax, solids c m1 m2 ra rb e u -> ready mieb c t nmax -> elementwise_at mieb c [:: 1e-10%Re] ->
  forall unk garbage empty,
    snd (one_free_energy unk mieb trans_bessels c precision false garbage empty t) = Err NameError /\
    (t_ff t = None -> forall xrange, snd (one_force unk mieb trans_bessels c precision xrange garbage empty t) = Err AttributeError).
Proof.
move=> mieb c m1 m2 ra rb e u precision t nmax hS [Hn [Hp [Hf [HT [Hnone Hs]]]]] hel unk garbage empty; split.
- have [-> _] := one_energy_is unk mieb trans_bessels c precision false garbage empty t Hf Hnone.
  have [//|k [<-|//]|s' [_ E]] := @C69_sum_refuted mieb c m1 m2 ra rb e u precision [:: 1e-10%Re] MAuto hS _ _ hel unk _ Hs; first by lra.
  have := @energy_fails _ (one_ops unk mieb trans_bessels c precision false garbage) empty (set_analytic t false) nmax NameError s' Hn Hp Hnone.
  by rewrite andbF => /(_ E) [-> _].
- by move=> Hff xr; rewrite (one_force_fails unk mieb trans_bessels c precision xr garbage empty t nmax Hn Hp Hff).
Qed.
Print Assumptions C69_class_refuted.

(** with Python 2: the traces of the round trips, summed over m up to a bound that depends on the precision only *)
Theorem C69_traces : forall mieb c m1 m2 ra rb e u precision ks mmax mm, solids c m1 m2 ra rb e u -> ks <> nil -> (forall k, In k ks -> (0 < k)%Re) -> elementwise_at mieb c ks -> (0 < precision)%Re ->
  (match mmax with MAuto => mm = pyround (ln precision / ln 0.5) | MGiven n => mm = n /\ (n <= Z.of_nat (c_lmax c))%Z | MOther => False end) ->
  forall unk s, sound mieb c s -> exists s', [/\ sound mieb c s', g_K s' = Some ks &
    geo_mSum_oneRoundtrip unk mieb trans_bessels c precision true ks mmax s
    = (s', Ok (List.map (fun k => rsum (fun m => \tr (trip mieb c (Z.of_nat m) k)) (Nat.min (c_lmax c) (Nat.max 1 (Z.to_nat mm)))) ks))].
Proof.
move=> mieb c m1 m2 ra rb e u precision ks mmax mm hS hne hp hel h0 hmm unk s hs.
exact: (one_state hS (conj hne (conj hp hel)) h0 hmm unk hs).
Qed.
Print Assumptions C69_traces.

Definition one_yields (mieb : mbessels) (c : config) (precision : R) (t : finiteT gstate) (P : nat -> R -> Prop) : Prop :=
  forall unk garbage empty, exists t' F, [/\ one_free_energy unk mieb trans_bessels c precision true garbage empty t = (t', Ok F) /\
      one_free_energy unk mieb trans_bessels c precision true garbage empty t' = (t', Ok F), sound mieb c (t_geom t'),
    List.length F = Z.to_nat (pyround (t_Tmax t / t_deltaT t)) & forall i x, List.nth_error F i = Some x -> P i.+1 x].
Theorem C69_free_energy : forall mieb c m1 m2 ra rb e u precision t nmax, solids c m1 m2 ra rb e u -> (0 < precision)%Re -> ready mieb c t nmax -> (1 <= nmax)%coq_nat ->
  elementwise_at mieb c [:: 1e-10%Re] -> (forall q, freqs (t_deltaT t) nmax q <> nil -> elementwise_at mieb c (freqs (t_deltaT t) nmax q)) ->
  let M := Nat.min (c_lmax c) (Nat.max 1 (Z.to_nat (pyround (ln precision / ln 0.5)))) in
  let f k := rsum (fun m => \tr (trip mieb c (Z.of_nat m) k)) M in
  one_yields mieb c precision t (fun i x => x = sliced_sum (f 1e-10%Re) (fun=> f) (t_deltaT t) nmax i).
Proof.
move=> mieb c m1 m2 ra rb e u precision t nmax hS h0 hR hn hel0 hel M f unk garbage empty.
have [Hn [Hp [Hf [HT [Hnone Hs]]]]] := hR; have HT0 : t_deltaT t <> 0%Re by lra.
have [e1 e2] := one_energy_is unk mieb trans_bessels c precision true garbage empty t Hf Hnone.
have [//|_|q hq s hs|t' [F [E1 [E2 [E3 E4]]]]] := @free_energy_run _ (one_ops unk mieb trans_bessels c precision true garbage) empty (sound mieb c)
  (f 1e-10%Re) (fun=> f) (set_analytic t false) nmax Hn Hp Hf HT0 _ _ _ Hnone Hs.
- split=> // s hs; have g0 : good mieb c [:: 1e-10%Re] by split=> //; split=> // k [<-|//]; lra.
  by have [s' [hs' _ E]] := @one_state mieb c m1 m2 ra rb e u hS [:: 1e-10%Re] precision MAuto _ g0 h0 erefl unk s hs; exists s'.
- have gq : good mieb c (freqs (t_deltaT t) nmax q) by split=> //; split; [move=> k /(@freqs_pos _ _ _ _ HT) [n [_ [_ h]]]|exact: hel].
  by have [s' [hs' _ E]] := @one_state mieb c m1 m2 ra rb e u hS (freqs (t_deltaT t) nmax q) precision MAuto _ gq h0 erefl unk s hs; exists s'.
move: e1 e2; rewrite E1 /=; case E: (one_free_energy _ _ _ _ _ _ _ _ _) => [t1 r1] /= e1 e2; have hs1 : sound mieb c (t_geom t1) by rewrite e2.
exists t1, F; split=> //; first by rewrite -e1; split=> //; rewrite e1 in E *; exact: (one_again _ _ _ _ _ _ _ _ _ _ _ E).
move=> i x hx; have hl : (i < List.length F)%coq_nat by apply/List.nth_error_Some; rewrite hx.
have hi : (1 <= i.+1)%coq_nat /\ (i.+1 <= List.length F)%coq_nat by lia.
have := E4 i.+1 hi; have -> : (i.+1 - 1)%coq_nat = i by lia.
by rewrite hx => -[->].
Qed.
Print Assumptions C69_free_energy.

(** ** the sign: the first term of ln det(1 - U) is - tr U, but the class sums + tr U.  Where the free energy is never positive (both spheres denser
    than the medium), the result is never negative, and the other way around. *)
Theorem C69_sign_refuted : forall c m1 m2 ra rb e u s s2 precision t nmax,
  solids c m1 m2 ra rb e u -> (0 < ra)%Re -> (0 < rb)%Re -> (forall k, (0 < k)%Re -> contrast s m1 e u k /\ contrast s2 m2 e u k) -> (0 < precision)%Re ->
  ready exact_bessels c t nmax -> (1 <= nmax)%coq_nat -> (forall q, freqs (t_deltaT t) nmax q <> nil -> trans_at c (freqs (t_deltaT t) nmax q)) ->
  (s2 = s -> one_yields exact_bessels c precision t (fun _ x => 0 <= x)%Re) /\ (s2 = - s -> one_yields exact_bessels c precision t (fun _ x => x <= 0)%Re).
Proof.
move=> c m1 m2 ra rb e u s s2 precision t nmax hS ha hb hcon h0 hR hn htq.
have [h1 [h2 [o1 [o2 [hm [hL _]]]]]] := hS; have [_ [_ [_ [HT _]]]] := hR.
have hc : (0 < 1)%Re by lra.
have e10 : (0 < 1e-10)%Re by lra.
have pos n : (1 <= n)%coq_nat /\ (n <= nmax)%coq_nat -> (0 < t_deltaT t * INR n)%Re by move=> [hn1 _]; apply: Rmult_lt_0_compat => //; apply: lt_0_INR; lia.
have hN := C69_free_energy hS h0 hR hn (exact_at c _ (trans_at_one _ _ e10 hL)) (fun q hq => exact_at c _ (htq q hq)).
split=> es.
- have key m k : (0 < k)%Re -> (m <= c_lmax c)%coq_nat -> (0 <= \tr (trip exact_bessels c (Z.of_nat m) k))%Re.
    move=> hk hmx; have ho := solids_orders hS hmx; have [g1 g2] := hcon k hk; rewrite es in g2.
    by have [tp _] := C61_attraction h1 h2 hm ha hb hL hk ho g1 g2 hc; have := tp 0%N; rewrite /mxpow /= mulmx1.
  move=> unk garbage empty; have [t' [F [E1 E2 E3 E4]]] := hN unk garbage empty; exists t', F; split=> // i x /E4 ->.
  apply: sliced_nonneg => //; first by lia.
  + by apply: rsum_nonneg => m hmM; apply: key => //; lia.
  + by move=> n hn1; apply: rsum_nonneg => m hmM; apply: key; [exact: pos|lia].
- have key m k : (0 < k)%Re -> (m <= c_lmax c)%coq_nat -> (\tr (trip exact_bessels c (Z.of_nat m) k) <= 0)%Re.
    move=> hk hmx; have ho := solids_orders hS hmx; have [g1 g2] := hcon k hk; rewrite es in g2.
    have [tp _] := C61_repulsion h1 h2 hm ha hb hL hk ho g1 g2 hc; have := tp 0%N; rewrite expr1 /mxpow /= mulmx1 RmultE mulN1r -RoppE; lra.
  move=> unk garbage empty; have [t' [F [E1 E2 E3 E4]]] := hN unk garbage empty; exists t', F; split=> // i x /E4 ->.
  apply: sliced_nonpos => //; first by lia.
  + by apply: rsum_nonpos => m hmM; apply: key => //; lia.
  + by move=> n hn1; apply: rsum_nonpos => m hmM; apply: key; [exact: pos|lia].
Qed.
Print Assumptions C69_sign_refuted.

(** ** Non-vacuity: the bubble: the free energy is never negative (C66), its "first term" never positive *)
Example C69_bubble : one_yields exact_bessels bubble_in_water 1e-4 (task 1 3 60 true) (fun _ x => x <= 0)%Re /\
  yields exact_bessels bubble_in_water 1e-4 1e-10 (task 1 3 60 false) (fun x => 0 <= x)%Re /\
  (forall unk garbage empty, snd (one_free_energy unk exact_bessels trans_bessels bubble_in_water 1e-4 false garbage empty (task 1 3 60 true)) = Err NameError).
Proof.
have d1 : (0 < 1)%Re by lra. have r2 : (0 < 2)%Re by lra.
have R1 := task_ready exact_bessels bubble_in_water 3 60 true d1.
split; last split; last first.
- by move=> unk garbage empty; have [h _] := C69_class_refuted 1e-4 bubble_solids R1 (exact_at _ _ (trans_at_ext bubble_in_water _ erefl)) unk garbage empty.
- exact: (proj1 C66_bubble).
- have [||||_ h] := @C69_sign_refuted bubble_in_water _ _ 1%Re 2%Re _ _ (-1)%Re (- (-1))%Re 1e-4%Re _ 60%N bubble_solids d1 r2 _ _ R1; try lra; try by lia.
  + by move=> k hk; have [g1 [g2 _]] := C61_bubble hk.
  + by move=> q _; exact: trans_at_ext.
  exact: h.
Qed.
(** and the bound on m for a precision of 1/1024 *)
Example C69_bound : pyround (ln (1 / 1024) / ln 0.5) = 10%Z.
Proof.
have -> : (1 / 1024 = 0.5 ^ 10)%Re by lra.
rewrite ln_pow; last by lra.
have h : ln 0.5 <> 0%Re by have := ln_increasing 0.5 1; rewrite ln_1; lra.
have -> : (INR 10 * ln 0.5 / ln 0.5 = 10)%Re by rewrite [INR 10]/=; field.
exact: (pyround_IZR 10).
Qed.
