(** * Properties C66 and C67: complete calculations *)
From Coq Require Import Reals.
From Coq Require Import List Lia Lra ZArith.
From mathcomp Require Import all_ssreflect ssralg matrix mxalgebra poly mxpoly.
From Verif Require Import Base RStruct Mat_Model Mat_Spec Thermo_Model Geo_Model Geo_Spec Bessel_Model Scat_Model Scat_Spec Scat_Proofs Scat_Proofs7 Scat_Proofs9 Scat_Proofs10 Trans_Model Trans_Spec
  Lin_Model Lin_Spec Lin_Proofs Lin_Proofs2 RT_Model RT_Spec RT_Proofs2 RT_Proofs3 RT_Proofs4 RT_Props RT_Props2 RT_Props3 Run_Model Run_Spec Run_Proofs Run_Proofs2 Run_Proofs3 Run_Proofs4.
Set Implicit Arguments.
Unset Strict Implicit.
Import GRing.Theory.
Local Open Scope ring_scope.
Delimit Scope R_scope with Re.
Notation mbessels := (list R -> nat -> Z -> res (list (list R) * list (list R))).

(** the same contribution as a real number *)
Definition lnr (mieb : mbessels) (c : config) (m : nat) (k : R) : R := ln (Rabs (\det (1%:M - trip mieb c (Z.of_nat m) k))).
Definition regular (mieb : mbessels) (c : config) (k : R) : Prop := forall m, (m <= c_lmax c)%coq_nat -> \det (1%:M - trip mieb c (Z.of_nat m) k) <> 0.
Lemma lnd_real mieb c m k : \det (1%:M - trip mieb c (Z.of_nat m) k) <> 0 -> lnd mieb c m k = Fin (lnr mieb c m k).
Proof. by rewrite /lnd /ln_abs_det /lnr => /eqP /negbTE ->. Qed.

(** ** C67: the sums over m of an object in any consistent state *)
Theorem C67_mSumme : forall mieb c m1 m2 ra rb e u precision conv ks, solids c m1 m2 ra rb e u -> (conv < 1)%Re ->
  ks <> nil -> (forall k, In k ks -> (0 < k)%Re) -> elementwise_at mieb c ks ->
  exists M N, stops_at precision (c_lmax c) (fun m k => ln_abs_det (1%:M - trip mieb c (Z.of_nat m) k)) ks M /\
  forall fuel, (N <= fuel)%N -> forall unk s, sound mieb c s -> exists s', sound mieb c s' /\ g_K s' = Some ks /\
    geo_mSumme unk fuel mieb trans_bessels c precision conv ks s = (s', Ok (List.map (fun k => msum (fun m => ln_abs_det (1%:M - trip mieb c (Z.of_nat m) k)) M) ks)).
Proof.
move=> mieb c m1 m2 ra rb e u precision conv ks [h1 [h2 [s1 [s2 [hm [hL [hl hls]]]]]]] hc hne hp hel.
have hg : good mieb c ks by [].
have [A [B [M [N [eA eB hM hN]]]]] := mSumme_state h1 h2 s1 s2 hm hL hl hls hc precision hg.
exists M, N; split=> // fuel hf unk s hs; exists (loaded ks A B s); split; first exact: (sound_loaded mieb c ks s A B hs eA eB).
by split=> //; exact: hN.
Qed.
Print Assumptions C67_mSumme.

Theorem C67_mSumme_k0 : forall c m1 m2 ra rb e b precision conv d0, two_spheres c m1 m2 ra rb e b -> static_sphere m1 -> static_sphere m2 -> c_ext c = true -> mu_val b 0 = 1%Re ->
  (1 <= c_lmax c)%coq_nat -> (c_lmax c <= c_lssmax c)%coq_nat -> (conv < 1)%Re ->
  (forall m, (m <= c_lmax c)%coq_nat -> limit0 (fun k => \det (1%:M - trip mie_bessels c (Z.of_nat m) k)) (d0 m) /\ (0 < d0 m)%Re) ->
  exists M N, stops_at_k0 precision (c_lmax c) (fun m => Fin (ln (d0 m))) M /\
  forall fuel, (N <= fuel)%N -> forall mieb unk s, sound mieb c s -> exists s', sound mieb c s' /\ g_K s' = g_K s /\
    geo_mSumme_k0 unk fuel trans_bessels c precision conv s = (s', Ok [:: Fin (rsum (fun m => ln (d0 m)) M)]).
Proof.
move=> c m1 m2 ra rb e b precision conv d0 HC S1 S2 hx hmu hl hls hc hd.
have [M [N [hM hN]]] := mSumme_k0_state HC S1 S2 hx hmu hl hls hc hd precision.
exists M, N; split=> // fuel hf mieb unk s hs; exists (with_static s 0); split; first by apply: sound_static.
split; first by rewrite /with_static; case: (g_0 s).
by rewrite (hN _ hf mieb) // (@msum_fin _ (fun m => ln (d0 m))).
Qed.
Print Assumptions C67_mSumme_k0.

(** ** C66: the free energy *)
(** fuel and cuts for all slices *)
Lemma slices (Q : nat -> nat -> nat -> Prop) n : (forall q, (q <= n)%N -> exists M N, forall fuel, (N <= fuel)%N -> Q q M fuel) ->
  exists (cut : nat -> nat) N, forall fuel, (N <= fuel)%N -> forall q, (q <= n)%N -> Q q (cut q) fuel.
Proof.
elim: n => [|n IH] h.
  by have [M [N hN]] := h 0%N isT; exists (fun=> M), N => fuel hf [|//] _; apply: hN.
have [cut [N1 h1]] := IH (fun m hm => h m (leqW hm)); have [M [N2 h2]] := h n.+1 (leqnn _).
exists (fun q => if q == n.+1 then M else cut q), (maxn N1 N2) => fuel; rewrite geq_max => /andP [f1 f2] q.
by rewrite leq_eqVlt ltnS => /orP [/eqP ->|hq]; [rewrite eqxx; exact: h2|rewrite ltn_eqF //; exact: h1].
Qed.
Section FE.
Context (mieb : mbessels) (c : config) (m1 m2 : material) (ra rb : R) (e u : R -> R) (conv precision : R).
Context (hS : solids c m1 m2 ra rb e u) (hc : (conv < 1)%Re).
Lemma mSumme_real ks : good mieb c ks -> (forall k, In k ks -> regular mieb c k) -> exists M N, forall fuel, (N <= fuel)%N ->
  stops_at precision (c_lmax c) (lnd mieb c) ks M /\
  forall unk s, sound mieb c s -> exists s', sound mieb c s' /\
    s_finite unk (geo_mSumme unk fuel mieb trans_bessels c precision conv ks) s = (s', Ok (List.map (fun k => rsum (fun m => lnr mieb c m k) M) ks)).
Proof.
move: hS => [h1 [h2 [s1 [s2 [hm [hL [hl hls]]]]]]] hg hr.
have [A [B [M [N [eA eB hM hN]]]]] := mSumme_state h1 h2 s1 s2 hm hL hl hls hc precision hg.
exists M, N => fuel hf; split=> // unk s hs; exists (loaded ks A B s); split; first exact: (sound_loaded mieb c ks s A B hs eA eB).
rewrite /s_finite /mbind hN //.
have -> : List.map (fun k => msum (fun m => lnd mieb c m k) M) ks = List.map Fin (List.map (fun k => rsum (fun m => lnr mieb c m k) M) ks); last by rewrite finite_map.
rewrite List.map_map; apply: List.map_ext_in => k hk; apply: msum_fin => m hmM; apply: lnd_real; apply: (hr k hk); have [hM1 _] := hM; lia.
Qed.

Lemma slices_real t nmax : ready mieb c t nmax ->
  (forall q, freqs (t_deltaT t) nmax q <> nil -> elementwise_at mieb c (freqs (t_deltaT t) nmax q)) ->
  (forall n : nat, (1 <= n)%coq_nat /\ (n <= nmax)%coq_nat -> regular mieb c (t_deltaT t * INR n)%Re) ->
  exists cut N, forall fuel, (N <= fuel)%N -> forall q, freqs (t_deltaT t) nmax q <> nil ->
    stops_at precision (c_lmax c) (lnd mieb c) (freqs (t_deltaT t) nmax q) (cut q) /\
    forall unk s, sound mieb c s -> exists s', sound mieb c s' /\
      s_finite unk (geo_mSumme unk fuel mieb trans_bessels c precision conv (freqs (t_deltaT t) nmax q)) s
      = (s', Ok (List.map (fun k => rsum (fun m => lnr mieb c m k) (cut q)) (freqs (t_deltaT t) nmax q))).
Proof.
move=> [_ [_ [_ [hT _]]]] hel hreg.
have [q hq|cut [N hN]] := @slices (fun q M fuel => freqs (t_deltaT t) nmax q <> nil ->
    stops_at precision (c_lmax c) (lnd mieb c) (freqs (t_deltaT t) nmax q) M /\
    forall unk s, sound mieb c s -> exists s', sound mieb c s' /\
      s_finite unk (geo_mSumme unk fuel mieb trans_bessels c precision conv (freqs (t_deltaT t) nmax q)) s
      = (s', Ok (List.map (fun k => rsum (fun m => lnr mieb c m k) M) (freqs (t_deltaT t) nmax q)))) nmax.
  case: (List.list_eq_dec Req_EM_T (freqs (t_deltaT t) nmax q) nil) => [->|hne]; first by exists 0%N, 0%N.
  have [|k hk|M [N hN]] := @mSumme_real (freqs (t_deltaT t) nmax q).
  - by split=> //; split; [move=> k /(@freqs_pos _ _ _ _ hT) [n [_ [_ h]]]|exact: hel].
  - by have [n [hn [-> _]]] := @freqs_pos _ _ _ _ hT hk; apply: hreg.
  - by exists M, N => fuel hf _; apply: hN.
by exists cut, N => fuel hf q hne; apply: (hN fuel hf q _ hne); apply/leP; exact: (freqs_small _ _ _ hne).
Qed.
End FE.

Theorem C66_free_energy : forall mieb c m1 m2 ra rb e b precision conv d0 t nmax,
  two_spheres c m1 m2 ra rb e b -> static_sphere m1 -> static_sphere m2 -> c_ext c = true -> mu_val b 0 = 1%Re ->
  (1 <= c_lmax c)%coq_nat -> (c_lmax c <= c_lssmax c)%coq_nat -> (conv < 1)%Re ->
  ready mieb c t nmax -> t_analytic t = true ->
  (forall q, freqs (t_deltaT t) nmax q <> nil -> elementwise_at mieb c (freqs (t_deltaT t) nmax q)) ->
  (forall m, (m <= c_lmax c)%coq_nat -> limit0 (fun k => \det (1%:M - trip mie_bessels c (Z.of_nat m) k)) (d0 m) /\ (0 < d0 m)%Re) ->
  (forall n m : nat, (1 <= n)%coq_nat /\ (n <= nmax)%coq_nat -> (m <= c_lmax c)%coq_nat -> \det (1%:M - trip mieb c (Z.of_nat m) (t_deltaT t * INR n)%Re) <> 0) ->
  exists cut0 cut N, [/\ stops_at_k0 precision (c_lmax c) (fun m => Fin (ln (d0 m))) cut0,
    forall q, freqs (t_deltaT t) nmax q <> nil ->
      stops_at precision (c_lmax c) (fun m k => ln_abs_det (1%:M - trip mieb c (Z.of_nat m) k)) (freqs (t_deltaT t) nmax q) (cut q) &
    forall fuel, (N <= fuel)%N -> forall unk garbage empty, exists t' F,
      [/\ free_energy (ops unk fuel mieb trans_bessels c precision conv false garbage) empty t = (t', Ok F), sound mieb c (t_geom t'),
          List.length F = Z.to_nat (pyround (t_Tmax t / t_deltaT t)) &
          forall i : nat, (1 <= i)%coq_nat /\ (i <= List.length F)%coq_nat -> List.nth_error F (i - 1)%coq_nat =
            Some (sliced_sum (rsum (fun m => ln (d0 m)) cut0)
                    (fun q k => rsum (fun m => ln (Rabs (\det (1%:M - trip mieb c (Z.of_nat m) k)))) (cut q)) (t_deltaT t) nmax i)]].
Proof.
move=> mieb c m1 m2 ra rb e b precision conv d0 t nmax HC S1 S2 hx hmu hl hls hc hR hA hel hd hreg.
have hS : solids c m1 m2 ra rb (eps_spec e) (mu_val b).
  move: (HC) => [h1 [h2 [hm [_ [_ hL]]]]].
  by rewrite /solids; split=> //; split=> //; split; [exact: static_solid|split; [exact: static_solid|split; [exact: insulator_has|]]].
have [M0 [N0 [hM0 hN0]]] := C67_mSumme_k0 precision HC S1 S2 hx hmu hl hls hc hd.
have [cut [N hN]] := @slices_real mieb c m1 m2 ra rb _ _ conv precision hS hc t nmax hR hel (fun n hn m hm => hreg n m hn hm).
exists M0, cut, (maxn N0 N); split=> //; first by move=> q /(hN N (leqnn N)) [].
move=> fuel; rewrite geq_max => /andP [f0 f1] unk garbage empty.
have [Hn [Hp [Hf [HT [Hnone Hs]]]]] := hR.
have HT0 : t_deltaT t <> 0%Re by lra.
have [||q hq s hs|t' [F [E1 [E2 [E3 E4]]]]] := @free_energy_run _ (ops unk fuel mieb trans_bessels c precision conv false garbage) empty (sound mieb c)
  (rsum (fun m => ln (d0 m)) M0) (fun q k => rsum (fun m => lnr mieb c m k) (cut q)) t nmax Hn Hp Hf HT0 _ _ _ Hnone Hs.
- move=> _ s hs; have [s' [hs' [_ E]]] := hN0 fuel f0 mieb unk s hs; exists s'; split=> //.
  by rewrite /= /s_finite /mbind E.
- by rewrite hA.
- by have [_ h] := hN fuel f1 q hq; have [s' [hs' E]] := h unk s hs; exists s'.
- by exists t', F.
Qed.
Print Assumptions C66_free_energy.

(** without the analytic zero-frequency term: the sum at the wavenumber 1e-10 takes its place *)
Theorem C66_free_energy_numeric : forall mieb c m1 m2 ra rb e u precision conv t nmax,
  solids c m1 m2 ra rb e u -> (conv < 1)%Re -> ready mieb c t nmax -> t_analytic t = false -> (1 <= nmax)%coq_nat ->
  elementwise_at mieb c [:: 1e-10%Re] -> (forall q, freqs (t_deltaT t) nmax q <> nil -> elementwise_at mieb c (freqs (t_deltaT t) nmax q)) ->
  (forall m, (m <= c_lmax c)%coq_nat -> \det (1%:M - trip mieb c (Z.of_nat m) 1e-10%Re) <> 0) ->
  (forall n m : nat, (1 <= n)%coq_nat /\ (n <= nmax)%coq_nat -> (m <= c_lmax c)%coq_nat -> \det (1%:M - trip mieb c (Z.of_nat m) (t_deltaT t * INR n)%Re) <> 0) ->
  let term m k := ln (Rabs (\det (1%:M - trip mieb c (Z.of_nat m) k))) in
  let stops := stops_at precision (c_lmax c) (fun m k => ln_abs_det (1%:M - trip mieb c (Z.of_nat m) k)) in
  exists cut0 cut N, [/\ stops [:: 1e-10%Re] cut0, forall q, freqs (t_deltaT t) nmax q <> nil -> stops (freqs (t_deltaT t) nmax q) (cut q) &
    forall fuel, (N <= fuel)%N -> forall unk garbage empty, exists t' F,
      [/\ free_energy (ops unk fuel mieb trans_bessels c precision conv false garbage) empty t = (t', Ok F), sound mieb c (t_geom t'),
          List.length F = Z.to_nat (pyround (t_Tmax t / t_deltaT t)) &
          forall i : nat, (1 <= i)%coq_nat /\ (i <= List.length F)%coq_nat -> List.nth_error F (i - 1)%coq_nat =
            Some (sliced_sum (rsum (term^~ 1e-10%Re) cut0) (fun q k => rsum (term^~ k) (cut q)) (t_deltaT t) nmax i)]].
Proof.
move=> mieb c m1 m2 ra rb e u precision conv t nmax hS hc hR hA hn1 hel0 hel hreg0 hreg term stops.
have [||M0 [N0 hN0]] := @mSumme_real mieb c m1 m2 ra rb e u conv precision hS hc [:: 1e-10%Re].
- by split=> //; split=> // k [<-|//]; lra.
- by move=> k [<-|//] m hm; apply: hreg0.
have [cut [N hN]] := @slices_real mieb c m1 m2 ra rb _ _ conv precision hS hc t nmax hR hel (fun n hn m hm => hreg n m hn hm).
exists M0, cut, (maxn N0 N); split; first by have [] := hN0 N0 (leqnn N0).
  by move=> q /(hN N (leqnn N)) [].
move=> fuel; rewrite geq_max => /andP [f0 f1] unk garbage empty.
have [Hn [Hp [Hf [HT [Hnone Hs]]]]] := hR.
have HT0 : t_deltaT t <> 0%Re by lra.
have [||q hq s hs|t' [F [E1 [E2 [E3 E4]]]]] := @free_energy_run _ (ops unk fuel mieb trans_bessels c precision conv false garbage) empty (sound mieb c)
  (rsum (fun m => lnr mieb c m 1e-10%Re) M0) (fun q k => rsum (fun m => lnr mieb c m k) (cut q)) t nmax Hn Hp Hf HT0 _ _ _ Hnone Hs.
- by rewrite hA.
- move=> _; split=> // s hs; have [_ h] := hN0 fuel f0; have [s' [hs' E]] := h unk s hs; exists s'; split=> //.
- by have [_ h] := hN fuel f1 q hq; have [s' [hs' E]] := h unk s hs; exists s'.
- by exists t', F.
Qed.
Print Assumptions C66_free_energy_numeric.
