(** * Complete calculations with solid and stratified spheres *)
From Coq Require Import Reals.
From Coq Require Import List Lia Lra ZArith.
From mathcomp Require Import all_ssreflect ssralg matrix mxalgebra poly mxpoly.
From Verif Require Import Base RStruct Mat_Model Mat_Spec Thermo_Model Geo_Model Geo_Spec Bessel_Model Scat_Model Scat_Spec Scat_Proofs Scat_Proofs7 Scat_Proofs9 Scat_Proofs10 Trans_Model Trans_Spec
  Lin_Model Lin_Spec Lin_Proofs Lin_Proofs2 RT_Model RT_Spec RT_Proofs2 RT_Proofs3 RT_Proofs4 RT_Props RT_Props2 RT_Props3 Run_Model Run_Spec Run_Proofs Run_Proofs2 Run_Proofs3 Run_Proofs4 Run_Props
  Layer_Spec Bodies_Spec Bodies_Proofs.
Set Implicit Arguments.
Unset Strict Implicit.
Import GRing.Theory.
Local Open Scope ring_scope.
Delimit Scope R_scope with Re.

Section Bodies.
Context (c : config) (e u : R -> R) (conv precision : R) (H : objects c e u) (hc : (conv < 1)%Re).
Notation mb := exact_bessels.
Lemma all_good ks : ks <> nil -> (forall k, In k ks -> (0 < k)%Re) -> good mb c ks.
Proof. by move=> h1 h2; split=> //; split=> //; exact: at_all H. Qed.
Lemma bodies_lndet ks A B : ks <> nil -> (forall k, In k ks -> (0 < k)%Re) -> mieA mb c ks = Val A -> mieB mb c ks = Val B ->
  exists N, forall fuel, (N <= fuel)%N -> forall m, (m <= c_lmax c)%N -> forall unk s, sound mb c s -> (m <= 1)%coq_nat \/ g_K s = Some ks ->
    s_lndet unk fuel mb trans_bessels c conv m ks s = (loaded ks A B s, Ok (List.map (lnd mb c m) ks)).
Proof.
move=> hne hp eA eB; apply: enough => m /leP hmx; have [_ [_ [hx [hm [hL [hl hls]]]]]] := H.
have [V [eV hV]] := trans_many c (Z.of_nat m) e u ks hm hL (trans_at_ext _ _ hx) hne hp.
have hn : (0 < n1 c (Z.of_nat m))%N by rewrite /n1 /lmin; apply/ltP; lia.
have hs : n1 c (Z.of_nat m) = 1%N \/ (0 < n2 c (Z.of_nat m))%N by right; rewrite /n2 /lmin; apply/ltP; lia.
have [N hN] := lndet_round_trip (List.length ks) (n1 c (Z.of_nat m)) (n2 c (Z.of_nat m)) (pack (Z.of_nat m) A B V) hc.
exists N => fuel hf unk s hsnd hm1; have := hN fuel hf.
rewrite /s_lndet /s_blocks /mbind (@elements_run unk mb trans_bessels c (Z.of_nat m) ks s A B V hsnd eA eB eV); last by case: hm1 => [h|h]; [left; lia|right].
rewrite scale_ok //= => -[M [eM eD]]; move: eM => /= ->; rewrite /= eD /=.
congr (_, Ok _).
have -> : List.map (lnd mb c m) ks = List.map (fun q => lnd mb c m (List.nth q ks 0%Re)) (List.seq 0 (List.length ks)).
  exact: map_seq_nth.
apply: List.map_ext_in => q /List.in_seq [_ hq].
have := @bodies_many c e u ks H hne hp (Z.of_nat m) A B V q eA eB eV hq.
by move=> /same_round_trip; rewrite /lnd /trip => ->.
Qed.
Lemma bodies_mSumme ks : ks <> nil -> (forall k, In k ks -> (0 < k)%Re) -> exists A B M N, [/\ mieA mb c ks = Val A, mieB mb c ks = Val B, stops_at precision (c_lmax c) (lnd mb c) ks M &
  forall fuel, (N <= fuel)%N -> forall unk s, sound mb c s ->
    geo_mSumme unk fuel mb trans_bessels c precision conv ks s = (loaded ks A B s, Ok (List.map (fun k => msum (fun m => lnd mb c m k) M) ks))].
Proof.
move=> hne hp; have hg := all_good hne hp; have [_ [_ [_ [_ [_ [hl _]]]]]] := H.
have [A [eA _]] := body_manyA c e u ks H hp; have [B [eB _]] := body_manyB c e u ks H hp.
have [M hM] := lnd_stops precision hg; have [N hN] := bodies_lndet hne hp eA eB.
exists A, B, M, N; split=> // fuel hf unk s hs.
have hl0 : sound mb c (loaded ks A B s) := sound_loaded mb c ks s A B hs eA eB.
rewrite /geo_mSumme; have [|m hm0|M' [hM' ->]] := @mSumme_run _ (s_lndet unk fuel mb trans_bessels c conv) (s_lndet_k0 unk fuel trans_bessels c conv) (c_lmax c) precision ks (lnd mb c) s (loaded ks A B s) (proj1 hg) (good_hd hg).
- by rewrite hN //; left; lia.
- by rewrite hN //; [apply/leP; lia|right].
- by rewrite (stops_unique hM hM').
Qed.
Lemma bodies_real ks : ks <> nil -> (forall k, In k ks -> (0 < k)%Re) -> (forall k, In k ks -> regular mb c k) -> exists M N, forall fuel, (N <= fuel)%N ->
  stops_at precision (c_lmax c) (lnd mb c) ks M /\
  forall unk s, sound mb c s -> exists s', sound mb c s' /\
    s_finite unk (geo_mSumme unk fuel mb trans_bessels c precision conv ks) s = (s', Ok (List.map (fun k => rsum (fun m => lnr mb c m k) M) ks)).
Proof.
move=> hne hp hr; have [A [B [M [N [eA eB hM hN]]]]] := bodies_mSumme hne hp.
exists M, N => fuel hf; split=> // unk s hs; exists (loaded ks A B s); split; first exact: (sound_loaded mb c ks s A B hs eA eB).
rewrite /s_finite /mbind hN //.
have -> : List.map (fun k => msum (fun m => lnd mb c m k) M) ks = List.map Fin (List.map (fun k => rsum (fun m => lnr mb c m k) M) ks); last by rewrite finite_map.
rewrite List.map_map; apply: List.map_ext_in => k hk; apply: msum_fin => m hmM; apply: lnd_real; apply: (hr k hk); have [hM1 _] := hM; lia.
Qed.
Lemma bodies_slices t nmax : ready mb c t nmax ->
  (forall n : nat, (1 <= n)%coq_nat /\ (n <= nmax)%coq_nat -> regular mb c (t_deltaT t * INR n)%Re) ->
  exists cut N, forall fuel, (N <= fuel)%N -> forall q, freqs (t_deltaT t) nmax q <> nil ->
    stops_at precision (c_lmax c) (lnd mb c) (freqs (t_deltaT t) nmax q) (cut q) /\
    forall unk s, sound mb c s -> exists s', sound mb c s' /\
      s_finite unk (geo_mSumme unk fuel mb trans_bessels c precision conv (freqs (t_deltaT t) nmax q)) s
      = (s', Ok (List.map (fun k => rsum (fun m => lnr mb c m k) (cut q)) (freqs (t_deltaT t) nmax q))).
Proof.
move=> [_ [_ [_ [hT _]]]] hreg.
have [q hq|cut [N hN]] := @slices (fun q M fuel => freqs (t_deltaT t) nmax q <> nil ->
    stops_at precision (c_lmax c) (lnd mb c) (freqs (t_deltaT t) nmax q) M /\
    forall unk s, sound mb c s -> exists s', sound mb c s' /\
      s_finite unk (geo_mSumme unk fuel mb trans_bessels c precision conv (freqs (t_deltaT t) nmax q)) s
      = (s', Ok (List.map (fun k => rsum (fun m => lnr mb c m k) M) (freqs (t_deltaT t) nmax q)))) nmax.
  case: (List.list_eq_dec Req_EM_T (freqs (t_deltaT t) nmax q) nil) => [->|hne]; first by exists 0%N, 0%N.
  have [//|k /(@freqs_pos _ _ _ _ hT) [n [_ [_ h]]] //|k hk|M [N hN]] := @bodies_real (freqs (t_deltaT t) nmax q).
  - by have [n [hn [-> _]]] := @freqs_pos _ _ _ _ hT hk; apply: hreg.
  - by exists M, N => fuel hf _; apply: hN.
by exists cut, N => fuel hf q hne; apply: (hN fuel hf q _ hne); apply/leP; exact: (freqs_small _ _ _ hne).
Qed.
End Bodies.
