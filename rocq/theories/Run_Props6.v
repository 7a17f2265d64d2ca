(** * Property C75, continued: the free energies of two perfect reflectors increase with their distance *)
From Coq Require Import Reals.
From Coq Require Import List Lia Lra ZArith.
From mathcomp Require Import all_ssreflect ssralg matrix mxalgebra poly mxpoly.
From Verif Require Import Base RStruct Mat_Model Mat_Spec Thermo_Model Thermo_Spec Thermo_Proofs Geo_Model Geo_Spec Bessel_Model Scat_Model Scat_Spec Scat_Proofs Scat_Proofs7 Scat_Proofs9 Scat_Proofs10 Scat_Props2 Trans_Model Trans_Spec
  Lin_Model Lin_Spec Lin_Proofs Lin_Proofs2 RT_Model RT_Spec RT_Spec2 RT_Proofs2 RT_Proofs3 RT_Proofs4 RT_Props RT_Props2 RT_Props3 RT_Props5 RT_Props7 RT_Props8
  Run_Model Run_Spec Run_Proofs Run_Proofs2 Run_Proofs3 Run_Proofs4 Run_Proofs5 Run_Proofs6 Run_Proofs9 Run_Props Run_Props2 Run_Props3.
Set Implicit Arguments.
Unset Strict Implicit.
Import GRing.Theory.
Local Open Scope ring_scope.
Delimit Scope R_scope with Re.

(** ** the sums over m run to lmax if the requested precision is zero or negative and no partial sum vanishes *)
Theorem C75_free_energy : forall c ra rb e u precision conv t nmax L L',
  solids c PEC PEC ra rb e u -> c_ext c = true -> (0 < ra)%Re -> (0 < rb)%Re -> (conv < 1)%Re -> (precision <= 0)%Re -> (0 < L)%Re -> (L < L')%Re ->
  ready mie_bessels (at_distance c L) t nmax -> ready mie_bessels (at_distance c L') t nmax -> t_analytic t = false -> (1 <= nmax)%coq_nat ->
  (forall q, freqs (t_deltaT t) nmax q <> nil -> elementwise_at mie_bessels c (freqs (t_deltaT t) nmax q)) ->
  (forall m k, (m <= c_lmax c)%coq_nat -> k = 1e-10%Re \/ (exists n, ((1 <= n)%coq_nat /\ (n <= nmax)%coq_nat) /\ k = (t_deltaT t * INR n)%Re) -> (\tr (trip mie_bessels (at_distance c L) (Z.of_nat m) k) < 1)%Re) ->
  exists N, forall fuel, (N <= fuel)%N -> forall unk garbage empty, exists t1 t2 F F',
    [/\ free_energy (ops unk fuel mie_bessels trans_bessels (at_distance c L) precision conv false garbage) empty t = (t1, Ok F),
        free_energy (ops unk fuel mie_bessels trans_bessels (at_distance c L') precision conv false garbage) empty t = (t2, Ok F'),
        List.length F = Z.to_nat (pyround (t_Tmax t / t_deltaT t)), List.length F' = List.length F &
        forall i : nat, (i < List.length F)%coq_nat -> exists x x', [/\ List.nth_error F i = Some x, List.nth_error F' i = Some x', (x < x')%Re & (x' < 0)%Re]].
Proof.
move=> c ra rb e u precision conv t nmax L L' hS hx ha hb hc hp h0 h1 hR hR' hA hn hel htr.
have [e1 [e2 [s1 [s2 [hm [_ hl]]]]]] := hS; have [_ [_ [_ [HT _]]]] := hR.
have h2 : (0 < L')%Re by lra.
have hS1 : solids (at_distance c L) PEC PEC ra rb e u by do 5 split=> //.
have hS2 : solids (at_distance c L') PEC PEC ra rb e u by do 5 split=> //.
have key m k : (0 < k)%Re -> (m <= c_lmax c)%coq_nat -> (\tr (trip mie_bessels (at_distance c L) (Z.of_nat m) k) < 1)%Re ->
  [/\ \det (1%:M - trip mie_bessels (at_distance c L) (Z.of_nat m) k) <> 0, \det (1%:M - trip mie_bessels (at_distance c L') (Z.of_nat m) k) <> 0,
      (lnr mie_bessels (at_distance c L) m k < lnr mie_bessels (at_distance c L') m k)%Re & (lnr mie_bessels (at_distance c L') m k < 0)%Re].
  move=> hk hmx ht; have ho := solids_orders hS hmx.
  have [[A eA] [B eB]] := mieAB_val e1 e2 s1 s2 hm ha hb hk.
  have [_ [_ hv]] := C75_perfect_reflectors e1 e2 hx hm ha hb hk ho hc h0 h1.
  have [v [v' [N [hN [v1 v2]]]]] := hv ht.
  have hN1 fuel : (N <= fuel)%N -> rt_lndet mie_bessels trans_bessels (at_distance c L) fuel conv (Z.of_nat m) [:: k] = Some (Val [:: Fin v]) by move=> /hN [].
  have hN2 fuel : (N <= fuel)%N -> rt_lndet mie_bessels trans_bessels (at_distance c L') fuel conv (Z.of_nat m) [:: k] = Some (Val [:: Fin v']) by move=> /hN [].
  have [d1 q1] := @fin_det mie_bessels (at_distance c L) (Z.of_nat m) k A B e u conv v N eA eB hm h0 hk ho hc hN1.
  have [d2 q2] := @fin_det mie_bessels (at_distance c L') (Z.of_nat m) k A B e u conv v' N eA eB hm h2 hk ho hc hN2.
  by rewrite /lnr -q1 -q2; split.
have e10 : (0 < 1e-10)%Re by lra.
have pos n : (1 <= n)%coq_nat /\ (n <= nmax)%coq_nat -> (0 < t_deltaT t * INR n)%Re by move=> [hn1 _]; apply: Rmult_lt_0_compat => //; apply: lt_0_INR; lia.
have k0 m hmx := key m _ e10 hmx (htr m _ hmx (or_introl erefl)).
have kn m n hmx hn1 := key m _ (pos n hn1) hmx (htr m _ hmx (or_intror (ex_intro _ n (conj hn1 erefl)))).
have el d ks : elementwise_at mie_bessels c ks -> elementwise_at mie_bessels (at_distance c d) ks by move=> [a1 a2]; split; [exact: a1|apply: trans_at_ext].
have [| |m hmx|n m hn1 hmx|cut0 [cut [N [hc0 hcut hN]]]] := C66_free_energy_numeric precision hS1 hc hR hA hn.
- exact: (one_wavenumber (at_distance c L) _ _ _ _ _ e1 e2 ha hb h0 e10).
- by move=> q hq; apply: el; exact: hel.
- by have [] := k0 m hmx.
- by have [] := kn m n hmx hn1.
have [| |m hmx|n m hn1 hmx|cut0' [cut' [N' [hc0' hcut' hN']]]] := C66_free_energy_numeric precision hS2 hc hR' hA hn.
- exact: (one_wavenumber (at_distance c L') _ _ _ _ _ e1 e2 ha hb h2 e10).
- by move=> q hq; apply: el; exact: hel.
- by have [] := k0 m hmx.
- by have [] := kn m n hmx hn1.
have neg1 m k : k = 1e-10%Re \/ (exists n, ((1 <= n)%coq_nat /\ (n <= nmax)%coq_nat) /\ k = (t_deltaT t * INR n)%Re) -> (m <= c_lmax c)%coq_nat ->
  [/\ ln_abs_det (1%:M - trip mie_bessels (at_distance c L) (Z.of_nat m) k) = Fin (lnr mie_bessels (at_distance c L) m k),
      ln_abs_det (1%:M - trip mie_bessels (at_distance c L') (Z.of_nat m) k) = Fin (lnr mie_bessels (at_distance c L') m k),
      (lnr mie_bessels (at_distance c L) m k < lnr mie_bessels (at_distance c L') m k)%Re & (lnr mie_bessels (at_distance c L') m k < 0)%Re].
  move=> hk hmx; have ht := htr m k hmx hk; have kp : (0 < k)%Re by case: hk => [->|[n [hn1 ->]]]; [|exact: pos].
  have [d1 d2 l1 l2] := key m k kp hmx ht; split=> //; exact: lnd_real.
have full d ks M : d = L \/ d = L' -> ks <> nil -> (forall k, In k ks -> k = 1e-10%Re \/ (exists n, ((1 <= n)%coq_nat /\ (n <= nmax)%coq_nat) /\ k = (t_deltaT t * INR n)%Re)) ->
  stops_at precision (c_lmax c) (fun m k => ln_abs_det (1%:M - trip mie_bessels (at_distance c d) (Z.of_nat m) k)) ks M -> M = c_lmax c.
  move=> hd hne hks; apply: (no_stop precision (c_lmax c) (fun m k => lnr mie_bessels (at_distance c d) m k)) => // m k hmx /hks hk.
  have [f1 f2 l1 l2] := neg1 m k hk hmx; case: hd => ->; rewrite ?f1 ?f2; split=> //; exact: (Rlt_trans _ _ _ l1 l2).
have inK q k : In k (freqs (t_deltaT t) nmax q) -> exists n, ((1 <= n)%coq_nat /\ (n <= nmax)%coq_nat) /\ k = (t_deltaT t * INR n)%Re by exact: freqs_in.
have one k : In k [:: 1e-10%Re] -> k = 1e-10%Re \/ (exists n, ((1 <= n)%coq_nat /\ (n <= nmax)%coq_nat) /\ k = (t_deltaT t * INR n)%Re) by move=> [<-|//]; left.
have c1 : cut0 = c_lmax c by apply: (full L _ _ (or_introl erefl) _ one hc0).
have c2 : cut0' = c_lmax c by apply: (full L' _ _ (or_intror erefl) _ one hc0').
have c3 q : freqs (t_deltaT t) nmax q <> nil -> cut q = c_lmax c by move=> hq; apply: (full L _ _ (or_introl erefl) hq _ (hcut q hq)) => k /inK; right.
have c4 q : freqs (t_deltaT t) nmax q <> nil -> cut' q = c_lmax c by move=> hq; apply: (full L' _ _ (or_intror erefl) hq _ (hcut' q hq)) => k /inK; right.
exists (maxn N N') => fuel; rewrite geq_max => /andP [f1 f2] unk garbage empty.
have [t1 [F [E1 E2 E3 E4]]] := hN fuel f1 unk garbage empty; have [t2 [F' [E1' E2' E3' E4']]] := hN' fuel f2 unk garbage empty.
have EL : List.length F' = List.length F by rewrite E3 E3'.
exists t1, t2, F, F'; split=> // i hi.
have hi1 : (1 <= i.+1)%coq_nat /\ (i.+1 <= List.length F)%coq_nat by lia.
have hi2 : (1 <= i.+1)%coq_nat /\ (i.+1 <= List.length F')%coq_nat by rewrite EL.
have si : (i.+1 - 1)%coq_nat = i by lia.
have := E4 _ hi1; have := E4' _ hi2; rewrite si => -> ->; eexists; eexists; split; [reflexivity|reflexivity| |].
- apply: sliced_lt => //; first by lia.
  + by rewrite c1 c2; apply: rsum_lt => m hmx; have [] := k0 m hmx.
  + move=> n hn1; have hin := freqs_has (t_deltaT t) nmax n hn1.
    have hne : freqs (t_deltaT t) nmax (PeanoNat.Nat.div n 50) <> nil by move=> hz; rewrite hz in hin.
    rewrite (c3 _ hne) (c4 _ hne); left; apply: rsum_lt => m hmx; by have [] := kn m n hmx hn1.
- apply: sliced_neg => //; first by lia.
  + by rewrite c2; apply: rsum_neg => m hmx; have [] := k0 m hmx.
  + move=> n hn1; have hin := freqs_has (t_deltaT t) nmax n hn1.
    have hne : freqs (t_deltaT t) nmax (PeanoNat.Nat.div n 50) <> nil by move=> hz; rewrite hz in hin.
    rewrite (c4 _ hne); left; apply: rsum_neg => m hmx; by have [] := kn m n hmx hn1.
Qed.
Print Assumptions C75_free_energy.

(** ** Non-vacuity: two perfect reflectors in vacuum, 60 frequencies in two slices, three temperatures *)
Lemma far_traces mieb c m1 m2 ra rb e u nmax dT : solids c m1 m2 ra rb e u -> c_ext c = true -> (0 < dT)%Re ->
  (forall k, (0 < k)%Re -> (exists A, mieA mieb c [:: k] = Val A) /\ (exists B, mieB mieb c [:: k] = Val B)) ->
  exists L0, forall L, (L0 <= L)%Re -> forall m k, (m <= c_lmax c)%coq_nat -> k = 1e-10%Re \/ (exists n, ((1 <= n)%coq_nat /\ (n <= nmax)%coq_nat) /\ k = (dT * INR n)%Re) -> (\tr (trip mieb (at_distance c L) (Z.of_nat m) k) < 1)%Re.
Proof.
move=> hS hx hT hAB; have [_ [_ [_ [_ [hm _]]]]] := hS.
have one m k : (m <= c_lmax c)%coq_nat -> (0 < k)%Re -> exists L0, forall L, (L0 <= L)%Re -> (\tr (trip mieb (at_distance c L) (Z.of_nat m) k) < 1)%Re.
  move=> hmx hk; have [_ [o1 o2]] := solids_orders hS hmx; have [[A eA] [B eB]] := hAB k hk.
  have [L0 h] := C62_far hx eA eB hm hk Rlt_0_1 o1 o2; exists L0 => L /h [ht _]; apply: Rle_lt_trans _ ht; exact: Rle_abs.
have [L1 h1] : exists L0, forall L, (L0 <= L)%Re -> forall m, (m <= c_lmax c)%N -> (\tr (trip mieb (at_distance c L) (Z.of_nat m) 1e-10%Re) < 1)%Re.
  by apply: far_enough => m /leP hmx; apply: one => //; lra.
have [L2 h2] : exists L0, forall L, (L0 <= L)%Re -> forall m, (m <= c_lmax c)%N -> forall n, (n <= nmax)%N -> (1 <= n)%coq_nat -> (\tr (trip mieb (at_distance c L) (Z.of_nat m) (dT * INR n)%Re) < 1)%Re.
  apply: far_enough => m /leP hmx; apply: (@far_enough (fun n L => (1 <= n)%coq_nat -> (\tr (trip mieb (at_distance c L) (Z.of_nat m) (dT * INR n)%Re) < 1)%Re)) => n _.
  case: (Compare_dec.le_dec 1 n) => hn; last by exists 0%Re => L _ /hn.
  have [L0 h] := one m (dT * INR n)%Re hmx (Rmult_lt_0_compat _ _ hT (lt_0_INR _ hn)); by exists L0 => L /h.
exists (Rmax L1 L2) => L hL m k /leP hmx [->|[n [[hn1 /leP hn2] ->]]].
- exact: h1 (Rle_trans _ _ _ (Rmax_l _ _) hL) _ hmx.
- exact: h2 (Rle_trans _ _ _ (Rmax_r _ _) hL) _ hmx _ hn2 hn1.
Qed.
Example C75_mirrors : exists L0, (0 < L0)%Re /\ forall L L', (L0 <= L)%Re -> (L < L')%Re -> let t := task (1 / 10) 3 60 false in
  exists N, forall fuel, (N <= fuel)%N -> forall unk garbage empty, exists t1 t2 F F',
    [/\ free_energy (ops unk fuel mie_bessels trans_bessels (at_distance mirrors L) 0 1e-10 false garbage) empty t = (t1, Ok F),
        free_energy (ops unk fuel mie_bessels trans_bessels (at_distance mirrors L') 0 1e-10 false garbage) empty t = (t2, Ok F'),
        List.length F = Z.to_nat (pyround (3 / (1 / 10))), List.length F' = List.length F &
        forall i : nat, (i < List.length F)%coq_nat -> exists x x', [/\ List.nth_error F i = Some x, List.nth_error F' i = Some x', (x < x')%Re & (x' < 0)%Re]].
Proof.
have hS : solids mirrors PEC PEC 1 2 (eps_spec [::]) (mu_val None).
  do 2 split=> //; split; first by left.
  split; first by left.
  split; first exact: vacuum_has.
  by rewrite /=; split; [lra|lia].
have [h1 [h2 [s1 [s2 [hm _]]]]] := hS.
have d0 : (0 < 1 / 10)%Re by lra.
have p1 : (0 < 1)%Re by lra.
have p2 : (0 < 2)%Re by lra.
have i60 : INR 60 = 60%Re by rewrite INR_IZR_INZ.
have [L0 hfar] := @far_traces mie_bessels mirrors PEC PEC 1%Re 2%Re _ _ 60 (1 / 10)%Re hS erefl d0 (fun k hk => mieAB_val h1 h2 s1 s2 hm p1 p2 hk).
exists (Rmax 1 L0); split; first by have := Rmax_l 1 L0; lra.
move=> L L' hL hL' t; have g1 := Rmax_l 1 L0; have g2 := Rmax_r 1 L0.
apply: (@C75_free_energy mirrors 1%Re 2%Re _ _ 0%Re 1e-10%Re t 60 L L' hS erefl p1 p2) => //; try lra; try exact: task_ready; try lia.
- move=> q hq; apply: (vacuum_regime mirrors 1%Re 2%Re) => //; try (rewrite /=; lra).
  by move=> k r /(freqs_between _ _ _ _ d0); rewrite i60 => hk [->|[->|[//]]]; lra.
- by apply: hfar; lra.
Qed.
