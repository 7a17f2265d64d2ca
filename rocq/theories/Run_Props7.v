(** * Property C76, continued: the free energies of two perfect reflectors decrease with the largest orders *)
From Coq Require Import Reals.
From Coq Require Import List Lia Lra ZArith.
From mathcomp Require Import all_ssreflect ssralg matrix mxalgebra poly mxpoly.
From Verif Require Import Base RStruct Mat_Model Mat_Spec Thermo_Model Thermo_Spec Thermo_Proofs Geo_Model Geo_Spec Bessel_Model Scat_Model Scat_Spec Scat_Proofs Scat_Proofs7 Scat_Proofs9 Scat_Proofs10 Scat_Props2 Trans_Model Trans_Spec
  Lin_Model Lin_Spec Lin_Proofs Lin_Proofs2 RT_Model RT_Spec RT_Spec2 RT_Proofs2 RT_Proofs3 RT_Proofs4 RT_Props RT_Props2 RT_Props3 RT_Props5 RT_Props7 RT_Props8 RT_Props9 Cut_Proofs
  Run_Model Run_Spec Run_Proofs Run_Proofs2 Run_Proofs3 Run_Proofs4 Run_Proofs5 Run_Proofs6 Run_Proofs9 Run_Props Run_Props2 Run_Props3 Run_Props6.
Set Implicit Arguments.
Unset Strict Implicit.
Import GRing.Theory.
Local Open Scope ring_scope.
Delimit Scope R_scope with Re.

(** the wavenumbers of a calculation with a numeric zero-frequency term *)
Definition used (dT : R) (nmax : nat) (k : R) : Prop := k = 1e-10%Re \/ (exists n, ((1 <= n)%coq_nat /\ (n <= nmax)%coq_nat) /\ k = (dT * INR n)%Re).
Lemma used_pos dT nmax k : (0 < dT)%Re -> used dT nmax k -> (0 < k)%Re.
Proof. by move=> h [->|[n [[h1 _] ->]]]; [lra|apply: Rmult_lt_0_compat => //; apply: lt_0_INR; lia]. Qed.

(** without early stop all terms are summed *)
Lemma full_sums c ra rb e u precision conv t nmax : solids c PEC PEC ra rb e u -> (0 < ra)%Re -> (0 < rb)%Re -> (conv < 1)%Re -> (precision <= 0)%Re -> ready mie_bessels c t nmax -> t_analytic t = false -> (1 <= nmax)%coq_nat ->
  (forall q, freqs (t_deltaT t) nmax q <> nil -> elementwise_at mie_bessels c (freqs (t_deltaT t) nmax q)) ->
  (forall m k, (m <= c_lmax c)%coq_nat -> used (t_deltaT t) nmax k -> \det (1%:M - trip mie_bessels c (Z.of_nat m) k) <> 0 /\ (lnr mie_bessels c m k < 0)%Re) ->
  exists N, forall fuel, (N <= fuel)%N -> forall unk garbage empty, exists t1 F,
    [/\ free_energy (ops unk fuel mie_bessels trans_bessels c precision conv false garbage) empty t = (t1, Ok F), List.length F = Z.to_nat (pyround (t_Tmax t / t_deltaT t)) &
        forall i : nat, (i < List.length F)%coq_nat -> exists g0 g, List.nth_error F i = Some (sliced_sum g0 g (t_deltaT t) nmax i.+1) /\ g0 = rsum (fun m => lnr mie_bessels c m 1e-10%Re) (c_lmax c) /\
          forall n, (1 <= n)%coq_nat /\ (n <= nmax)%coq_nat -> g (PeanoNat.Nat.div n 50) (t_deltaT t * INR n)%Re = rsum (fun m => lnr mie_bessels c m (t_deltaT t * INR n)%Re) (c_lmax c)].
Proof.
move=> hS ha hb hc hp hR hA hn hel hneg; have [e1 [e2 [s1 [s2 [hm [hL _]]]]]] := hS.
have e10 : (0 < 1e-10)%Re by lra.
have [|//|m hmx|n m hn1 hmx|cut0 [cut [N [hc0 hcut hN]]]] := C66_free_energy_numeric precision hS hc hR hA hn.
- exact: (one_wavenumber c _ _ _ _ _ e1 e2 ha hb hL e10).
- by apply: (proj1 (hneg m _ hmx _)); left.
- by apply: (proj1 (hneg m _ hmx _)); right; exists n.
have full ks M : ks <> nil -> (forall k, In k ks -> used (t_deltaT t) nmax k) -> stops_at precision (c_lmax c) (fun m k => ln_abs_det (1%:M - trip mie_bessels c (Z.of_nat m) k)) ks M -> M = c_lmax c.
  move=> hne hks; apply: (no_stop precision (c_lmax c) (fun m k => lnr mie_bessels c m k)) => // m k hmx /hks hk.
  by have [d l] := hneg m k hmx hk; split=> //; exact: lnd_real.
have c1 : cut0 = c_lmax c by apply: full hc0 => // k [<-|//]; left.
have c3 q : freqs (t_deltaT t) nmax q <> nil -> cut q = c_lmax c by move=> hq; apply: (full _ _ hq _ (hcut q hq)) => k /(freqs_in _ _ _ _) hk; right.
exists N => fuel hf unk garbage empty; have [t1 [F [E1 E2 E3 E4]]] := hN fuel hf unk garbage empty; exists t1, F; split=> // i hi.
have hi1 : (1 <= i.+1)%coq_nat /\ (i.+1 <= List.length F)%coq_nat by lia.
have si : (i.+1 - 1)%coq_nat = i by lia.
have := E4 _ hi1; rewrite si => ->; eexists; eexists; split; [reflexivity|split; [by rewrite c1|]].
move=> n hn1; have hin := freqs_has (t_deltaT t) nmax n hn1.
have hne : freqs (t_deltaT t) nmax (PeanoNat.Nat.div n 50) <> nil by move=> hz; rewrite hz in hin.
by rewrite (c3 _ hne).
Qed.
Theorem C76_free_energy : forall c ra rb e u precision conv t nmax N M N' M',
  c_1 c = Solid PEC ra -> c_2 c = Solid PEC rb -> has (c_med c) e u -> c_ext c = true -> (0 < ra)%Re -> (0 < rb)%Re -> (0 < c_L c)%Re -> (conv < 1)%Re -> (precision <= 0)%Re ->
  (1 <= N)%coq_nat -> (N <= M)%coq_nat -> (N' <= M')%coq_nat -> (N <= N')%coq_nat -> (M <= M')%coq_nat -> (N < N')%coq_nat \/ (M < M')%coq_nat ->
  ready mie_bessels (truncated c N M) t nmax -> ready mie_bessels (truncated c N' M') t nmax -> t_analytic t = false -> (1 <= nmax)%coq_nat ->
  (forall q, freqs (t_deltaT t) nmax q <> nil -> elementwise_at mie_bessels (truncated c N M) (freqs (t_deltaT t) nmax q) /\ elementwise_at mie_bessels (truncated c N' M') (freqs (t_deltaT t) nmax q)) ->
  (forall m k, (m <= N')%coq_nat -> used (t_deltaT t) nmax k -> (\tr (trip mie_bessels (truncated c N' M') (Z.of_nat m) k) < 1)%Re) ->
  exists Nf, forall fuel, (Nf <= fuel)%N -> forall unk garbage empty, exists t1 t2 F F',
    [/\ free_energy (ops unk fuel mie_bessels trans_bessels (truncated c N M) precision conv false garbage) empty t = (t1, Ok F),
        free_energy (ops unk fuel mie_bessels trans_bessels (truncated c N' M') precision conv false garbage) empty t = (t2, Ok F'),
        List.length F = Z.to_nat (pyround (t_Tmax t / t_deltaT t)), List.length F' = List.length F &
        forall i : nat, (i < List.length F)%coq_nat -> exists x x', [/\ List.nth_error F i = Some x, List.nth_error F' i = Some x', (x' < x)%Re & (x < 0)%Re]].
Proof.
move=> c ra rb e u precision conv t nmax N M N' M' e1 e2 hm hx ha hb hL hc hp h1 h2 h3 h4 h5 hlt hR hR' hA hn hel htr.
have [_ [_ [_ [HT _]]]] := hR.
have so : solid_ok PEC by left.
have hS1 : solids (truncated c N M) PEC PEC ra rb e u by rewrite /solids /=; do 6 split=> //.
have hS2 : solids (truncated c N' M') PEC PEC ra rb e u by rewrite /solids /=; do 6 split=> //; lia.
have key m k : (m <= N)%coq_nat -> used (t_deltaT t) nmax k ->
  \det (1%:M - trip mie_bessels (truncated c N M) (Z.of_nat m) k) <> 0 /\ (lnr mie_bessels (truncated c N' M') m k < lnr mie_bessels (truncated c N M) m k /\ lnr mie_bessels (truncated c N M) m k < 0)%Re.
  move=> hmx hu; have hk := used_pos HT hu; have ho := solids_orders hS1 hmx.
  have [[A eA] [B eB]] := @mieAB_val (truncated c N M) PEC PEC ra rb k e u e1 e2 so so hm ha hb hk.
  have [[A' eA'] [B' eB']] := @mieAB_val (truncated c N' M') PEC PEC ra rb k e u e1 e2 so so hm ha hb hk.
  have [_ [_ hv]] := @C76_perfect_reflectors c ra rb e u (Z.of_nat m) k conv N M N' M' e1 e2 hx hm ha hb hL hk hc h4 h5 hlt ho.
  have [v [v' [F [hF [v1 v2]]]]] := hv (htr m k (PeanoNat.Nat.le_trans _ _ _ hmx h4) hu).
  have hN1 fuel : (F <= fuel)%N -> rt_lndet mie_bessels trans_bessels (truncated c N M) fuel conv (Z.of_nat m) [:: k] = Some (Val [:: Fin v]) by move=> /hF [].
  have hN2 fuel : (F <= fuel)%N -> rt_lndet mie_bessels trans_bessels (truncated c N' M') fuel conv (Z.of_nat m) [:: k] = Some (Val [:: Fin v']) by move=> /hF [].
  have [d1 q1] := @fin_det mie_bessels (truncated c N M) (Z.of_nat m) k A B e u conv v F eA eB hm hL hk ho hc hN1.
  have [d2 q2] := @fin_det mie_bessels (truncated c N' M') (Z.of_nat m) k A' B' e u conv v' F eA' eB' hm hL hk (cut_orders h4 h5 ho) hc hN2.
  by rewrite /lnr -q1 -q2.
have key' m k : (m <= N')%coq_nat -> used (t_deltaT t) nmax k -> \det (1%:M - trip mie_bessels (truncated c N' M') (Z.of_nat m) k) <> 0 /\ (lnr mie_bessels (truncated c N' M') m k < 0)%Re.
  move=> hmx hu; have hk := used_pos HT hu; have ho := solids_orders hS2 hmx.
  have [[A' eA'] [B' eB']] := @mieAB_val (truncated c N' M') PEC PEC ra rb k e u e1 e2 so so hm ha hb hk.
  have p0 := @pec_trace_pos (truncated c N' M') ra rb e u (Z.of_nat m) k e1 e2 hx hm ha hb hL hk ho.
  have [_ r2] := @C61_perfect_reflectors (truncated c N' M') ra rb e u (Z.of_nat m) k conv e1 e2 hm ha hb hL hk ho hc.
  have [w [F2 [hw [_ hw2]]]] := r2 (htr m k hmx hu).
  have [d2 q2] := @fin_det mie_bessels (truncated c N' M') (Z.of_nat m) k A' B' e u conv w F2 eA' eB' hm hL hk ho hc hw.
  rewrite /lnr -q2; split=> //; have aux2 (a x : R) : (a <= - x -> 0 < x -> a < 0)%Re by lra.
  exact: (aux2 _ _ hw2 p0).
have [F1 hF1] := full_sums hS1 ha hb hc hp hR hA hn (fun q hq => proj1 (hel q hq)) (fun m k hmx hu => conj (proj1 (key m k hmx hu)) (proj2 (proj2 (key m k hmx hu)))).
have [F2 hF2] := full_sums hS2 ha hb hc hp hR' hA hn (fun q hq => proj2 (hel q hq)) key'.
exists (maxn F1 F2) => fuel; rewrite geq_max => /andP [f1 f2] unk garbage empty.
have [t1 [F [E1 E2 E3]]] := hF1 fuel f1 unk garbage empty; have [t2 [F' [E1' E2' E3']]] := hF2 fuel f2 unk garbage empty.
have EL : List.length F' = List.length F by rewrite E2 E2'.
exists t1, t2, F, F'; split=> // i hi.
have hi' : (i < List.length F')%coq_nat by rewrite EL.
have [g0 [g [Q1 [Q2 Q3]]]] := E3 i hi; have [g0' [g' [Q1' [Q2' Q3']]]] := E3' i hi'.
have i1 : (1 <= i.+1)%coq_nat by lia.
have u10 : used (t_deltaT t) nmax 1e-10%Re by left.
have un n : (1 <= n)%coq_nat /\ (n <= nmax)%coq_nat -> used (t_deltaT t) nmax (t_deltaT t * INR n)%Re by move=> hn1; right; exists n.
have lt k : used (t_deltaT t) nmax k -> (rsum (fun m => lnr mie_bessels (truncated c N' M') m k) N' < rsum (fun m => lnr mie_bessels (truncated c N M) m k) N)%Re.
  move=> hu; apply: rsum_longer => // m hmx; first by have [_ []] := key m k hmx hu.
  by have [_] := key' m k (proj2 hmx) hu.
eexists; eexists; split; [exact: Q1|exact: Q1'| |].
- apply: sliced_lt => //; first by rewrite Q2 Q2'; exact: lt.
  by move=> n hn1; rewrite Q3 // Q3' //; left; exact: lt (un n hn1).
- apply: sliced_neg => //; first by rewrite Q2; apply: rsum_neg => m hmx; have [_ []] := key m _ hmx u10.
  by move=> n hn1; rewrite Q3 //; left; apply: rsum_neg => m hmx; have [_ []] := key m _ hmx (un n hn1).
Qed.
Print Assumptions C76_free_energy.

(** ** Non-vacuity: two perfect reflectors in vacuum with orders up to 3 and 4, against orders up to 5 and 6 *)
Example C76_mirrors : exists L0, (0 < L0)%Re /\ forall L, (L0 <= L)%Re -> let t := task (1 / 10) 3 60 false in let c := at_distance mirrors L in
  exists Nf, forall fuel, (Nf <= fuel)%N -> forall unk garbage empty, exists t1 t2 F F',
    [/\ free_energy (ops unk fuel mie_bessels trans_bessels (truncated c 3 4) 0 1e-10 false garbage) empty t = (t1, Ok F),
        free_energy (ops unk fuel mie_bessels trans_bessels (truncated c 5 6) 0 1e-10 false garbage) empty t = (t2, Ok F'),
        List.length F = Z.to_nat (pyround (3 / (1 / 10))), List.length F' = List.length F &
        forall i : nat, (i < List.length F)%coq_nat -> exists x x', [/\ List.nth_error F i = Some x, List.nth_error F' i = Some x', (x' < x)%Re & (x < 0)%Re]].
Proof.
pose c6 := truncated mirrors 5 6.
have hS : solids c6 PEC PEC 1 2 (eps_spec [::]) (mu_val None).
  do 2 split=> //; split; first by left.
  split; first by left.
  split; first exact: vacuum_has.
  by rewrite /=; split; [lra|lia].
have [h1 [h2 [s1 [s2 [hm _]]]]] := hS.
have d0 : (0 < 1 / 10)%Re by lra.
have p1 : (0 < 1)%Re by lra.
have p2 : (0 < 2)%Re by lra.
have i60 : INR 60 = 60%Re by rewrite INR_IZR_INZ.
have [L0 hfar] := @far_traces mie_bessels c6 PEC PEC 1%Re 2%Re _ _ 60 (1 / 10)%Re hS erefl d0 (fun k hk => mieAB_val h1 h2 s1 s2 hm p1 p2 hk).
exists (Rmax 1 L0); split; first by have := Rmax_l 1 L0; lra.
move=> L hL t c; have g1 := Rmax_l 1 L0; have g2 := Rmax_r 1 L0; have hL0 : (0 < L)%Re by lra.
apply: (@C76_free_energy c 1%Re 2%Re _ _ 0%Re 1e-10%Re t 60 3 4 5 6 erefl erefl hm erefl p1 p2 hL0) => //; try lra; try exact: task_ready; try lia.
- move=> q hq; split; apply: (vacuum_regime _ 1%Re 2%Re) => //; try (rewrite /=; lra);
  by move=> k r /(freqs_between _ _ _ _ d0); rewrite i60 => hk [->|[->|[//]]]; lra.
- have hLL : (L0 <= L)%Re by lra.
  by move=> m k hmx hu; exact: (hfar L hLL m k hmx hu).
Qed.
