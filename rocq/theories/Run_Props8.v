(** * Property C73: the trace evaluation and its error *)
From Coq Require Import Reals.
From Coq Require Import List Lia Lra ZArith.
From mathcomp Require Import all_ssreflect ssralg matrix mxalgebra poly mxpoly.
From Verif Require Import Base RStruct Mat_Model Mat_Spec Thermo_Model Thermo_Spec Thermo_Proofs Geo_Model Geo_Spec Bessel_Model Scat_Model Scat_Spec Scat_Proofs Scat_Proofs7 Scat_Proofs9 Scat_Proofs10 Scat_Props2 Trans_Model Trans_Spec
  Lin_Model Lin_Spec Lin_Proofs Lin_Proofs2 RT_Model RT_Spec RT_Spec2 RT_Proofs RT_Proofs2 RT_Proofs3 RT_Proofs4 RT_Proofs6 RT_Proofs7 RT_Proofs8 RT_Proofs9 RT_Proofs10 RT_Props RT_Props2 RT_Props3 RT_Props5 RT_Props7 RT_Props8 RT_Props9
  Run_Model Run_Spec Run_Proofs Run_Proofs2 Run_Proofs3 Run_Proofs4 Run_Proofs5 Run_Proofs6 Run_Proofs9 Run_Props Run_Props2 Run_Props3 Run_Props6 Run_Props7 Series_Proofs Series_Proofs2.
Set Implicit Arguments.
Unset Strict Implicit.
Import GRing.Theory.
Local Open Scope ring_scope.
Delimit Scope R_scope with Re.

Lemma series_contrast c m1 m2 ra rb e u m k s : c_1 c = Solid m1 ra -> c_2 c = Solid m2 rb -> has (c_med c) e u -> (0 < ra)%Re -> (0 < rb)%Re -> (0 < k)%Re ->
  some_orders c m -> contrast s m1 e u k -> contrast s m2 e u k -> series (trip exact_bessels c m k).
Proof.
move=> e1 e2 hm ha hb hk ho g1 g2.
have s1 : signed s (c_lmax c) k (mieA exact_bessels c) by rewrite /mieA e1; apply: (ext_signed _ _ ha _ _ _ hm _ hk).
have s2 : signed s (c_lssmax c) k (mieB exact_bessels c) by rewrite /mieB e2; case: (c_ext c); [apply: (ext_signed _ _ hb _ _ _ hm _ hk)|apply: (int_signed _ _ hb _ _ _ hm _ hk)].
have [d1 d2] := solid_definite ho s1 s2; have ss := contrast_sq g1.
have sq : s_of m s * s_of m s = 1 by rewrite s_ofM.
exact: (attract_series (@parity_rt exact_bessels c m k) sq sq d1 d2 sq).
Qed.
Lemma series_pec c ra rb e u m k : c_1 c = Solid PEC ra -> c_2 c = Solid PEC rb -> has (c_med c) e u -> (0 < ra)%Re -> (0 < rb)%Re -> (0 < k)%Re -> some_orders c m -> series (trip mie_bessels c m k).
Proof.
move=> e1 e2 hm ha hb hk ho.
have s1 : signed 1 (c_lmax c) k (mieA mie_bessels c) by apply: signs_signed; rewrite /mieA e1; apply: (pec_ext_signs _ _ _ _ _ _ hm ha hk).
have s2 : signed 1 (c_lssmax c) k (mieB mie_bessels c) by apply: signs_signed; rewrite /mieB e2; case: (c_ext c); [apply: (pec_ext_signs _ _ _ _ _ _ hm hb hk)|apply: (pec_int_signs _ _ _ _ _ _ hm hb hk)].
have [d1 d2] := solid_definite ho s1 s2.
have sq : s_of m 1%Re * s_of m 1%Re = 1 by rewrite s_ofM; exact: mul1r.
exact: (attract_series (@parity_rt mie_bessels c m k) sq sq d1 d2 sq).
Qed.

(** ** the two evaluations of one m and one wavenumber: every partial sum of the expansion is an upper bound, and the difference is at most
    the next term over 1 - tr M *)
Theorem C73_expansion : forall c m1 m2 ra rb e u m k s conv, c_1 c = Solid m1 ra -> c_2 c = Solid m2 rb -> has (c_med c) e u -> (0 < ra)%Re -> (0 < rb)%Re -> (0 < c_L c)%Re -> (0 < k)%Re ->
  some_orders c m -> contrast s m1 e u k -> contrast s m2 e u k -> (conv < 1)%Re -> let U := trip exact_bessels c m k in (\tr U < 1)%Re ->
  exists v F, (forall fuel, (F <= fuel)%N -> rt_lndet exact_bessels trans_bessels c fuel conv m [:: k] = Some (Val [:: Fin v])) /\
    forall N, (- rt_partial U N - \tr (mxpow U N.+1) / (1 - \tr U) / INR N.+1 <= v <= - rt_partial U N)%Re.
Proof.
move=> c m1 m2 ra rb e u m k s conv e1 e2 hm ha hb hL hk ho g1 g2 hc U ht.
have [[A eA] [B eB]] := exact_val e1 e2 (contrast_solid g1) (contrast_solid g2) hm ha hb hk.
have [N hN] := lndet_total eA eB hm hL hk (proj1 (proj2 ho)) (proj2 (proj2 ho)) hc.
have [_ _ h] := series_contrast e1 e2 hm ha hb hk ho g1 g2; have [hp hx] := h ht.
exists (ln (\det (1%:M - U))), N; split; first by move=> f hf; rewrite (hN f hf) (lnE hp).
move=> n; have [h1 h2] := hx n; move: h1 h2; rewrite -/U; move: (rt_partial U n) (_ / _ / _)%Re (ln _) => a b d; lra.
Qed.
Print Assumptions C73_expansion.
Theorem C73_perfect_reflectors : forall c ra rb e u m k conv, c_1 c = Solid PEC ra -> c_2 c = Solid PEC rb -> has (c_med c) e u -> (0 < ra)%Re -> (0 < rb)%Re -> (0 < c_L c)%Re -> (0 < k)%Re ->
  some_orders c m -> (conv < 1)%Re -> let U := trip mie_bessels c m k in (\tr U < 1)%Re ->
  exists v F, (forall fuel, (F <= fuel)%N -> rt_lndet mie_bessels trans_bessels c fuel conv m [:: k] = Some (Val [:: Fin v])) /\
    forall N, (- rt_partial U N - \tr (mxpow U N.+1) / (1 - \tr U) / INR N.+1 <= v <= - rt_partial U N)%Re.
Proof.
move=> c ra rb e u m k conv e1 e2 hm ha hb hL hk ho hc U ht; have so : solid_ok PEC by left.
have [[A eA] [B eB]] := mieAB_val e1 e2 so so hm ha hb hk.
have [N hN] := lndet_total eA eB hm hL hk (proj1 (proj2 ho)) (proj2 (proj2 ho)) hc.
have [_ _ h] := series_pec e1 e2 hm ha hb hk ho; have [hp hx] := h ht.
exists (ln (\det (1%:M - U))), N; split; first by move=> f hf; rewrite (hN f hf) (lnE hp).
move=> n; have [h1 h2] := hx n; move: h1 h2; rewrite -/U; move: (rt_partial U n) (_ / _ / _)%Re (ln _) => a b d; lra.
Qed.
Print Assumptions C73_perfect_reflectors.

(** ** mSum_roundtrips: never stops early in m, clears the force flag, and for every wavenumber the sum f(k) of ln|det(1-M_m(k))| over all m lies
    between r(k) (1 + precision tau/(1-tau)) and the returned r(k) *)
Theorem C73_sum : forall c m1 m2 ra rb e u precision tau ks, solids c m1 m2 ra rb e u -> (0 < ra)%Re -> (0 < rb)%Re -> (0 < precision)%Re -> (precision < 1)%Re -> (tau < 1)%Re ->
  ks <> nil -> (forall k, In k ks -> (0 < k)%Re) ->
  (forall mieb, (mieb = mie_bessels /\ m1 = PEC /\ m2 = PEC) \/ (mieb = exact_bessels /\ forall k, In k ks -> exists s, contrast s m1 e u k /\ contrast s m2 e u k) ->
  elementwise_at mieb c ks -> (forall m k, (m <= c_lmax c)%coq_nat -> In k ks -> (0 < \tr (trip mieb c (Z.of_nat m) k) <= tau)%Re) ->
  exists r N, forall fuel, (N <= fuel)%N -> forall unk s, sound mieb c (set_flag false s) -> exists s',
    [/\ geo_mSum_roundtrips unk fuel mieb trans_bessels c precision ks s = (s', Ok (List.map (fun k => Fin (r k)) ks)), sound mieb c s' &
        forall k, In k ks -> let f := rsum (fun m => ln (Rabs (\det (1%:M - trip mieb c (Z.of_nat m) k)))) (c_lmax c) in
          ((1 + precision * tau / (1 - tau)) * r k <= f <= r k)%Re]).
Proof.
move=> c m1 m2 ra rb e u precision tau ks hS ha hb hp0 hp1 ht hne hk mieb hcase hel htr.
have [e1 [e2 [_ [_ [hm _]]]]] := hS.
have hbl : below mieb c ks tau.
  move=> m k hmx hin U; split; last exact: htr.
  rewrite {}/U.
  have ho := solids_orders hS hmx.
  case: hcase => [[-> [q1 q2]]|[-> h]]; first by subst m1 m2; exact: (series_pec e1 e2 hm ha hb (hk k hin) ho).
  by have [s [g1 g2]] := h k hin; exact: (series_contrast e1 e2 hm ha hb (hk k hin) ho g1 g2).
have hg : good mieb c ks by [].
have [terms [N hN]] := sum_run hS hp0 hp1 ht hg hbl; exists (tsum mieb c terms), N => fuel hf unk s hs.
by have [h1 h2] := hN fuel hf; have [s' [hs' E]] := h2 unk s hs; exists s'; split.
Qed.
Print Assumptions C73_sum.

(** ** free_energy with evaluation = "trace" (numeric zero-frequency term) *)
Theorem C73_free_energy : forall c m1 m2 ra rb e u precision tau t nmax, solids c m1 m2 ra rb e u -> (0 < ra)%Re -> (0 < rb)%Re -> (0 < precision)%Re -> (precision < 1)%Re -> (tau < 1)%Re ->
  (forall mieb, (mieb = mie_bessels /\ m1 = PEC /\ m2 = PEC) \/ (mieb = exact_bessels /\ forall k, used (t_deltaT t) nmax k -> exists s, contrast s m1 e u k /\ contrast s m2 e u k) ->
  ready mieb c t nmax -> t_analytic t = false -> (1 <= nmax)%coq_nat ->
  elementwise_at mieb c [:: 1e-10%Re] -> (forall q, freqs (t_deltaT t) nmax q <> nil -> elementwise_at mieb c (freqs (t_deltaT t) nmax q)) ->
  (forall m k, (m <= c_lmax c)%coq_nat -> used (t_deltaT t) nmax k -> (0 < \tr (trip mieb c (Z.of_nat m) k) <= tau)%Re) ->
  exists N, forall fuel, (N <= fuel)%N -> forall conv unk garbage empty, exists t' F,
    [/\ free_energy (ops unk fuel mieb trans_bessels c precision conv true garbage) empty t = (t', Ok F), sound mieb c (t_geom t'),
        List.length F = Z.to_nat (pyround (t_Tmax t / t_deltaT t)) &
        forall i : nat, (1 <= i)%coq_nat /\ (i <= List.length F)%coq_nat -> exists x, List.nth_error F (i - 1)%coq_nat = Some x /\
          let f k := rsum (fun m => ln (Rabs (\det (1%:M - trip mieb c (Z.of_nat m) k)))) (c_lmax c) in let X := sliced_sum (f 1e-10%Re) (fun _ => f) (t_deltaT t) nmax i in
          ((1 + precision * tau / (1 - tau)) * x <= X <= x)%Re]).
Proof.
move=> c m1 m2 ra rb e u precision tau t nmax hS ha hb hp0 hp1 ht mieb hcase hR hA hn hel0 hel htr.
have [e1 [e2 [_ [_ [hm _]]]]] := hS; have [_ [_ [_ [HT _]]]] := hR.
have key m k : (m <= c_lmax c)%coq_nat -> used (t_deltaT t) nmax k -> series (trip mieb c (Z.of_nat m) k).
  move=> hmx hu; have ho := solids_orders hS hmx; have hk := used_pos HT hu.
  case: hcase => [[-> [q1 q2]]|[-> h]]; first by subst m1 m2; exact: (series_pec e1 e2 hm ha hb hk ho).
  by have [s [g1 g2]] := h k hu; exact: (series_contrast e1 e2 hm ha hb hk ho g1 g2).
have b0 : below mieb c [:: 1e-10%Re] tau.
  have u0 : used (t_deltaT t) nmax 1e-10%Re by left.
  by move=> m k hmx [<-|//] U; split; [exact: key|exact: htr].
have b1 n : (1 <= n)%coq_nat /\ (n <= nmax)%coq_nat -> below mieb c [:: (t_deltaT t * INR n)%Re] tau.
  move=> hn1; have u1 : used (t_deltaT t) nmax (t_deltaT t * INR n)%Re by right; exists n.
  by move=> m k hmx [<-|//] U; split; [exact: key|exact: htr].
exact: (energy_run hS hp0 hp1 ht hR hA hn hel0 hel b0 b1).
Qed.
Print Assumptions C73_free_energy.

(** ** Non-vacuity: two perfect reflectors in vacuum, far apart: with precision 1/1000 the trace evaluation is off by at most 1/1000 *)
Lemma far_traces_tau mieb c m1 m2 ra rb e u nmax dT tau : solids c m1 m2 ra rb e u -> c_ext c = true -> (0 < dT)%Re -> (0 < tau)%Re ->
  (forall k, (0 < k)%Re -> (exists A, mieA mieb c [:: k] = Val A) /\ (exists B, mieB mieb c [:: k] = Val B)) ->
  exists L0, forall L, (L0 <= L)%Re -> forall m k, (m <= c_lmax c)%coq_nat -> used dT nmax k -> (\tr (trip mieb (at_distance c L) (Z.of_nat m) k) < tau)%Re.
Proof.
move=> hS hx hT ht hAB; have [_ [_ [_ [_ [hm _]]]]] := hS.
have one m k : (m <= c_lmax c)%coq_nat -> (0 < k)%Re -> exists L0, forall L, (L0 <= L)%Re -> (\tr (trip mieb (at_distance c L) (Z.of_nat m) k) < tau)%Re.
  move=> hmx hk; have [_ [o1 o2]] := solids_orders hS hmx; have [[A eA] [B eB]] := hAB k hk.
  have [L0 h] := C62_far hx eA eB hm hk ht o1 o2; exists L0 => L /h [h' _]; apply: Rle_lt_trans _ h'; exact: Rle_abs.
have [L1 h1] : exists L0, forall L, (L0 <= L)%Re -> forall m, (m <= c_lmax c)%N -> (\tr (trip mieb (at_distance c L) (Z.of_nat m) 1e-10%Re) < tau)%Re.
  by apply: far_enough => m /leP hmx; apply: one => //; lra.
have [L2 h2] : exists L0, forall L, (L0 <= L)%Re -> forall m, (m <= c_lmax c)%N -> forall n, (n <= nmax)%N -> (1 <= n)%coq_nat -> (\tr (trip mieb (at_distance c L) (Z.of_nat m) (dT * INR n)%Re) < tau)%Re.
  apply: far_enough => m /leP hmx; apply: (@far_enough (fun n L => (1 <= n)%coq_nat -> (\tr (trip mieb (at_distance c L) (Z.of_nat m) (dT * INR n)%Re) < tau)%Re)) => n _.
  case: (Compare_dec.le_dec 1 n) => hn; last by exists 0%Re => L _ /hn.
  have [L0 h] := one m (dT * INR n)%Re hmx (Rmult_lt_0_compat _ _ hT (lt_0_INR _ hn)); by exists L0 => L /h.
exists (Rmax L1 L2) => L hL m k /leP hmx [->|[n [[hn1 /leP hn2] ->]]].
- exact: h1 (Rle_trans _ _ _ (Rmax_l _ _) hL) _ hmx.
- exact: h2 (Rle_trans _ _ _ (Rmax_r _ _) hL) _ hmx _ hn2 hn1.
Qed.
Example C73_mirrors : exists L0, (0 < L0)%Re /\ forall L, (L0 <= L)%Re -> let t := task (1 / 10) 3 60 false in let c := at_distance mirrors L in
  exists N, forall fuel, (N <= fuel)%N -> forall conv unk garbage empty, exists t' F,
    [/\ free_energy (ops unk fuel mie_bessels trans_bessels c (1 / 1000) conv true garbage) empty t = (t', Ok F), List.length F = Z.to_nat (pyround (3 / (1 / 10))) &
        forall i : nat, (1 <= i)%coq_nat /\ (i <= List.length F)%coq_nat -> exists x, List.nth_error F (i - 1)%coq_nat = Some x /\
          let f k := rsum (fun m => ln (Rabs (\det (1%:M - trip mie_bessels c (Z.of_nat m) k)))) (c_lmax c) in let X := sliced_sum (f 1e-10%Re) (fun _ => f) (1 / 10) 60 i in
          ((1 + 1 / 1000) * x <= X <= x)%Re].
Proof.
have hS L : (0 < L)%Re -> solids (at_distance mirrors L) PEC PEC 1 2 (eps_spec [::]) (mu_val None).
  move=> hL; do 2 split=> //; split; first by left.
  split; first by left.
  split; first exact: vacuum_has.
  by rewrite /=; split; [lra|lia].
have p1 : (0 < 1)%Re by lra.
have p2 : (0 < 2)%Re by lra.
have hS0 := hS 1%Re p1; have [h1 [h2 [s1 [s2 [hm _]]]]] := hS0.
have d0 : (0 < 1 / 10)%Re by lra.
have t0 : (0 < 1 / 2)%Re by lra.
have i60 : INR 60 = 60%Re by rewrite INR_IZR_INZ.
have [L0 hfar] := @far_traces_tau mie_bessels (at_distance mirrors 1) PEC PEC 1%Re 2%Re _ _ 60 (1 / 10)%Re (1 / 2)%Re hS0 erefl d0 t0 (fun k hk => mieAB_val h1 h2 s1 s2 hm p1 p2 hk).
exists (Rmax 1 L0); split; first by have := Rmax_l 1 L0; lra.
move=> L hL t c; have g1 := Rmax_l 1 L0; have g2 := Rmax_r 1 L0; have hL0 : (0 < L)%Re by lra.
have hLL : (L0 <= L)%Re by lra.
have hSL := hS L hL0.
have q0 : (0 < 1 / 1000)%Re by lra.
have q1 : (1 / 1000 < 1)%Re by lra.
have q2 : (1 / 2 < 1)%Re by lra.
have e10 : (0 < 1e-10)%Re by lra.
have n60 : (1 <= 60)%coq_nat by lia.
have hel0 : elementwise_at mie_bessels c [:: 1e-10%Re] by exact: (one_wavenumber c _ _ _ _ _ erefl erefl p1 p2 hL0 e10).
have hel q : freqs (1 / 10) 60 q <> nil -> elementwise_at mie_bessels c (freqs (1 / 10) 60 q).
  move=> hq; apply: (vacuum_regime c 1%Re 2%Re) => //; try (rewrite /=; lra).
  by move=> k r /(freqs_between _ _ _ _ d0); rewrite i60 => hk [->|[->|[//]]]; lra.
have htr m k : (m <= c_lmax c)%coq_nat -> used (1 / 10) 60 k -> (0 < \tr (trip mie_bessels c (Z.of_nat m) k) <= 1 / 2)%Re.
  move=> hmx hu; have hk := used_pos d0 hu; split; last by left; exact: (hfar L hLL m k hmx hu).
  exact: (@pec_trace_pos c 1%Re 2%Re _ _ (Z.of_nat m) k erefl erefl erefl hm p1 p2 hL0 hk (solids_orders hSL hmx)).
have [N hN] := @C73_free_energy c PEC PEC 1%Re 2%Re _ _ (1 / 1000)%Re (1 / 2)%Re t 60 hSL p1 p2 q0 q1 q2 mie_bessels (or_introl (conj erefl (conj erefl erefl))) (task_ready _ _ _ _ _ d0) erefl n60 hel0 hel htr.
exists N => fuel hf conv unk garbage empty; have [t' [F [E1 _ E3 E4]]] := hN fuel hf conv unk garbage empty.
exists t', F; split=> // i hi; have [x [Ex hx]] := E4 i hi; exists x; split=> //.
have e : (1 / 1000 * (1 / 2) / (1 - 1 / 2) = 1 / 1000)%Re by lra.
by rewrite e in hx.
Qed.
