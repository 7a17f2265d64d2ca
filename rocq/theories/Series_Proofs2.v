(** * The expansion of -ln det(1 - M) in traces of powers for round trips of definite sign *)
From Coq Require Import Reals.
From Coq Require Import List Lia Lra ZArith.
From mathcomp Require Import all_ssreflect ssralg ssrnum matrix mxalgebra poly mxpoly.
From Verif Require Import Base RStruct Mat_Model Mat_Spec Thermo_Model Thermo_Spec Geo_Model Geo_Spec Bessel_Model Scat_Model Scat_Spec Trans_Model Trans_Spec
  Lin_Model Lin_Spec Bal_Proofs Lin_Proofs Trip_Proofs Lin_Proofs2 Lin_Props RT_Model RT_Spec RT_Spec2 RT_Proofs RT_Proofs2 RT_Proofs3 RT_Proofs4 RT_Proofs6 RT_Proofs7 RT_Proofs8 RT_Props RT_Props2 RT_Props3 Exp_Proofs Exp_Proofs2
  Run_Model Run_Spec Run_Proofs Run_Proofs2 Run_Proofs3 Run_Proofs4 Run_Props Run_Props3 Series_Proofs.
Set Implicit Arguments.
Unset Strict Implicit.
Import GRing.Theory Num.Theory.
Local Open Scope ring_scope.
Delimit Scope R_scope with Re.

Definition series n (U : 'M[R]_n) : Prop :=
  [/\ forall j, (0 <= \tr (mxpow U j.+1))%Re, forall j, (\tr (mxpow U j.+2) <= \tr U * \tr (mxpow U j.+1))%Re &
      (\tr U < 1)%Re -> (0 < \det (1%:M - U))%Re /\
        forall N, (rt_partial U N <= - ln (\det (1%:M - U)) <= rt_partial U N + \tr (mxpow U N.+1) / (1 - \tr U) / INR N.+1)%Re].
Lemma series_gram p q (B : 'M[R]_(p, q)) : series (B *m B^T).
Proof.
split; first by move=> j; exact: gram_pow.
  by move=> j; have [_ h] := tr_pow_le B j.+1; rewrite Rmult_comm; move: h; rewrite Rmult_comm.
move=> ht; have [_ [p1 _]] := psd_small (psd_gram B) ht; have [_ d] := one_minus ht p1; split=> // N.
exact: expansion.
Qed.
Lemma partial_same n n' (U : 'M[R]_n) (U' : 'M[R]_n') N : (forall j, \tr (mxpow U j.+1) = \tr (mxpow U' j.+1)) -> rt_partial U N = rt_partial U' N.
Proof. by move=> h; rewrite /rt_partial; apply: eq_big_nat => -[|j] // _; rewrite h. Qed.
Lemma series_same n n' (U : 'M[R]_n) (U' : 'M[R]_n') : (forall j, \tr (mxpow U j.+1) = \tr (mxpow U' j.+1)) -> \det (1%:M - U) = \det (1%:M - U') -> series U' -> series U.
Proof.
move=> ht hd [h1 h2 h3]; have t1 : \tr U = \tr U' by have := ht 0%N; rewrite /mxpow /= !mulmx1.
split; [by move=> j; rewrite ht|by move=> j; rewrite !ht t1|].
by rewrite t1 hd => /h3 [hp h]; split=> // N; rewrite (partial_same N ht) ht.
Qed.
Section Definite.
Context (n ns : nat) (e : roundtrip) (s1 s2 : R) (hp : parity n ns e) (h1 : s1 * s1 = 1) (h2 : s2 * s2 = 1).
Context (d1 : definite s1 n (fun i => aTE e i * exp (a2 e i)) (fun i => aTM e i * exp (a2 e i))).
Context (d2 : definite s2 ns (fun i => bTE e i * exp (b2 e i)) (fun i => bTM e i * exp (b2 e i))).
Lemma attract_series : s1 * s2 = 1 -> series (round_trip n ns e).
Proof.
move=> hs; have [B [hd ht _]] := definite_gram hp h1 h2 d1 d2.
by apply: (series_same _ _ (series_gram B)) => [j|]; [rewrite ht hs expr1n mul1r|rewrite hd hs scale1r].
Qed.
End Definite.

(** ** the error of a partial sum whose last term is relatively small *)
Lemma partial_pos n (U : 'M[R]_n) N : series U -> (0 < \tr U)%Re -> (0 < rt_partial U N.+1)%Re.
Proof.
move=> [h _ _] h0; elim: N => [|N IH].
  by rewrite /rt_partial big_nat1 /mxpow /= mulmx1 /Rdiv Rinv_1 Rmult_1_r.
have -> : rt_partial U N.+2 = (rt_partial U N.+1 + \tr (mxpow U N.+2) / INR N.+2)%Re by rewrite /rt_partial big_nat_recr.
have p : (0 < INR N.+2)%Re by apply: lt_0_INR; lia.
have q : (0 <= \tr (mxpow U N.+2) / INR N.+2)%Re by apply: Rmult_le_pos => //; left; apply: Rinv_0_lt_compat.
by move: q IH; set a := (_ / _)%Re; lra.
Qed.
Lemma series_close n (U : 'M[R]_n) N p tau : series U -> (0 < \tr U)%Re -> (\tr U <= tau)%Re -> (tau < 1)%Re -> (0 <= p)%Re ->
  (\tr (mxpow U N.+1) / INR N.+1 <= p * rt_partial U N.+1)%Re -> close (p * tau / (1 - tau)) (- rt_partial U N.+1) (ln (\det (1%:M - U))).
Proof.
move=> hs h0 ht ht1 hp hl; have hpos := partial_pos N hs h0; have [a1 a2 a3] := hs.
have h1 : (\tr U < 1)%Re by lra.
have [_ hN] := a3 h1; have [e1 e2] := hN N.+1.
have b1 := a1 N; have b2 := a2 N; have b3 := a1 N.+1.
have n1 : (0 < INR N.+1)%Re by apply: lt_0_INR; lia.
have n2 : (INR N.+1 <= INR N.+2)%Re by apply: le_INR; lia.
move: hl e1 e2 hpos b1 b2 b3 n1 n2 h0 ht h1; move: (rt_partial U N.+1) (ln _) (\tr (mxpow U N.+1)) (\tr (mxpow U N.+2)) (\tr U) (INR N.+1) (INR N.+2) => P v x y t i i' hl e1 e2 hpos b1 b2 b3 n1 n2 h0 ht h1.
have k1 : (y / (1 - t) / i' <= t / (1 - t) * (x / i))%Re.
  have -> : (t / (1 - t) * (x / i) = t * x / (1 - t) / i)%Re by field; lra.
  apply: Rmult_le_compat.
  - by apply: Rmult_le_pos => //; left; apply: Rinv_0_lt_compat; lra.
  - by left; apply: Rinv_0_lt_compat; lra.
  - by apply: Rmult_le_compat_r => //; left; apply: Rinv_0_lt_compat; lra.
  - by apply: Rinv_le_contravar; lra.
have k2 : (0 <= t / (1 - t) <= tau / (1 - tau))%Re.
  split; first by apply: Rmult_le_pos; [lra|left; apply: Rinv_0_lt_compat; lra].
  apply: Rmult_le_compat; [lra|left; apply: Rinv_0_lt_compat; lra|lra|apply: Rinv_le_contravar; lra].
have k3 : (t / (1 - t) * (x / i) <= tau / (1 - tau) * (p * P))%Re.
  apply: Rmult_le_compat => //; [by case: k2| |by case: k2].
  by apply: Rmult_le_pos => //; left; apply: Rinv_0_lt_compat.
rewrite /close; have -> : ((1 + p * tau / (1 - tau)) * - P = - (P + tau / (1 - tau) * (p * P)))%Re by field; lra.
lra.
Qed.

(** ** mSum_roundtrips *)
Lemma least (f : R -> R) (l : list R) : (forall k, In k l -> (0 < f k)%Re) -> exists t, (0 < t)%Re /\ forall k, In k l -> (t <= f k)%Re.
Proof.
elim: l => [|k l IH] h; first by exists 1%Re; split=> //; lra.
have [t [ht h']] := IH (fun k hk => h k (or_intror hk)); have h0 := h k (or_introl erefl).
exists (Rmin t (f k)); split; first exact: Rmin_pos.
by move=> k1 [<-|hk]; [exact: Rmin_r|apply: Rle_trans (Rmin_l _ _) _; exact: h'].
Qed.
Section Trips.
Context (mieb : mbessels) (c : config) (m1 m2 : material) (ra rb : R) (e u : R -> R) (hS : solids c m1 m2 ra rb e u) (precision : R) (hp0 : (0 < precision)%Re) (hp1 : (precision < 1)%Re).
Lemma trips_run ks A B m : good mieb c ks -> mieA mieb c ks = Val A -> mieB mieb c ks = Val B -> (m <= c_lmax c)%coq_nat ->
  (forall k, In k ks -> let U := trip mieb c (Z.of_nat m) k in series U /\ (0 < \tr U < 1)%Re) ->
  exists terms N, (forall k, In k ks -> (\tr (mxpow (trip mieb c (Z.of_nat m) k) terms.+1) / INR terms.+1 <= precision * rt_partial (trip mieb c (Z.of_nat m) k) terms.+1)%Re) /\
    forall fuel, (N <= fuel)%N -> forall unk s, sound mieb c (set_flag false s) -> (m <= 1)%coq_nat \/ g_K s = Some ks ->
      s_trips unk fuel mieb trans_bessels c precision m ks s = (loaded ks A B s, Ok (List.map (fun k => Fin (- rt_partial (trip mieb c (Z.of_nat m) k) terms.+1)) ks)).
Proof.
move=> hg eA eB hmx hU; have [V eV] := solids_trans hS (Z.of_nat m) hg.
have [h1 [h2 [s1 [s2 [hm [hL [hl hls]]]]]]] := hS; have [hne [hp hel]] := hg.
have [M [g [eM hM hsim]]] := supermatrix_round_trip (List.length ks) (n1 c (Z.of_nat m)) (n2 c (Z.of_nat m)) (pack (Z.of_nat m) A B V).
have hn : (0 < n1 c (Z.of_nat m))%N by rewrite /n1 /lmin; apply/ltP; lia.
have hn2 : n1 c (Z.of_nat m) = 1%N \/ (0 < n2 c (Z.of_nat m))%N by right; rewrite /n2 /lmin; apply/ltP; lia.
have d0 : (0 < List.length ks)%N by move: hne; case: (ks).
pose K q := List.nth q ks 0%Re.
have inK q : (q < List.length ks)%N -> In (K q) ks by move=> /ltP hq; exact: List.nth_In.
have trE q j : (q < List.length ks)%N -> \tr (mxpow (g q) j) = \tr (mxpow (trip mieb c (Z.of_nat m) (K q)) j).
  move=> hq; have [sim _] := hsim q hq; rewrite (similar_tr (similar_pow j sim)); congr (\tr (mxpow _ j)).
  by move/ltP: hq => hq; have := @coefs_many mieb c m1 m2 ra rb e u ks h1 h2 s1 s2 hm hL hne hp hel (Z.of_nat m) A B V q eA eB eV hq; move=> /same_round_trip.
have paE q N : (q < List.length ks)%N -> rt_partial (g q) N = rt_partial (trip mieb c (Z.of_nat m) (K q)) N by move=> hq; apply: partial_same => j; exact: trE.
have [t [ht tle]] := @least (fun k => \tr (trip mieb c (Z.of_nat m) k)) ks (fun k hk => proj1 (proj2 (hU k hk))).
have [|k j hk hj|N hN] := @C21_automatic_returns _ _ M g t 1%Re precision hM d0 ht hp0.
- by move=> k hk; have := trE k 1%N hk; rewrite /mxpow /= !mulmx1 => ->; apply: tle; exact: inK.
- rewrite trE //; have [[a1 a2 _] [b0 b1]] := hU _ (inK k hk); case: j hj => // j _; split; first exact: a1.
  elim: j => [|j IH]; first by rewrite /mxpow /= mulmx1; left.
  have := a2 j; have := a1 j; move: IH b0 b1; move: (\tr (trip _ _ _ _)) (\tr (mxpow _ j.+1)) (\tr (mxpow _ j.+2)) => x y z IH b0 b1 y0 hz; nra.
have [[N1 l] hr] := hN N (leqnn N).
have [terms0 [t0 _ el e1 e2]] := C21_automatic_records_one_too_many_refuted hM hr.
case: terms0 t0 el e1 e2 => // terms _ el e1 e2.
have h1t : (1 < terms.+1)%N by case: terms e1 e2 el => // e1; have := e1 erefl; lra.
have pos q : (q < List.length ks)%N -> (0 < rt_partial (g q) terms.+1)%Re by move=> hq; rewrite paE //; have [hs [b0 _]] := hU _ (inK q hq); exact: partial_pos.
exists terms, N; split.
  move=> k /(List.In_nth _ _ 0%Re) [q [/ltP hq ek]]; have := e2 h1t d0 (fun q hq => Rgt_not_eq _ _ (pos q hq)) q hq.
  rewrite (Rabs_pos_eq (rt_partial _ _)); last by left; exact: pos.
  rewrite trE // paE // /K ek => h; apply: Rle_trans (Rle_abs _) h.
move=> fuel hf unk s hs hK.
have hd := good_hd hg.
have key : s_blocks unk mieb trans_bessels c (Z.of_nat m) ks (set_flag false s) = (loaded ks A B s, Ok (block_arrays (List.length ks) (n1 c (Z.of_nat m)) (n2 c (Z.of_nat m)) (pack (Z.of_nat m) A B V))).
  rewrite /s_blocks /mbind (@elements_run unk mieb trans_bessels c (Z.of_nat m) ks (set_flag false s) A B V hs eA eB eV); last by case: hK => [h|h]; [left; lia|right].
  by rewrite scale_ok.
move: key eM; move: (block_arrays _ _ _ _) => Bs key eM.
have -> : List.map (fun k => Fin (- rt_partial (trip mieb c (Z.of_nat m) k) terms.+1)) ks = List.map Fin l.
  rewrite el List.map_map (map_seq_nth (fun k => Fin (- rt_partial (trip mieb c (Z.of_nat m) k) terms.+1)) ks).
  by apply: List.map_ext_in => q /List.in_seq [_ /ltP hq]; rewrite paE.
have run : s_super unk mieb trans_bessels c m ks false s = (loaded ks A B s, Ok M).
  rewrite /s_super /mbind /put /s_blocks_all; move: key hd hne; clear -eM; case: (ks) => [//|k rest] key /= hd _.
  by case: Reqb_spec => // _; rewrite key /= eM.
by rewrite /s_trips /mbind run (roundtrips_mono _ _ _ _ _ hr) //; apply/leP.
Qed.
Lemma choices (T : Type) (Q : nat -> T -> nat -> Prop) n : (forall q, (q <= n)%N -> exists M N, forall fuel, (N <= fuel)%N -> Q q M fuel) ->
  exists (cut : nat -> T) N, forall fuel, (N <= fuel)%N -> forall q, (q <= n)%N -> Q q (cut q) fuel.
Proof.
elim: n => [|n IH] h.
  by have [M [N hN]] := h 0%N isT; exists (fun=> M), N => fuel hf [|//] _; apply: hN.
have [cut [N1 h1]] := IH (fun m hm => h m (leqW hm)); have [M [N2 h2]] := h n.+1 (leqnn _).
exists (fun q => if q == n.+1 then M else cut q), (maxn N1 N2) => fuel; rewrite geq_max => /andP [f1 f2] q.
by rewrite leq_eqVlt ltnS => /orP [/eqP ->|hq]; [rewrite eqxx; exact: h2|rewrite ltn_eqF //; exact: h1].
Qed.
Definition tsum (terms : nat -> nat) (k : R) : R := rsum (fun m => (- rt_partial (trip mieb c (Z.of_nat m) k) (terms m).+1)%Re) (c_lmax c).
Definition below (ks : list R) (tau : R) : Prop := forall m k, (m <= c_lmax c)%coq_nat -> In k ks -> let U := trip mieb c (Z.of_nat m) k in series U /\ (0 < \tr U <= tau)%Re.
Lemma sum_run ks tau : (tau < 1)%Re -> good mieb c ks -> below ks tau -> exists terms N, forall fuel, (N <= fuel)%N ->
  (forall k, In k ks -> close (precision * tau / (1 - tau)) (tsum terms k) (rsum (fun m => lnr mieb c m k) (c_lmax c))) /\
  forall unk s, sound mieb c (set_flag false s) -> exists s', sound mieb c s' /\
    geo_mSum_roundtrips unk fuel mieb trans_bessels c precision ks s = (s', Ok (List.map (fun k => Fin (tsum terms k)) ks)).
Proof.
move=> ht hg hU; have [A [B [eA eB]]] := solids_coefs hS hg.
have hU1 m k : (m <= c_lmax c)%coq_nat -> In k ks -> let U := trip mieb c (Z.of_nat m) k in series U /\ (0 < \tr U < 1)%Re.
  by move=> hm hk U; have [h1 [h2 h3]] := hU m k hm hk; split=> //; split=> //; apply: Rle_lt_trans h3 ht.
have [m hm|terms [N hN]] := @choices nat (fun m terms fuel =>
    (forall k, In k ks -> (\tr (mxpow (trip mieb c (Z.of_nat m) k) terms.+1) / INR terms.+1 <= precision * rt_partial (trip mieb c (Z.of_nat m) k) terms.+1)%Re) /\
    forall unk s, sound mieb c (set_flag false s) -> (m <= 1)%coq_nat \/ g_K s = Some ks ->
      s_trips unk fuel mieb trans_bessels c precision m ks s = (loaded ks A B s, Ok (List.map (fun k => Fin (- rt_partial (trip mieb c (Z.of_nat m) k) terms.+1)) ks))) (c_lmax c).
  by move/leP: hm => hm; have [terms [N [h1 h2]]] := trips_run hg eA eB hm (fun k hk => hU1 m k hm hk); exists terms, N => fuel hf; split=> //; exact: h2.
exists terms, N => fuel hf; split.
  move=> k hk; apply: rsum_close => m hm; have hm' := introT leP hm; have [h1 _] := hN fuel hf m hm'.
  have [hs [p0 p1]] := hU m k hm hk; have [_ _ a3] := hs; have [dp _] := a3 (Rle_lt_trans _ _ _ p1 ht).
  rewrite /lnr (Rabs_pos_eq (\det _)); last by left.
  by apply: series_close => //; [left|exact: h1].
move=> unk s hs; exists (loaded ks A B s); have hl : sound mieb c (loaded ks A B s) := sound_loaded mieb c ks _ A B hs eA eB; split=> //.
rewrite /geo_mSum_roundtrips; apply: (roundtrips_full precision _ (c_lmax c) ks (fun m k => (- rt_partial (trip mieb c (Z.of_nat m) k) (terms m).+1)%Re)).
- by left.
- by have [] := hg.
- move=> m [hm1 hm2]; have [_ h2] := hN fuel hf m (introT leP hm2).
  have hl' : sound mieb c (set_flag false (loaded ks A B s)) by [].
  by rewrite (h2 unk _ hl' (or_intror erefl)).
- move=> m k hm hk; have [h1 [h2 _]] := hU m k hm hk; have := partial_pos (terms m) h1 h2; move: (rt_partial _ _) => x; lra.
- have [_ h2] := hN fuel hf 0%N isT; apply: h2 => //; left; lia.
Qed.
Lemma energy_run t nmax tau : (tau < 1)%Re -> ready mieb c t nmax -> t_analytic t = false -> (1 <= nmax)%coq_nat ->
  elementwise_at mieb c [:: 1e-10%Re] -> (forall q, freqs (t_deltaT t) nmax q <> nil -> elementwise_at mieb c (freqs (t_deltaT t) nmax q)) ->
  below [:: 1e-10%Re] tau -> (forall n : nat, (1 <= n)%coq_nat /\ (n <= nmax)%coq_nat -> below [:: (t_deltaT t * INR n)%Re] tau) ->
  exists N, forall fuel, (N <= fuel)%N -> forall conv unk garbage empty, exists t' F,
    [/\ free_energy (ops unk fuel mieb trans_bessels c precision conv true garbage) empty t = (t', Ok F), sound mieb c (t_geom t'),
        List.length F = Z.to_nat (pyround (t_Tmax t / t_deltaT t)) &
        forall i : nat, (1 <= i)%coq_nat /\ (i <= List.length F)%coq_nat -> exists x, List.nth_error F (i - 1)%coq_nat = Some x /\
          close (precision * tau / (1 - tau)) x
            (sliced_sum (rsum (fun m => lnr mieb c m 1e-10%Re) (c_lmax c)) (fun _ k => rsum (fun m => lnr mieb c m k) (c_lmax c)) (t_deltaT t) nmax i)].
Proof.
move=> ht hR hA hn hel0 hel hb0 hb; have [Hn [Hp [Hf [HT [Hnone Hs]]]]] := hR.
have g0 : good mieb c [:: 1e-10%Re] by split=> //; split=> // k [<-|//]; lra.
have [T0 [N0 h0]] := sum_run ht g0 hb0.
have [q hq|T [N hN]] := @choices (nat -> nat) (fun q terms fuel => freqs (t_deltaT t) nmax q <> nil ->
  (forall k, In k (freqs (t_deltaT t) nmax q) -> close (precision * tau / (1 - tau)) (tsum terms k) (rsum (fun m => lnr mieb c m k) (c_lmax c))) /\
  forall unk s, sound mieb c (set_flag false s) -> exists s', sound mieb c s' /\
    geo_mSum_roundtrips unk fuel mieb trans_bessels c precision (freqs (t_deltaT t) nmax q) s = (s', Ok (List.map (fun k => Fin (tsum terms k)) (freqs (t_deltaT t) nmax q)))) nmax.
  case: (List.list_eq_dec Req_EM_T (freqs (t_deltaT t) nmax q) nil) => [->|hne]; first by exists (fun=> 0%N), 0%N.
  have [||terms [N hN]] := @sum_run (freqs (t_deltaT t) nmax q) tau ht.
  - by split=> //; split; [move=> k /(@freqs_pos _ _ _ _ HT) [n [_ [_ h]]]|exact: hel].
  - by move=> m k hm hk; have [n [hn1 [-> _]]] := @freqs_pos _ _ _ _ HT hk; apply: (hb n hn1 m _ hm); left.
  - by exists terms, N => fuel hf _; apply: hN.
exists (maxn N0 N) => fuel; rewrite geq_max => /andP [f0 f1] conv unk garbage empty.
have HT0 : t_deltaT t <> 0%Re by lra.
have fin (ks : list R) terms s s' : geo_mSum_roundtrips unk fuel mieb trans_bessels c precision ks s = (s', Ok (List.map (fun k => Fin (tsum terms k)) ks)) ->
  s_finite unk (geo_mSum_roundtrips unk fuel mieb trans_bessels c precision ks) s = (s', Ok (List.map (tsum terms) ks)).
  by move=> E; rewrite /s_finite /mbind E -(List.map_map (tsum terms) Fin) finite_map.
have sf s : sound mieb c s -> sound mieb c (set_flag false s) by case=> _ h; split.
have [||q hq s hs|t' [F [E1 [E2 [E3 E4]]]]] := @free_energy_run _ (ops unk fuel mieb trans_bessels c precision conv true garbage) empty (sound mieb c)
  (tsum T0 1e-10%Re) (fun q k => tsum (T q) k) t nmax Hn Hp Hf HT0 _ _ _ Hnone Hs.
- by rewrite hA.
- move=> _; split=> // s hs; have [_ h] := h0 fuel f0; have [s' [hs' E]] := h unk s (sf s hs); exists s'; split=> //; exact: (fin _ _ _ _ E).
- have hq' : (q <= nmax)%N by apply/leP; exact: (freqs_small _ _ _ hq).
  have [_ h] := hN fuel f1 q hq' hq; have [s' [hs' E]] := h unk s (sf s hs); exists s'; split=> //; exact: (fin _ _ _ _ E).
exists t', F; split=> // i hi; eexists; split; first exact: E4.
apply: sliced_close => //; first by case: hi.
  by have [h _] := h0 fuel f0; apply: h; left.
move=> n hn1; have hin := freqs_has (t_deltaT t) nmax n hn1.
have hne : freqs (t_deltaT t) nmax (PeanoNat.Nat.div n 50) <> nil by move=> hz; rewrite hz in hin.
have hq' : (PeanoNat.Nat.div n 50 <= nmax)%N by apply/leP; exact: (freqs_small _ _ _ hne).
by have [h _] := hN fuel f1 _ hq' hne; apply: h.
Qed.
End Trips.
