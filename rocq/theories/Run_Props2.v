(** * Property C66, continued: signs and decay of the computed free energy *)
From Coq Require Import Reals.
From Coq Require Import List Lia Lra ZArith.
From mathcomp Require Import all_ssreflect ssralg matrix mxalgebra poly mxpoly.
From Verif Require Import Base RStruct Mat_Model Mat_Spec Thermo_Model Thermo_Proofs Geo_Model Geo_Spec Bessel_Model Scat_Model Scat_Spec Scat_Proofs Scat_Proofs7 Scat_Proofs9 Scat_Proofs10 Scat_Props2 Trans_Model Trans_Spec
  Lin_Model Lin_Spec Lin_Proofs Lin_Proofs2 RT_Model RT_Spec RT_Spec2 RT_Proofs2 RT_Proofs3 RT_Proofs4 RT_Props RT_Props2 RT_Props3 RT_Props5 RT_Props7
  Run_Model Run_Spec Run_Proofs Run_Proofs2 Run_Proofs3 Run_Proofs4 Run_Proofs5 Run_Props.
Set Implicit Arguments.
Unset Strict Implicit.
Import GRing.Theory.
Local Open Scope ring_scope.
Delimit Scope R_scope with Re.

(** what rt_lndet returns is the logarithm of the determinant *)
Lemma fin_det mieb c m k A B e u conv v N : mieA mieb c [:: k] = Val A -> mieB mieb c [:: k] = Val B -> has (c_med c) e u -> (0 < c_L c)%Re -> (0 < k)%Re -> some_orders c m -> (conv < 1)%Re ->
  (forall fuel, (N <= fuel)%N -> rt_lndet mieb trans_bessels c fuel conv m [:: k] = Some (Val [:: Fin v])) ->
  \det (1%:M - trip mieb c m k) <> 0 /\ v = ln (Rabs (\det (1%:M - trip mieb c m k))).
Proof.
move=> eA eB hm hL hk [_ [o1 o2]] hc h.
have [N' hN'] := lndet_total eA eB hm hL hk o1 o2 hc.
have := h (maxn N N') (leq_maxl _ _); rewrite (hN' (maxn N N') (leq_maxr _ _)) /ln_abs_det.
by case: eqP => // hd [->].
Qed.
Lemma solids_orders c m1 m2 ra rb e u m : solids c m1 m2 ra rb e u -> (m <= c_lmax c)%coq_nat -> some_orders c (Z.of_nat m).
Proof. by move=> [_ [_ [_ [_ [_ [_ [h1 h2]]]]]]] h; split; [lia|split; lia]. Qed.

(** the outcome of a successful calculation whose entries satisfy [P] *)
Definition yields (mieb : mbessels) (c : config) (precision conv : R) (t : finiteT gstate) (P : R -> Prop) : Prop :=
  exists N, forall fuel, (N <= fuel)%N -> forall unk garbage empty, exists t' F,
    [/\ free_energy (ops unk fuel mieb trans_bessels c precision conv false garbage) empty t = (t', Ok F), sound mieb c (t_geom t'),
        List.length F = Z.to_nat (pyround (t_Tmax t / t_deltaT t)) & forall x, In x F -> P x].
Lemma in_table (F : list R) (g : nat -> R) (P : R -> Prop) : (forall i : nat, (1 <= i)%coq_nat /\ (i <= List.length F)%coq_nat -> List.nth_error F (i - 1)%coq_nat = Some (g i)) ->
  (forall i : nat, (1 <= i)%coq_nat /\ (i <= List.length F)%coq_nat -> P (g i)) -> forall x, In x F -> P x.
Proof.
move=> h hP x /(@List.In_nth_error _ _ _) [j hj]; have hl : (j < List.length F)%coq_nat by apply/List.nth_error_Some; rewrite hj.
have hi : (1 <= j.+1)%coq_nat /\ (j.+1 <= List.length F)%coq_nat by lia.
have := h j.+1 hi; have -> : (j.+1 - 1)%coq_nat = j by lia.
by rewrite hj => -[->]; apply: hP.
Qed.

(** ** one sphere optically denser, the other thinner than the medium: every free energy is non-negative *)
Theorem C66_repulsion : forall c m1 m2 ra rb e u s precision conv t nmax,
  solids c m1 m2 ra rb e u -> (0 < ra)%Re -> (0 < rb)%Re -> (forall k, (0 < k)%Re -> contrast s m1 e u k /\ contrast (- s) m2 e u k) -> (conv < 1)%Re ->
  ready exact_bessels c t nmax -> t_analytic t = false -> (1 <= nmax)%coq_nat -> (forall q, freqs (t_deltaT t) nmax q <> nil -> trans_at c (freqs (t_deltaT t) nmax q)) ->
  yields exact_bessels c precision conv t (fun x => 0 <= x)%Re.
Proof.
move=> c m1 m2 ra rb e u s precision conv t nmax hS ha hb hcon hc hR hA hn htq.
have [h1 [h2 [s1 [s2 [hm [hL _]]]]]] := hS; have [_ [_ [_ [HT _]]]] := hR.
have key m k : (0 < k)%Re -> (m <= c_lmax c)%coq_nat -> \det (1%:M - trip exact_bessels c (Z.of_nat m) k) <> 0 /\ (0 <= lnr exact_bessels c m k)%Re.
  move=> hk hmx; have ho := solids_orders hS hmx; have [g1 g2] := hcon k hk.
  have [[A eA] [B eB]] := exact_val h1 h2 s1 s2 hm ha hb hk.
  have [_ [v [N [hN [hv1 hv2]]]]] := C61_repulsion h1 h2 hm ha hb hL hk ho g1 g2 hc.
  have := fin_det eA eB hm hL hk ho hc hN; rewrite /lnr => -[d1 <-]; split=> //; exact: (Rle_trans _ _ _ hv1 hv2).
have e10 : (0 < 1e-10)%Re by lra.
have pos n : (1 <= n)%coq_nat /\ (n <= nmax)%coq_nat -> (0 < t_deltaT t * INR n)%Re by move=> [hn1 _]; apply: Rmult_lt_0_compat => //; apply: lt_0_INR; lia.
have [| |m hmx|n m hn1 hmx|cut0 [cut [N [hc0 hcut hN]]]] := C66_free_energy_numeric precision hS hc hR hA hn.
- exact: (exact_at _ _ (trans_at_one _ _ e10 hL)).
- by move=> q hq; exact: (exact_at _ _ (htq q hq)).
- exact: (proj1 (key m _ e10 hmx)).
- exact: (proj1 (key m _ (pos n hn1) hmx)).
exists N => fuel hf unk garbage empty; have [t' [F [E1 E2 E3 E4]]] := hN fuel hf unk garbage empty; exists t', F; split=> //.
apply: (in_table E4) => i [hi _]; apply: sliced_nonneg => //.
- apply: rsum_nonneg => m hmM; apply: (proj2 (key m _ e10 _)); have [h _] := hc0; lia.
- move=> n hn1; apply: rsum_nonneg => m hmM; apply: (proj2 (key m _ (pos n hn1) _)).
  have hin := freqs_has (t_deltaT t) nmax n hn1.
  have hne : freqs (t_deltaT t) nmax (PeanoNat.Nat.div n 50) <> nil by move=> h0; rewrite h0 in hin.
  have [h _] := hcut _ hne; lia.
Qed.
Print Assumptions C66_repulsion.

(** ** both spheres denser (or both thinner): non-positive, as long as the traces of the single round trips are below one *)
Theorem C66_attraction : forall c m1 m2 ra rb e u s precision conv t nmax,
  solids c m1 m2 ra rb e u -> (0 < ra)%Re -> (0 < rb)%Re -> (forall k, (0 < k)%Re -> contrast s m1 e u k /\ contrast s m2 e u k) -> (conv < 1)%Re ->
  ready exact_bessels c t nmax -> t_analytic t = false -> (1 <= nmax)%coq_nat -> (forall q, freqs (t_deltaT t) nmax q <> nil -> trans_at c (freqs (t_deltaT t) nmax q)) ->
  (forall m k, (m <= c_lmax c)%coq_nat -> k = 1e-10%Re \/ (exists n, ((1 <= n)%coq_nat /\ (n <= nmax)%coq_nat) /\ k = (t_deltaT t * INR n)%Re) -> (\tr (trip exact_bessels c (Z.of_nat m) k) < 1)%Re) ->
  yields exact_bessels c precision conv t (fun x => x <= 0)%Re.
Proof.
move=> c m1 m2 ra rb e u s precision conv t nmax hS ha hb hcon hc hR hA hn htq htr.
have [h1 [h2 [s1 [s2 [hm [hL _]]]]]] := hS; have [_ [_ [_ [HT _]]]] := hR.
have key m k : (0 < k)%Re -> (m <= c_lmax c)%coq_nat -> (\tr (trip exact_bessels c (Z.of_nat m) k) < 1)%Re -> \det (1%:M - trip exact_bessels c (Z.of_nat m) k) <> 0 /\ (lnr exact_bessels c m k <= 0)%Re.
  move=> hk hmx ht; have ho := solids_orders hS hmx; have [g1 g2] := hcon k hk.
  have [[A eA] [B eB]] := exact_val h1 h2 s1 s2 hm ha hb hk.
  have [tp hv] := C61_attraction h1 h2 hm ha hb hL hk ho g1 g2 hc; have [v [N [hN [_ hv2]]]] := hv ht.
  have := fin_det eA eB hm hL hk ho hc hN; rewrite /lnr => -[d1 <-]; split=> //.
  by have := tp 0%N; rewrite /mxpow /= mulmx1 => h0; lra.
have e10 : (0 < 1e-10)%Re by lra.
have pos n : (1 <= n)%coq_nat /\ (n <= nmax)%coq_nat -> (0 < t_deltaT t * INR n)%Re by move=> [hn1 _]; apply: Rmult_lt_0_compat => //; apply: lt_0_INR; lia.
have t10 m hmx := htr m _ hmx (or_introl erefl); have tn m n hmx hn1 := htr m _ hmx (or_intror (ex_intro _ n (conj hn1 erefl))).
have [| |m hmx|n m hn1 hmx|cut0 [cut [N [hc0 hcut hN]]]] := C66_free_energy_numeric precision hS hc hR hA hn.
- exact: (exact_at _ _ (trans_at_one _ _ e10 hL)).
- by move=> q hq; exact: (exact_at _ _ (htq q hq)).
- exact: (proj1 (key m _ e10 hmx (t10 m hmx))).
- exact: (proj1 (key m _ (pos n hn1) hmx (tn m n hmx hn1))).
exists N => fuel hf unk garbage empty; have [t' [F [E1 E2 E3 E4]]] := hN fuel hf unk garbage empty; exists t', F; split=> //.
apply: (in_table E4) => i [hi _]; apply: sliced_nonpos => //.
- have [h _] := hc0; apply: rsum_nonpos => m hmM; have hmx : (m <= c_lmax c)%coq_nat by lia.
  exact: (proj2 (key m _ e10 hmx (t10 m hmx))).
- move=> n hn1; have hin := freqs_has (t_deltaT t) nmax n hn1.
  have hne : freqs (t_deltaT t) nmax (PeanoNat.Nat.div n 50) <> nil by move=> h0; rewrite h0 in hin.
  have [h _] := hcut _ hne; apply: rsum_nonpos => m hmM; have hmx : (m <= c_lmax c)%coq_nat by lia.
  exact: (proj2 (key m _ (pos n hn1) hmx (tn m n hmx hn1))).
Qed.
Print Assumptions C66_attraction.

(** ** far apart: whatever the materials, beyond some distance the calculation succeeds, and its results tend to zero *)
Lemma far_enough (P : nat -> R -> Prop) n : (forall m, (m <= n)%N -> exists L0, forall L, (L0 <= L)%Re -> P m L) -> exists L0, forall L, (L0 <= L)%Re -> forall m, (m <= n)%N -> P m L.
Proof.
elim: n => [|n IH] h; first by have [N hN] := h 0%N isT; exists N => fuel hf [|//] _; apply: hN.
have [N1 h1] := IH (fun m hm => h m (leqW hm)); have [N2 h2] := h n.+1 (leqnn _).
exists (Rmax N1 N2) => L hL m; have := Rmax_l N1 N2; have := Rmax_r N1 N2 => a1 a2.
by rewrite leq_eqVlt ltnS => /orP [/eqP ->|hm]; [apply: h2; lra|apply: h1 => //; lra].
Qed.
Lemma inv6_small C d : (0 < C)%Re -> (0 < d)%Re -> exists L0, forall L, (L0 <= L)%Re -> (1 <= L)%Re /\ (C / L ^ 6 <= d)%Re.
Proof.
move=> hC hd; exists (1 + C / d)%Re => L hL.
have q : (0 < C / d)%Re by exact: Rdiv_lt_0_compat.
have L1 : (1 <= L)%Re by lra.
have L6 : (L <= L ^ 6)%Re by have := Rle_pow L 1 6 L1; rewrite pow_1; apply; lia.
split=> //; apply: (Rmult_le_reg_r (L ^ 6)); first by lra.
rewrite /Rdiv Rmult_assoc Rinv_l; last by lra.
have : (C / d <= L ^ 6)%Re by lra.
move=> /(Rmult_le_compat_l d _ _ (Rlt_le _ _ hd)); have -> : (d * (C / d) = C)%Re by field; lra.
lra.
Qed.
Theorem C66_far_apart : forall mieb c m1 m2 ra rb e b precision conv dT Tmax nmax eps,
  two_spheres c m1 m2 ra rb e b -> static_sphere m1 -> static_sphere m2 -> c_ext c = true -> mu_val b 0 = 1%Re ->
  (1 <= c_lmax c)%coq_nat -> (c_lmax c <= c_lssmax c)%coq_nat -> (conv < 1)%Re -> (0 < dT)%Re -> (0 < eps)%Re ->
  (forall q, freqs dT nmax q <> nil -> elementwise_at mieb c (freqs dT nmax q)) -> (forall n : nat, (1 <= n)%coq_nat /\ (n <= nmax)%coq_nat -> elementwise_at mieb c [:: (dT * INR n)%Re]) ->
  exists L0, forall L, (L0 <= L)%Re -> forall t, ready mieb (at_distance c L) t nmax -> t_deltaT t = dT -> t_Tmax t = Tmax -> t_analytic t = true ->
    yields mieb (at_distance c L) precision conv t (fun x => Rabs x < eps)%Re.
Proof.
move=> mieb c m1 m2 ra rb e b precision conv dT Tmax nmax eps HC S1 S2 hx hmu hl hls hc hT he hel hel1.
have [h1 [h2 [hi [ha [hb hL0]]]]] := HC; have hm := insulator_has _ _ _ hi; have so1 := static_solid _ S1; have so2 := static_solid _ S2.
pose J := (INR (Z.to_nat (pyround (Tmax / dT))) * dT * ((INR nmax + 1) * (2 * INR (c_lmax c) + 1)))%Re.
have J0 : (0 <= J)%Re.
  have p0 k : (0 <= INR k)%Re by exact: pos_INR.
  rewrite /J; apply: Rmult_le_pos; first by apply: Rmult_le_pos; [exact: p0|lra].
  by apply: Rmult_le_pos; [have := p0 nmax; lra|have := p0 (c_lmax c); lra].
pose d := Rmin (1 / 2) (eps / (J + 1))%Re.
have q0 : (0 < eps / (J + 1))%Re by apply: Rdiv_lt_0_compat; lra.
have d0 : (0 < d)%Re by rewrite /d /Rmin; case: Rle_dec => ?; lra.
have dJ : (J * d < eps)%Re.
  have : (d <= eps / (J + 1))%Re by exact: Rmin_r.
  move=> /(Rmult_le_compat_l J _ _ J0) h; apply: Rle_lt_trans h _; apply: (Rmult_lt_reg_r (J + 1)); first by lra.
  have -> : (J * (eps / (J + 1)) * (J + 1) = J * eps)%Re by field; lra.
  lra.
have orders m : (m <= c_lmax c)%coq_nat -> some_orders c (Z.of_nat m) by move=> h; split; [lia|split; lia].
(* finite frequencies *)
have [Lf hf] : exists L0, forall L, (L0 <= L)%Re -> forall m, (m <= c_lmax c)%N -> forall n, (n <= nmax)%N -> (1 <= n)%coq_nat ->
    \det (1%:M - trip mieb (at_distance c L) (Z.of_nat m) (dT * INR n)%Re) <> 0 /\ (Rabs (lnr mieb (at_distance c L) m (dT * INR n)%Re) <= d)%Re.
  apply: far_enough => m hm1; apply: (@far_enough (fun n L => (1 <= n)%coq_nat -> _ /\ _)) => n hn.
  case: (Compare_dec.le_dec 1 n) => hn1; last by exists 0%Re => L _ /hn1.
  have hk : (0 < dT * INR n)%Re by apply: Rmult_lt_0_compat => //; apply: lt_0_INR; lia.
  have hg : good mieb c [:: (dT * INR n)%Re] by split=> //; split; [move=> k [<-|//]|apply: hel1; split=> //; apply/leP].
  have [A [B [eA eB]]] := coefs_exist h1 h2 so1 so2 hm hg.
  have ho := orders m (elimT leP hm1); have [_ [o1 o2]] := ho.
  have [L1 h] := C62_far hx eA eB hm hk d0 o1 o2.
  exists (Rmax L1 1) => L hL _; have [_ hv] := h L (Rle_trans _ _ _ (Rmax_l _ _) hL); have [v [N [hN hv2]]] := hv conv hc.
  have Lp : (0 < c_L (at_distance c L))%Re by have := Rmax_r L1 1; rewrite /=; lra.
  by have := @fin_det mieb (at_distance c L) (Z.of_nat m) _ A B _ _ conv v N eA eB hm Lp hk ho hc hN; rewrite /lnr => -[d1 <-]; split=> //; left.
(* zero frequency *)
have [Ls hs] : exists L0, forall L, (L0 <= L)%Re -> forall m, (m <= c_lmax c)%N -> exists x,
    limit0 (fun k => \det (1%:M - trip mie_bessels (at_distance c L) (Z.of_nat m) k)) x /\ (0 < x)%Re /\ (Rabs (ln x) <= d)%Re.
  apply: far_enough => m hm1; have ho := orders m (elimT leP hm1).
  have [C [hC h]] := C62_static_decay HC S1 S2 hx ho hmu; have hd2 : (0 < d / 2)%Re by lra.
  have [L1 hL1] := inv6_small hC hd2; exists L1 => L hL; have [g1 g2] := hL1 L hL; have [x [lx bx _]] := h L g1.
  have dhalf : (d <= 1 / 2)%Re by exact: Rmin_l.
  exists x; split=> //; have rng : (0 <= d / 2 <= 1 / 2)%Re by lra.
  have [x0 lnx] := ln_near rng (Rle_trans _ _ _ bx g2); split=> //; lra.
exists (Rmax 1 (Rmax Lf Ls)) => L hL t hR eT eTm hA.
have hL1 := Rmax_l 1 (Rmax Lf Ls); have hL2 := Rmax_r 1 (Rmax Lf Ls); have hL3 := Rmax_l Lf Ls; have hL4 := Rmax_r Lf Ls.
have HC' : two_spheres (at_distance c L) m1 m2 ra rb e b by rewrite /two_spheres /=; do 5 split=> //; lra.
have gf m n := hf L (Rle_trans _ _ _ (Rle_trans _ _ _ hL3 hL2) hL) m n.
have gs := hs L (Rle_trans _ _ _ (Rle_trans _ _ _ hL4 hL2) hL).
have [dd hdd] : exists dd : nat -> R, forall m, (m <= c_lmax c)%N -> limit0 (fun k => \det (1%:M - trip mie_bessels (at_distance c L) (Z.of_nat m) k)) (dd m) /\ (0 < dd m)%Re /\ (Rabs (ln (dd m)) <= d)%Re.
  elim: (c_lmax c) gs => [|n IH] gs.
    by have [x hx0] := gs 0%N isT; exists (fun=> x) => -[|//] _.
  have [dd hdd] := IH (fun m hm1 => gs m (leqW hm1)); have [x hx1] := gs n.+1 (leqnn _).
  exists (fun m => if m == n.+1 then x else dd m) => m; rewrite leq_eqVlt ltnS => /orP [/eqP ->|hm1]; first by rewrite eqxx.
  by rewrite ltn_eqF //; apply: hdd.
have [q hq|m hm1|n m hn1 hm1|cut0 [cut [N [hc0 hcut hN]]]] := @C66_free_energy mieb (at_distance c L) m1 m2 ra rb e b precision conv dd t nmax HC' S1 S2 hx hmu hl hls hc hR hA.
- by rewrite eT in hq *; split; [exact: (proj1 (hel q hq))|exact: trans_at_ext].
- by have [g1 [g2 _]] := hdd m (introT leP hm1).
- by rewrite eT; exact: (proj1 (gf m (introT leP hm1) n (introT leP (proj2 hn1)) (proj1 hn1))).
exists N => fuel hfu unk garbage empty; have [t' [F [E1 E2 E3 E4]]] := hN fuel hfu unk garbage empty; exists t', F; split=> //.
apply: (in_table E4) => i [hi1 hi2].
have bound g M : (M <= c_lmax c)%coq_nat -> (forall m, (m <= M)%coq_nat -> (Rabs (g m) <= d)%Re) -> (Rabs (rsum g M) <= (2 * INR (c_lmax c) + 1) * d)%Re.
  move=> hM hg; apply: Rle_trans (rsum_abs g M d hg) _; apply: Rmult_le_compat_r; first by lra.
  by have := le_INR _ _ hM; lra.
apply: Rle_lt_trans (sliced_abs _ _ _ _ i ((2 * INR (c_lmax c) + 1) * d)%Re _ hi1 _ _) _.
- by rewrite eT.
- have [hle _] := hc0; apply: bound => // m hmM; have hmx : (m <= c_lmax c)%N by apply/leP; move: hle => /=; lia.
  by have [_ [_ ]] := hdd m hmx.
- move=> n hn1; have hin := freqs_has (t_deltaT t) nmax n hn1.
  have hne : freqs (t_deltaT t) nmax (PeanoNat.Nat.div n 50) <> nil by move=> h0; rewrite h0 in hin.
  have [hle _] := hcut _ hne; apply: (bound _ _ hle) => m hmM; have hmx : (m <= c_lmax c)%N by apply/leP; exact: (PeanoNat.Nat.le_trans _ _ _ hmM hle).
  by rewrite eT; exact: (proj2 (gf m hmx n (introT leP (proj2 hn1)) (proj1 hn1))).
apply: Rle_lt_trans _ dJ; rewrite /J eT.
have iF : (INR i <= INR (Z.to_nat (pyround (Tmax / dT))))%Re by apply: le_INR; rewrite -eT -eTm -E3.
have hi0 : (0 < INR i)%Re by apply: lt_0_INR; lia.
have w0 : (0 <= dT * ((INR nmax + 1) * (2 * INR (c_lmax c) + 1)) * d)%Re.
  have p0 k : (0 <= INR k)%Re by exact: pos_INR.
  by apply: Rmult_le_pos; last lra; apply: Rmult_le_pos; first lra; apply: Rmult_le_pos; [have := p0 nmax; lra|have := p0 (c_lmax c); lra].
have := Rmult_le_compat_r _ _ _ w0 iF; lra.
Qed.
Print Assumptions C66_far_apart.

(** ** Non-vacuity: a bubble in water next to a perfect reflector, 60 frequencies in two slices, three temperatures (repulsion);
    two metal spheres in water (exact Bessel functions) and two perfect reflectors in vacuum (Bessel functions of the code), far apart *)
Definition task (dT Tmax : R) (nmax : nat) (analytic : bool) : finiteT gstate :=
  {| t_deltaT := dT; t_nmax := Z.of_nat nmax; t_Tmax := Tmax; t_analytic := analytic; t_nprocs := 0; t_force := false; t_geom := fresh false; t_f := None; t_ff := None |}.
Lemma task_ready mieb c dT Tmax nmax analytic : (0 < dT)%Re -> ready mieb c (task dT Tmax nmax analytic) nmax.
Proof. by move=> h; do 5 split=> //; exact: sound_fresh. Qed.
Lemma gold_solid : solid_ok (Lorentz e_Gold None).
Proof. by right; exists (eps_spec e_Gold), (mu_val None); have [_ [_ [_ [_ h]]]] := drude_flags _ _ _ gold_drude. Qed.
Lemma bubble_solids : solids bubble_in_water (Lorentz [::] None) PEC 1 2 (eps_spec e_Water) (mu_val None).
Proof.
do 2 split=> //; split; first by right; exists (eps_spec [::]), (mu_val None); exact: vacuum_has.
split; first by left.
split; first exact: water_has.
by rewrite /=; split; [lra|split=> //; lia].
Qed.
Example C66_bubble : yields exact_bessels bubble_in_water 1e-4 1e-10 (task 1 3 60 false) (fun x => 0 <= x)%Re /\ Z.to_nat (pyround (3 / 1)) = 3%N.
Proof.
split; last by rewrite /Rdiv Rinv_1 Rmult_1_r (pyround_IZR 3).
apply: (@C66_repulsion _ _ _ 1%Re 2%Re _ _ (-1)%Re _ _ _ 60%N bubble_solids) => //; try lra; try by lia.
- by move=> k hk; have [g1 [g2 _]] := C61_bubble hk.
- by apply: task_ready; lra.
- by move=> q _; exact: trans_at_ext.
Qed.
Example C66_gold : exists L0, forall L, (L0 <= L)%Re -> yields exact_bessels (at_distance gold_in_water L) 1e-4 1e-10 (task 1 3 60 true) (fun x => Rabs x < 1e-5)%Re.
Proof.
have [HC [HS [_ [_ hmu]]]] := C57_gold.
have [|||||||L0 h] := @C66_far_apart exact_bessels gold_in_water _ _ 1%Re 2%Re _ _ 1e-4%Re 1e-10%Re 1%Re 3%Re 60%N 1e-5%Re HC HS HS erefl hmu; try lra; try by rewrite /=; lia.
- by move=> q _; apply: exact_at; exact: trans_at_ext.
- by move=> n _; apply: exact_at; exact: trans_at_ext.
- by exists L0 => L hL; apply: (h L hL) => //; apply: task_ready; lra.
Qed.
Definition mirrors : config := {| c_1 := Solid PEC 1; c_2 := Solid PEC 2; c_med := Lorentz [::] None; c_L := 4; c_lmax := 3; c_lssmax := 4; c_ext := true; c_mat := fun=> PEC |}.
Example C66_mirrors : exists L0, forall L, (L0 <= L)%Re -> yields mie_bessels (at_distance mirrors L) 1e-4 1e-10 (task (1 / 10) 3 60 true) (fun x => Rabs x < 1e-5)%Re.
Proof.
have HC : two_spheres mirrors PEC PEC 1 2 [::] None by rewrite /two_spheres /=; do 2 split=> //; split; [by split|lra].
have HS : static_sphere PEC by left.
have d0 : (0 < 1 / 10)%Re by lra.
have i60 : INR 60 = 60%Re by rewrite INR_IZR_INZ.
have el ks : ks <> nil -> (forall k, In k ks -> (1 / 10 <= k <= 1 / 10 * 60)%Re) -> elementwise_at mie_bessels mirrors ks.
  by move=> hn hk; apply: (vacuum_regime mirrors 1%Re 2%Re ks) => //; try (rewrite /=; lra); move=> k r /hk h1 [->|[->|[//]]]; lra.
have [|||||||L0 h] := @C66_far_apart mie_bessels mirrors _ _ 1%Re 2%Re _ _ 1e-4%Re 1e-10%Re (1 / 10)%Re 3%Re 60%N 1e-5%Re HC HS HS erefl erefl; try lra; try by rewrite /=; lia.
- by move=> q hq; apply: el => // k hk; rewrite -i60; exact: freqs_between hk.
- move=> n [g1 g2]; apply: el => // k [<-|//]; have := le_INR _ _ g1; have := le_INR _ _ g2; rewrite i60 [INR 1]/=; lra.
- by exists L0 => L hL; apply: (h L hL) => //; apply: task_ready; lra.
Qed.
(** C67 for the bubble at two wavenumbers, and for metal spheres at zero frequency *)
Example C67_bubble : exists M N, (M <= 3)%coq_nat /\ forall fuel, (N <= fuel)%N -> forall unk, exists s' v1 v2,
  geo_mSumme unk fuel exact_bessels trans_bessels bubble_in_water 1e-4 1e-10 [:: 1; 2]%Re (fresh false) = (s', Ok [:: v1; v2]) /\ g_K s' = Some [:: 1; 2]%Re.
Proof.
have [|//||M [N [[hM _] h]]] := @C67_mSumme exact_bessels _ _ _ _ _ _ _ 1e-4%Re 1e-10%Re [:: 1; 2]%Re bubble_solids _ _ _ (exact_at _ _ (trans_at_ext bubble_in_water _ erefl)); first by lra.
  by move=> k [<-|[<-|//]]; lra.
exists M, N; split=> // fuel hf unk; have [s' [_ [hK ->]]] := h fuel hf unk _ (sound_fresh _ _).
by exists s'; do 2 eexists; split; first reflexivity.
Qed.
Example C67_gold : exists L0, forall L, (L0 <= L)%Re -> exists v N, forall fuel, (N <= fuel)%N -> forall unk, exists s',
  geo_mSumme_k0 unk fuel trans_bessels (at_distance gold_in_water L) 1e-4 1e-10 (fresh false) = (s', Ok [:: Fin v]).
Proof.
have [HC [HS [_ [_ hmu]]]] := C57_gold.
have [L0 hs] : exists L0, forall L, (L0 <= L)%Re -> forall m, (m <= 3)%N -> (1 <= L)%Re /\ exists x, limit0 (fun k => \det (1%:M - trip mie_bessels (at_distance gold_in_water L) (Z.of_nat m) k)) x /\ (0 < x)%Re.
  apply: far_enough => m /leP hm1; have ho : some_orders gold_in_water (Z.of_nat m) by rewrite /some_orders /=; lia.
  have [C [hC h]] := C62_static_decay HC HS HS erefl ho hmu; have hd2 : (0 < 1 / 2)%Re by lra.
  by have [L1 hL1] := inv6_small hC hd2; exists L1 => L /hL1 [g1 g2]; split=> //; have [x [lx _ /(_ g2) [x0 _]]] := h L g1; exists x.
exists L0 => L /hs h; have [L1 _] := h 0%N isT.
have HC' : two_spheres (at_distance gold_in_water L) (Lorentz e_Gold None) (Lorentz e_Gold None) 1 2 e_Water None.
  by have [a1 [a2 [a3 [a4 [a5 _]]]]] := HC; rewrite /two_spheres /=; do 5 split=> //; lra.
have [x0 px0] := proj2 (h 0%N isT); have [x1 px1] := proj2 (h 1%N isT); have [x2 px2] := proj2 (h 2%N isT); have [x3 px3] := proj2 (h 3%N isT).
have [||||M [N [_ hN]]] := @C67_mSumme_k0 _ _ _ _ _ _ _ 1e-4%Re 1e-10%Re (fun m => List.nth m [:: x0; x1; x2; x3] 0%Re) HC' HS HS erefl hmu; try lra; try by rewrite /=; lia.
  by move=> [|[|[|[|m]]]] // hm; exfalso; move: hm => /=; lia.
exists (rsum (fun m => ln (List.nth m [:: x0; x1; x2; x3] 0%Re)) M), N => fuel hf unk.
by have [s' [_ [_ ->]]] := hN fuel hf exact_bessels unk _ (sound_fresh _ _); exists s'.
Qed.
