(** * Property C95: the static term is half the limit of the terms at finite wavenumbers *)
From Coq Require Import Reals.
From Coquelicot Require Import Coquelicot.
From Coq Require Import Epsilon List Lia Lra ZArith.
From mathcomp Require Import all_ssreflect ssralg ssrnum fingroup perm matrix mxalgebra poly mxpoly.
From Verif Require Import Base RStruct Mat_Model Mat_Spec Mat_Proofs Thermo_Model Thermo_Proofs Geo_Model Geo_Spec Bessel_Model Scat_Model Scat_Spec Scat_Proofs Scat_Proofs4 Scat_Proofs7 Scat_Proofs8 Scat_Proofs9 Scat_Proofs10 Scat_Props2 Trans_Model Trans_Spec Trans_Proofs3
  Lin_Model Lin_Spec Bal_Proofs Lin_Proofs Trip_Proofs Lin_Proofs2 RT_Model RT_Spec RT_Spec2 RT_Proofs RT_Proofs2 RT_Proofs3 RT_Proofs4 RT_Proofs6 RT_Proofs7 RT_Proofs8 RT_Proofs9 RT_Proofs10
  RT_Props RT_Props2 RT_Props3 RT_Props5 Exp_Proofs2 Lap_Proofs2 Mono_Proofs Mono_Proofs2 Mono_Proofs3 RT_Props8 Cut_Proofs RT_Props9 RT_Props10
  Run_Model Run_Spec Run_Proofs Run_Proofs2 Run_Proofs3 Run_Proofs4 Run_Proofs5 Run_Proofs9 Run_Props Run_Props2 Run_Props7 Conv_Spec Conv_Spec2 Conv_Proofs3 Conv_Proofs4 Conv_Proofs5 Conv_Proofs6 Conv_Proofs8 Conv_Proofs9 Conv_Props Conv_Props2
  Far_Proofs3 Lim_Proofs Lim_Proofs2 Lim_Proofs3 Lim_Props Rep_Spec Rep_Proofs Rep_Props Far_Proofs2 Far_Props Far_Props2 Stat_Spec Stat_Proofs Stat_Props Half_Spec Half_Proofs.
Set Implicit Arguments.
Unset Strict Implicit.
Import GRing.Theory.
Local Open Scope ring_scope.
Delimit Scope R_scope with Re.

Section Gen.
Context (mieb : mbessels) (c : RT_Model.config) (m1 m2 : material) (ra rb : R) (e : list Mat_Model.osc) (b : Mat_Model.bprops) (precision conv : R).
Context (HB : mieb = mie_bessels \/ mieb = exact_bessels) (HC : two_spheres c m1 m2 ra rb e b) (S1 : static_sphere m1) (S2 : static_sphere m2).
Context (hx : c_ext c = true) (hmu : mu_val b 0 = 1%Re) (hl : (1 <= c_lmax c)%coq_nat) (hls : (c_lmax c <= c_lssmax c)%coq_nat) (hc : (conv < 1)%Re).
Context (d0 : nat -> R) (hd : forall m, (m <= c_lmax c)%coq_nat -> limit0 (fun k => \det (1%:M - trip mieb c (Z.of_nat m) k)) (d0 m) /\ (0 < d0 m)%Re).

Lemma half_mie m : (m <= c_lmax c)%coq_nat -> limit0 (fun k => \det (1%:M - trip mie_bessels c (Z.of_nat m) k)) (d0 m) /\ (0 < d0 m)%Re.
Proof.
move=> hmx; have [l p] := hd hmx; split; last exact p.
have ho : some_orders c (Z.of_nat m) by split; [lia|split; lia].
have [A0 [B0 [TE0 [TM0 [_ _ _ hz]]]]] := C85_static_limit HC S1 S2 hx ho hmu.
have [z1 _] := hz mie_bessels (or_introl erefl); have [z2 _] := hz mieb HB.
by rewrite (lim0_unique l (z2 1)); exact (z1 1).
Qed.
Lemma half_static : exists M0, stops_at_k0 precision (c_lmax c) (fun m => Fin (ln (d0 m))) M0 /\ f_alle_gives mieb c precision conv [:: 0%Re] [:: (rsum (fun m => ln (d0 m)) M0 / 2)%Re].
Proof.
have [M0 [N [hM hN]]] := C67_mSumme_k0 precision HC S1 S2 hx hmu hl hls hc half_mie.
exists M0; split; first exact hM; exists N => fuel /leP hf unk garbage t tf ta ts.
have [s' [hs' [_ E]]] := hN fuel hf mieb unk _ ts.
exists (with_geom t s'); split; first exact hs'.
have := @F_alle_analytic gstate (ops unk fuel mieb trans_bessels c precision conv false garbage) nil t [:: rsum (fun m => ln (d0 m)) M0] s' s' nil tf ta.
rewrite /= => ->; [by []| |by left].
by rewrite /s_finite /mbind E.
Qed.
Lemma half_regular : at_right 0 (fun k => (0 < k)%Re /\ regular mieb c k).
Proof.
have R1 : at_right 0 (fun k => forall m, (m < (c_lmax c).+1)%coq_nat -> \det (1%:M - trip mieb c (Z.of_nat m) k) <> 0).
  apply: ev_all => m hmx; have hmx' : (m <= c_lmax c)%coq_nat by lia.
  have [l p] := hd hmx'; apply: (ev_neq0 _ _ l); lra.
refine (filter_imp _ _ _ (filter_and _ _ at_right_pos R1)); move=> k [k0 h]; split; first exact k0; move=> m hmx; apply: h; lia.
Qed.
Lemma half_small M : settled precision (c_lmax c) (fun m => ln (d0 m)) M ->
  at_right 0 (fun k => (0 < k)%Re /\ f_alle_gives mieb c precision conv [:: k] [:: rsum (fun m => lnr mieb c m k) M]).
Proof.
move=> hM.
have hf m : (m <= c_lmax c)%coq_nat -> lim0 (fun k => lnr mieb c m k) (ln (d0 m)) by move=> hmx; have [l p] := hd hmx; exact: lim0_lnabs.
have ev := @stops_there (fun m k => lnr mieb c m k) (fun m => ln (d0 m)) (c_lmax c) hf precision M hM.
refine (filter_imp _ _ _ (filter_and _ _ half_regular ev)); move=> k [[hk hr] hs]; split; first exact hk.
have [h1 [h2 [hi [ha [hb hL]]]]] := HC; have hm := insulator_has _ _ _ hi.
have hS : solids c m1 m2 ra rb (eps_spec e) (mu_val b) by split=> //; split=> //; split; [exact: static_solid|split; [exact: static_solid|]].
have hg : good mieb c [:: k].
  split=> //; split; first by move=> k' [<-|//].
  by case: HB => ->; [exact: (one_wavenumber _ _ _ _ _ _ h1 h2 ha hb hL hk)|exact: (exact_at _ _ (trans_at_ext _ _ hx))].
have [|M' [N hN]] := @mSumme_real mieb c m1 m2 ra rb _ _ conv precision hS hc [:: k] hg.
  by move=> k' [<-|[]].
exists N => fuel /leP hf' unk garbage t tf ta ts; have [st h] := hN fuel hf'.
have eM : M' = M.
  apply: (hs (lnd mieb c)); first by move=> m hmx; exact: lnd_real (hr m hmx).
  exact st.
have [s' [hs' E]] := h unk _ ts; exists (with_geom t s'); split; first exact hs'.
rewrite F_alle_nonzero //; last lra.
by rewrite /on_geom /= E eM.
Qed.
End Gen.

(** ** the static term and the limit of the others: partial sums of one series *)
Theorem C95_partial_sums : forall mieb c m1 m2 ra rb e b precision conv d0 M, mieb = mie_bessels \/ mieb = exact_bessels -> two_spheres c m1 m2 ra rb e b -> static_sphere m1 -> static_sphere m2 ->
  c_ext c = true -> mu_val b 0 = 1%Re -> (1 <= c_lmax c)%coq_nat -> (c_lmax c <= c_lssmax c)%coq_nat -> (conv < 1)%Re ->
  (forall m, (m <= c_lmax c)%coq_nat -> limit0 (fun k => \det (1%:M - trip mieb c (Z.of_nat m) k)) (d0 m) /\ (0 < d0 m)%Re) ->
  let f m := ln (d0 m) in settled precision (c_lmax c) f M ->
  exists M0 v, [/\ stops_at_k0 precision (c_lmax c) (fun m => Fin (f m)) M0, f_alle_gives mieb c precision conv [:: 0%Re] [:: (rsum f M0 / 2)%Re], limit0 v (rsum f M) &
    exists k1, (0 < k1)%Re /\ forall k, (0 < k < k1)%Re -> f_alle_gives mieb c precision conv [:: k] [:: v k]].
Proof.
move=> mieb c m1 m2 ra rb e b precision conv d0 M HB HC S1 S2 hx hmu hl hls hc hd f hM.
have [M0 [a1 a2]] := half_static precision HB HC S1 S2 hx hmu hl hls hc hd.
exists M0, (fun k => rsum (fun m => lnr mieb c m k) M); split; [exact a1|exact a2| |].
- apply: (lim0_rsum (fun m k => lnr mieb c m k)) => m hm; have [h _] := hM; have hmx : (m <= c_lmax c)%coq_nat by lia.
  by have [l p] := hd m hmx; exact: lim0_lnabs.
- by apply: near_zero; exact: (half_small HB HC S1 S2 hx hl hls hc hd hM).
Qed.
Print Assumptions C95_partial_sums.

(** ** if the two measures of the relative change lie on the same side of the bound, one is half the limit of the other *)
Theorem C95_half : forall mieb c m1 m2 ra rb e b precision conv d0 M, mieb = mie_bessels \/ mieb = exact_bessels -> two_spheres c m1 m2 ra rb e b -> static_sphere m1 -> static_sphere m2 ->
  c_ext c = true -> mu_val b 0 = 1%Re -> (1 <= c_lmax c)%coq_nat -> (c_lmax c <= c_lssmax c)%coq_nat -> (conv < 1)%Re ->
  (forall m, (m <= c_lmax c)%coq_nat -> limit0 (fun k => \det (1%:M - trip mieb c (Z.of_nat m) k)) (d0 m) /\ (0 < d0 m)%Re) ->
  let f m := ln (d0 m) in settled precision (c_lmax c) f M -> (forall j : nat, (0 < j)%coq_nat /\ (j <= M)%coq_nat -> (change_k0 f j < precision / 10 <-> change f j < precision / 10)%Re) ->
  exists v0 v, [/\ f_alle_gives mieb c precision conv [:: 0%Re] [:: v0], v0 <> 0%Re, limit0 v (2 * v0)%Re, limit0 (fun k => v0 / v k)%Re (1 / 2)%Re &
    exists k1, (0 < k1)%Re /\ forall k, (0 < k < k1)%Re -> f_alle_gives mieb c precision conv [:: k] [:: v k]].
Proof.
move=> mieb c m1 m2 ra rb e b precision conv d0 M HB HC S1 S2 hx hmu hl hls hc hd f hM hr.
have [M0 [v [a1 a2 a3 a4]]] := C95_partial_sums HB HC S1 S2 hx hmu hl hls hc hd hM.
have eM : M0 = M := settled_k0 _ _ _ _ _ hM hr a1; rewrite eM in a2.
have hne : rsum f M <> 0%Re by have [_ [h _]] := hM; exact: h (le_n _).
have e2 : (2 * (rsum f M / 2) = rsum f M)%Re by field.
exists (rsum f M / 2)%Re, v; split; [exact a2|lra|by rewrite e2| |exact a4].
have -> : (1 / 2 = (rsum f M / 2) / rsum f M)%Re by field.
by apply: lim0_div; [exact hne|exact: lim0_const|exact a3].
Qed.
Print Assumptions C95_half.

(** ** terms of one sign: where the two measures of the relative change differ *)
Theorem C95_window : forall (f : nat -> R) precision j, (0 < j)%coq_nat -> (0 < precision < 10)%Re -> (0 < rsum f (j - 1)%coq_nat <= rsum f j \/ rsum f j <= rsum f (j - 1)%coq_nat < 0)%Re ->
  (change_k0 f j < precision / 10 <-> change f j < precision / 10 / (1 - precision / 10))%Re.
Proof.
move=> f precision j hj hp hs; rewrite (change_same_sign f j hj hs); set p := (precision / 10)%Re; set x := change f j.
have x0 : (0 <= x)%Re by exact: Rabs_pos.
have p1 : (0 < p < 1)%Re by rewrite /p; lra.
have ex : (x / (1 + x) * (1 + x) = x)%Re by field; lra.
have ep : (p / (1 - p) * (1 - p) = p)%Re by field; lra.
split=> h.
- apply: (Rmult_lt_reg_r (1 - p)); first lra.
  have := Rmult_lt_compat_r (1 + x) _ _ _ h; rewrite ex ep; lra.
- apply: (Rmult_lt_reg_r (1 + x)); first lra.
  have := Rmult_lt_compat_r (1 - p) _ _ _ h; rewrite ex ep; lra.
Qed.
Print Assumptions C95_window.

(** ** no precision asked for: all wavenumbers *)
Lemma all_orders c m1 m2 ra rb e b precision conv : two_spheres c m1 m2 ra rb e b -> static_sphere m1 -> static_sphere m2 -> c_ext c = true -> mu_val b 0 = 1%Re -> (1 <= c_lmax c)%coq_nat -> (c_lmax c <= c_lssmax c)%coq_nat ->
  (conv < 1)%Re -> (precision <= 0)%Re ->
  (forall m, (m <= c_lmax c)%coq_nat -> exists d, limit0 (fun k => \det (1%:M - trip exact_bessels c (Z.of_nat m) k)) d /\ (0 < d)%Re) ->
  (forall m k, (m <= c_lmax c)%coq_nat -> (0 < k)%Re -> \det (1%:M - trip exact_bessels c (Z.of_nat m) k) <> 0) ->
  (forall m k, (m <= c_lmax c)%coq_nat -> (0 < k)%Re -> lnr exact_bessels c m k < 0)%Re \/ (forall m k, (m <= c_lmax c)%coq_nat -> (0 < k)%Re -> 0 < lnr exact_bessels c m k)%Re ->
  exists v0, let v k := rsum (fun m => lnr exact_bessels c m k) (c_lmax c) in
    [/\ f_alle_gives exact_bessels c precision conv [:: 0%Re] [:: v0], limit0 v (2 * v0)%Re & forall k, (0 < k)%Re -> f_alle_gives exact_bessels c precision conv [:: k] [:: v k]].
Proof.
move=> HC S1 S2 hx hmu hl hls hc hp hd0 hr hsgn.
have [d0 hd] := @Far_Proofs2.choose_upto R (fun m d => limit0 (fun k => \det (1%:M - trip exact_bessels c (Z.of_nat m) k)) d /\ (0 < d)%Re) 0%Re (c_lmax c) hd0.
have [M0 [a1 a2]] := half_static precision (or_intror erefl) HC S1 S2 hx hmu hl hls hc hd; rewrite (never_early _ _ _ _ hp a1) in a2.
exists (rsum (fun m => ln (d0 m)) (c_lmax c) / 2)%Re => v; split; first exact a2.
- have -> : (2 * (rsum (fun m => ln (d0 m)) (c_lmax c) / 2) = rsum (fun m => ln (d0 m)) (c_lmax c))%Re by field.
  by apply: (lim0_rsum (fun m k => lnr exact_bessels c m k)) => m hmx; have [l p] := hd m hmx; exact: lim0_lnabs.
- move=> k hk; have [h1 [h2 [hi [ha [hb hL]]]]] := HC; have hm := insulator_has _ _ _ hi.
  have hS : solids c m1 m2 ra rb (eps_spec e) (mu_val b) by split=> //; split=> //; split; [exact: static_solid|split; [exact: static_solid|]].
  have hg : good exact_bessels c [:: k].
    split=> //; split; first by move=> k' [<-|//].
    exact: (exact_at _ _ (trans_at_ext _ _ hx)).
  have [|M' [N hN]] := @mSumme_real exact_bessels c m1 m2 ra rb _ _ conv precision hS hc [:: k] hg.
    by move=> k' [<-|[]] m hmx; exact: hr.
  exists N => fuel /leP hf unk garbage t tf ta ts; have [st h] := hN fuel hf.
  have kin k' : In k' [:: k] -> k' = k by move=> [<-|[]].
  have hne : [:: k] <> nil by [].
  have eM : M' = c_lmax c.
    case: hsgn => hs.
    - refine (no_stop precision (c_lmax c) (fun m k => lnr exact_bessels c m k) _ _ _ hp hne _ st) => m k' hmx /kin ->; split; [exact: lnd_real (hr m k hmx hk)|exact: hs].
    - refine (no_stop_pos precision (c_lmax c) (fun m k => lnr exact_bessels c m k) _ _ _ hp hne _ st) => m k' hmx /kin ->; split; [exact: lnd_real (hr m k hmx hk)|exact: hs].
  have [s' [hs' E]] := h unk _ ts; exists (with_geom t s'); split; first exact hs'.
  rewrite F_alle_nonzero //; last lra.
  by rewrite /on_geom /= E eM.
Qed.
(** attraction at distances of five sums of the radii, repulsion at all distances *)
Theorem C95_attraction : forall c m1 m2 ra rb e b s precision conv N M, two_spheres c m1 m2 ra rb e b -> static_sphere m1 -> static_sphere m2 -> c_ext c = true -> (forall k, (0 <= k)%Re -> mu_val b k = 1%Re) ->
  (5 * (ra + rb) <= c_L c)%Re -> (forall k, (0 < k)%Re -> sharp s m1 (eps_spec e) (mu_val b) k /\ sharp s m2 (eps_spec e) (mu_val b) k) ->
  (1 <= N)%coq_nat -> (N <= M)%coq_nat -> (conv < 1)%Re -> (precision <= 0)%Re ->
  exists v0 v, [/\ f_alle_gives exact_bessels (truncated c N M) precision conv [:: 0%Re] [:: v0], limit0 v (2 * v0)%Re &
    forall k, (0 < k)%Re -> (v k < 0)%Re /\ f_alle_gives exact_bessels (truncated c N M) precision conv [:: k] [:: v k]].
Proof.
move=> c m1 m2 ra rb e b s precision conv N M HC S1 S2 hx hmu hL5 hcon a1 a2 hc hp.
have [h1 [h2 [hi [ha [hb hL]]]]] := HC; have hm := insulator_has _ _ _ hi.
have mu0 : mu_val b 0 = 1%Re by apply: hmu; right.
have hu' k (hk : (0 < k)%Re) : mu_val b k = 1%Re by apply: hmu; left.
have con k (hk : (0 < k)%Re) : contrast s m1 (eps_spec e) (mu_val b) k /\ contrast s m2 (eps_spec e) (mu_val b) k by have [g1 g2] := hcon k hk; split; exact: sharp_contrast.
have HC' : two_spheres (truncated c N M) m1 m2 ra rb e b by exact: HC.
have neg m k : (m <= N)%coq_nat -> (0 < k)%Re -> \det (1%:M - trip exact_bessels (truncated c N M) (Z.of_nat m) k) <> 0 /\ (lnr exact_bessels (truncated c N M) m k < 0)%Re.
  move=> a3 hk; have ho := orders_at c a1 a2 a3; have [g1 g2] := hcon k hk.
  have tp := @sharp_trace (truncated c N M) m1 m2 ra rb _ _ (Z.of_nat m) k s h1 h2 hx hm ha hb hL hk g1 g2 ho.
  have [_ dd [_ z]] := apart_det h1 h2 hx hm ha hb hL5 hu' con ho hk.
  rewrite (lnrE h1 h2 hx hm ha hb hL5 hu' con ho hk); split; first by move=> E; rewrite E in dd; exact: (Rlt_irrefl _ dd).
  have r (x y : R) : (0 < y -> x <= - y -> x < 0)%Re by lra.
  exact: (r _ _ tp z).
have hd m : (m <= N)%coq_nat -> exists d, limit0 (fun k => \det (1%:M - trip exact_bessels (truncated c N M) (Z.of_nat m) k)) d /\ (0 < d)%Re.
  move=> hmx; have [dd [tt [_ z _ [p _] _]]] := far_static HC' S1 S2 hx hmu hL5 con (orders_at c a1 a2 hmx).
  by exists dd; exact (conj z p).
have [v0 [b1 b2 b3]] := @all_orders (truncated c N M) m1 m2 ra rb e b precision conv HC' S1 S2 hx mu0 a1 a2 hc hp hd (fun m k hmx hk => proj1 (neg m k hmx hk)) (or_introl (fun m k hmx hk => proj2 (neg m k hmx hk))).
exists v0, (gsum c N M); split; [exact b1|exact b2|move=> k hk; split; last exact: (b3 k hk)].
by apply: rsum_neg => m hmx; exact: (proj2 (neg m k hmx hk)).
Qed.
Print Assumptions C95_attraction.
Theorem C95_repulsion : forall c m1 m2 ra rb e b s precision conv N M, two_spheres c m1 m2 ra rb e b -> static_sphere m1 -> static_sphere m2 -> c_ext c = true -> (forall k, (0 <= k)%Re -> mu_val b k = 1%Re) ->
  (ra + rb < c_L c)%Re -> (forall k, (0 < k)%Re -> sharp s m1 (eps_spec e) (mu_val b) k /\ sharp (- s) m2 (eps_spec e) (mu_val b) k) ->
  (1 <= N)%coq_nat -> (N <= M)%coq_nat -> (conv < 1)%Re -> (precision <= 0)%Re ->
  exists v0 v, [/\ f_alle_gives exact_bessels (truncated c N M) precision conv [:: 0%Re] [:: v0], limit0 v (2 * v0)%Re &
    forall k, (0 < k)%Re -> (0 < v k)%Re /\ f_alle_gives exact_bessels (truncated c N M) precision conv [:: k] [:: v k]].
Proof.
move=> c m1 m2 ra rb e b s precision conv N M HC S1 S2 hx hmu hab hcon a1 a2 hc hp.
have [h1 [h2 [hi0 [ha [hb hL]]]]] := HC; have hm := insulator_has _ _ _ hi0.
have mu0 : mu_val b 0 = 1%Re by apply: hmu; right.
have th1 : (0 < 1 <= 1)%Re by lra.
have hu k : (0 < k)%Re -> mu_val b k = 1%Re by move=> hk; apply: hmu; left.
have hq k : (0 < k)%Re -> (rate 1 (eps_spec e) (mu_val b) k ra rb (c_L c) < 1)%Re.
  move=> hk; have [_ [hpp _]] := hm; have [pe _] := hpp k hk; rewrite (rate_gap ra rb pe (hu k hk) hk hL).
  have iL : (0 < / c_L c)%Re by exact: Rinv_0_lt_compat.
  have p0 : (0 <= (ra + rb) / c_L c)%Re by apply: Rmult_le_pos; lra.
  have p1 : ((ra + rb) / c_L c < 1)%Re by apply: (Rmult_lt_reg_r (c_L c)) => //; rewrite /Rdiv Rmult_assoc Rinv_l; lra.
  simpl; nra.
have HC' : two_spheres (truncated c N M) m1 m2 ra rb e b by exact: HC.
have pos m k (hmx : (m <= N)%coq_nat) (hk : (0 < k)%Re) := @opp_strict c m1 m2 ra rb e b s 1%Re HC hx th1 hq hcon N M m k a1 a2 hmx hk.
have hd := @opp_limits c m1 m2 ra rb e b s 1%Re HC S1 S2 hx hmu th1 hq hcon N M a1 a2.
have [v0 [b1 b2 b3]] := @all_orders (truncated c N M) m1 m2 ra rb e b precision conv HC' S1 S2 hx mu0 a1 a2 hc hp hd (fun m k hmx hk => proj1 (pos m k hmx hk)) (or_intror (fun m k hmx hk => proj2 (pos m k hmx hk))).
exists v0, (gsum c N M); split; [exact b1|exact b2|move=> k hk; split; last exact: (b3 k hk)].
by apply: rsum_pos => m hmx; exact: (proj2 (pos m k hmx hk)).
Qed.
Print Assumptions C95_repulsion.
