(** * Properties C70 and C71: zero temperature, coated spheres *)
From Coq Require Import Reals.
From Coq Require Import List Lia Lra ZArith.
From mathcomp Require Import all_ssreflect ssralg matrix mxalgebra poly mxpoly.
From Verif Require Import Base RStruct Mat_Model Mat_Spec Thermo_Model Thermo_Spec Thermo_Proofs Geo_Model Geo_Spec Bessel_Model Scat_Model Scat_Spec Scat_Proofs Scat_Proofs7 Scat_Proofs9 Scat_Proofs10 Scat_Props2 Trans_Model Trans_Spec
  Lin_Model Lin_Spec Lin_Proofs Lin_Proofs2 RT_Model RT_Spec RT_Spec2 RT_Proofs2 RT_Proofs3 RT_Proofs4 RT_Props RT_Props2 RT_Props3 RT_Props5 RT_Props7
  Run_Model Run_Spec Run_Proofs Run_Proofs2 Run_Proofs3 Run_Proofs4 Run_Proofs5 Run_Proofs6 Run_Proofs7 Run_Props Run_Props2 Run_Props3 Zero_Model Coat_Model Zero_Proofs.
Set Implicit Arguments.
Unset Strict Implicit.
Import GRing.Theory.
Local Open Scope ring_scope.
Delimit Scope R_scope with Re.

(** ** C70: e0 is the quadrature of the sum over m at one wavenumber at a time.  [f]: the integrand at the points that are visited. *)
Theorem C70_e0 : forall mieb c m1 m2 ra rb e u precision conv quad a b t f, solids c m1 m2 ra rb e u -> (conv < 1)%Re -> sound mieb c (t_geom t) ->
  let q := quad a (match b with Finite b => Some b | Infinite => None | NoneB => Some (IZR (t_nmax t) * t_deltaT t)%Re end) in
  (forall x, In x (asked f q) -> [/\ (0 < x)%Re, elementwise_at mieb c [:: x], (forall m, (m <= c_lmax c)%coq_nat -> \det (1%:M - trip mieb c (Z.of_nat m) x) <> 0) &
     exists M, stops_at precision (c_lmax c) (fun m k => ln_abs_det (1%:M - trip mieb c (Z.of_nat m) k)) [:: x] M /\
       f x = rsum (fun m => ln (Rabs (\det (1%:M - trip mieb c (Z.of_nat m) x)))) M]) ->
  exists N, forall fuel, (N <= fuel)%N -> forall unk garbage, exists t',
    [/\ e0 (ops unk fuel mieb trans_bessels c precision conv false garbage) quad a b t = (t', Ok (answer f q)), sound mieb c (t_geom t') & with_geom t (t_geom t') = t'].
Proof.
move=> mieb c m1 m2 ra rb e u precision conv quad a b t f hS hc hs q hq.
have [x hx|N hN] := @fuel_for _ (fun x fuel => forall unk s, sound mieb c s -> exists s', sound mieb c s' /\
    s_finite unk (geo_mSumme unk fuel mieb trans_bessels c precision conv [:: x]) s = (s', Ok [:: f x])) (asked f q).
  have [x0 hel hreg [M [hM hf]]] := hq x hx.
  have hg : good mieb c [:: x] by split=> //; split=> // y [<-|//].
  have [k [<-|//]|M' [N hN]] := @mSumme_real mieb c m1 m2 ra rb e u conv precision hS hc [:: x] hg; first exact: hreg.
  exists N => fuel /leP hfu unk s hs1; have [hM' h] := hN fuel hfu; have [s' [hs' E]] := h unk s hs1; exists s'; split=> //.
  by rewrite E /= (stops_unique hM' hM) hf.
exists N => fuel /leP hf unk garbage; rewrite /e0.
have [x hx t1 [hs1 ht1]||t' [[hs' ht'] E]] := @integrate_run _ (fun x => mbind (on_geom (g_mSumme (ops unk fuel mieb trans_bessels c precision conv false garbage) [:: x])) (@scalar _)) f
  (fun t' => sound mieb c (t_geom t') /\ with_geom t (t_geom t') = t') q _ t; last by exists t'; split.
- have [s' [hs' E]] := hN fuel hf x hx unk (t_geom t1) hs1; exists (with_geom t1 s'); split; first by rewrite -ht1; split.
  by rewrite /mbind /on_geom /= E.
- by split=> //; case: (t).
Qed.
Print Assumptions C70_e0.

(** after a force calculation has left its flag in the geometry, no energy can be computed *)
Theorem C70_e0_flag_refuted : forall mieb c m1 m2 ra rb e u precision conv quad a b t x next, solids c m1 m2 ra rb e u -> g_force (t_geom t) = true ->
  quad a (match b with Finite b => Some b | Infinite => None | NoneB => Some (IZR (t_nmax t) * t_deltaT t)%Re end) = Ask x next -> (0 < x)%Re -> elementwise_at mieb c [:: x] ->
  forall unk fuel garbage, snd (e0 (ops unk fuel mieb trans_bessels c precision conv false garbage) quad a b t) = Err AttributeError.
Proof.
move=> mieb c m1 m2 ra rb e u precision conv quad a b t x next hS hf hq hx hel unk fuel garbage.
have [//|k [<-|//]|s' [E _]] := @C68_flag_refuted mieb c m1 m2 ra rb e u precision conv [:: x] hS _ _ hel unk fuel _ hf; first exact: hx.
have E2 : s_finite unk (geo_mSumme unk fuel mieb trans_bessels c precision conv [:: x]) (t_geom t) = (s', Err AttributeError) by rewrite /s_finite /mbind E.
rewrite /e0 hq; cbn [integrate]; rewrite /mbind /on_geom; cbn [g_mSumme ops].
by rewrite E2.
Qed.
Print Assumptions C70_e0_flag_refuted.

(** F_tempcorr fails in the first evaluation of its integrand, l_konvergenz always *)
Theorem C70_tempcorr_refuted : forall (G : Type) fuel quad (t : finiteT G) x next, t_deltaT t <> 0%Re -> quad 1%Re = Ask x next -> F_tempcorr fuel.+1 quad t = (t, Err TypeError).
Proof. by move=> G fuel quad t x next h hq; rewrite /F_tempcorr; case: Reqb_spec => // _ /=; rewrite /mbind hq. Qed.
Print Assumptions C70_tempcorr_refuted.
Theorem C70_konvergenz_refuted : forall (G : Type) r1 r2 L ls1 ls2 l1 l2 (t : finiteT G),
  (exists e, l_konvergenz r1 r2 L ls1 ls2 l1 l2 t = (t, Err e)) /\
  (forall x y, r1 = RSolid x -> r2 = RSolid y -> (0 < x)%Re -> (0 < y)%Re -> l_konvergenz r1 r2 L ls1 ls2 l1 l2 t = (t, Err AttributeError)).
Proof.
move=> G r1 r2 L ls1 ls2 l1 l2 t; split.
- rewrite /l_konvergenz; case: (sphere_init _ _ _ _ _ _ _ _ _) => [a|e]; last by exists e.
  by case: (sphere_init _ _ _ _ _ _ _ _ _) => [a'|e]; eexists.
- move=> x y -> -> hx hy; rewrite /l_konvergenz /sphere_init /=.
  have h : Rmin x y <> 0%Re by rewrite /Rmin; case: Rle_dec => _; lra.
  by case: Reqb_spec.
Qed.
Print Assumptions C70_konvergenz_refuted.

(** ** C71: coated spheres *)
(** every evaluation at finite frequency fails, and leaves the object as it is *)
Theorem C71_finite_refuted : forall unk fuel transb k precision conv ks s, g_K s = None -> ks <> nil -> List.hd 0%Re ks <> 0%Re ->
  coated_mSumme unk fuel transb k precision conv ks s = (s, Err TypeError).
Proof. exact: coated_fails. Qed.
Print Assumptions C71_finite_refuted.
(** so there is no free energy and no entropy, in every state that can be reached ([g_K = None]) *)
Theorem C71_free_energy_refuted : forall unk fuel transb k precision conv garbage t nmax, t_nmax t = Z.of_nat nmax -> (1 <= nmax)%coq_nat -> t_nprocs t = 0%Z -> t_f t = None -> t_deltaT t <> 0%Re -> g_K (t_geom t) = None ->
  let o := coated_ops unk fuel transb k precision conv in
  exists t' e, [/\ free_energy o garbage t = (t', Err e), entropy o garbage t = (t', Err e), t_analytic t = false \/ t_force t = true -> e = TypeError /\ t' = t &
    forall g v, t_analytic t = true -> t_force t = false -> coated_mSumme_k0 unk fuel transb k precision conv (t_geom t) = (g, Ok [:: Fin v]) -> e = TypeError].
Proof.
move=> unk fuel transb k precision conv garbage t nmax Hn Hn1 Hp Hf Hd HK o.
by have [t' [e [h1 [h2 [h3 h4]]]]] := coated_energy unk fuel transb k precision conv garbage t nmax Hn Hn1 Hp Hf Hd HK; exists t', e.
Qed.
Print Assumptions C71_free_energy_refuted.
Theorem C71_reachable : forall unk fuel transb k precision conv, g_K coated_fresh = None /\
  forall s, g_K s = None -> g_K (fst (coated_mSumme_k0 unk fuel transb k precision conv s)) = None.
Proof. by move=> unk fuel transb k precision conv; split=> // s h; rewrite /coated_mSumme_k0 mSumme_k0_keeps. Qed.
Print Assumptions C71_reachable.
(** the zero-frequency term ignores the cores: it is that of solid spheres made of the coatings; with the default forceFlag it fails too *)
Theorem C71_core_refuted : forall unk fuel transb precision conv r1i r1i' r1 core1 core1' coat1 r2i r2i' r2 core2 core2' coat2 L med lmax ls ls' ff s,
  let k := {| k_r1i := r1i; k_r1a := r1; k_core1 := core1; k_coat1 := coat1; k_r2i := r2i; k_r2a := r2; k_core2 := core2; k_coat2 := coat2; k_L := L; k_med := med; k_lmax := lmax; k_lssmax := ls; k_force := ff |} in
  let k' := {| k_r1i := r1i'; k_r1a := r1; k_core1 := core1'; k_coat1 := coat1; k_r2i := r2i'; k_r2a := r2; k_core2 := core2'; k_coat2 := coat2; k_L := L; k_med := med; k_lmax := lmax; k_lssmax := ls'; k_force := ff |} in
  let solid := {| c_1 := Solid coat1 r1; c_2 := Solid coat2 r2; c_med := med; c_L := L; c_lmax := lmax; c_lssmax := ff; c_ext := Rltb (r1 + r2) L; c_mat := fun=> coat1 |} in
  coated_mSumme_k0 unk fuel transb k precision conv s = coated_mSumme_k0 unk fuel transb k' precision conv s /\
  coated_mSumme_k0 unk fuel transb k precision conv s = geo_mSumme_k0 unk fuel transb solid precision conv s.
Proof. by []. Qed.
Print Assumptions C71_core_refuted.
Theorem C71_default_refuted : forall unk fuel transb k precision conv s, k_force k = 0%N -> (2 <= k_lmax k)%coq_nat ->
  exists e s', coated_mSumme_k0 unk fuel transb k precision conv s = (s', Err e).
Proof. exact: coated_default. Qed.
Print Assumptions C71_default_refuted.

(** ** Non-vacuity *)
(** one evaluation at wavenumber 1 for a bubble and a perfectly conducting sphere in water *)
Definition one_point (a : R) (b : option R) : strategy := Ask 1 (fun y => Done y 0).
Example C70_bubble : exists M N, stops_at 1e-4 3 (fun m k => ln_abs_det (1%:M - trip exact_bessels bubble_in_water (Z.of_nat m) k)) [:: 1%Re] M /\
  forall fuel, (N <= fuel)%N -> forall unk garbage,
  snd (e0 (ops unk fuel exact_bessels trans_bessels bubble_in_water 1e-4 1e-10 false garbage) one_point 0 Infinite (task 1 3 60 true)) =
    Ok (rsum (fun m => ln (Rabs (\det (1%:M - trip exact_bessels bubble_in_water (Z.of_nat m) 1)))) M, 0%Re).
Proof.
have e9 : (1e-10 < 1)%Re by lra. have d1 : (0 < 1)%Re by lra.
have hel : elementwise_at exact_bessels bubble_in_water [:: 1%Re] by apply: exact_at; exact: trans_at_ext.
have hg : good exact_bessels bubble_in_water [:: 1%Re] by split=> //; split=> // y [<-|//].
have hreg m : (m <= 3)%coq_nat -> \det (1%:M - trip exact_bessels bubble_in_water (Z.of_nat m) 1%Re) <> 0 by exact: bubble_regular.
have [k [<-|//]|M [N1 h1]] := @mSumme_real exact_bessels bubble_in_water _ _ _ _ _ _ 1e-10 1e-4 bubble_solids e9 [:: 1%Re] hg; first exact: hreg.
have [hM _] := h1 N1 (leqnn N1).
have hs : sound exact_bessels bubble_in_water (t_geom (task 1 3 60 true)) by exact: sound_fresh.
pose f (_ : R) := rsum (fun m => ln (Rabs (\det (1%:M - trip exact_bessels bubble_in_water (Z.of_nat m) 1%Re)))) M.
have [x [<-|//]|N h] := @C70_e0 exact_bessels bubble_in_water _ _ _ _ _ _ 1e-4 1e-10 one_point 0%Re Infinite (task 1 3 60 true) f bubble_solids e9 hs.
  by split=> //; exists M.
exists M, N; split=> // fuel hf unk garbage; have [t' [E _ _]] := h fuel hf unk garbage.
by rewrite E.
Qed.
Example C70_flag : forall unk fuel garbage,
  snd (e0 (ops unk fuel exact_bessels trans_bessels bubble_in_water 1e-4 1e-10 false garbage) one_point 0 Infinite (with_geom (task 1 3 60 true) (fresh true))) = Err AttributeError.
Proof. by move=> unk fuel garbage; apply: (C70_e0_flag_refuted _ _ bubble_solids (x := 1%Re) (next := fun y => Done y 0)) => //; [lra|apply: exact_at; exact: trans_at_ext]. Qed.
Example C70_others : forall t : finiteT gstate, t_deltaT t = 1%Re ->
  F_tempcorr 1 (fun w => Ask (1 / w) (fun y => Done y 0)) t = (t, Err TypeError) /\ l_konvergenz (RSolid 1) (RSolid 2) 4 5 5 10 20 t = (t, Err AttributeError).
Proof.
move=> t ht; split; first by apply: C70_tempcorr_refuted => //; rewrite ht; lra.
by have [_ h] := C70_konvergenz_refuted (RSolid 1) (RSolid 2) 4 5 5 10 20 t; apply: h => //; lra.
Qed.
(** perfectly conducting cores below a coating with the optical properties of vacuum *)
Definition coated_pair : coated := {| k_r1i := 0.9; k_r1a := 1; k_core1 := PEC; k_coat1 := Lorentz [::] None; k_r2i := 1.9; k_r2a := 2; k_core2 := PEC; k_coat2 := Lorentz [::] None;
  k_L := 4; k_med := Lorentz [::] None; k_lmax := 3; k_lssmax := 3; k_force := 0 |}.
Example C71_pair : forall unk fuel transb garbage,
  snd (coated_mSumme unk fuel transb coated_pair 1e-4 1e-10 [:: 1; 2]%Re coated_fresh) = Err TypeError /\
  (exists e s', coated_mSumme_k0 unk fuel transb coated_pair 1e-4 1e-10 coated_fresh = (s', Err e)) /\
  (exists e, snd (free_energy (coated_ops unk fuel transb coated_pair 1e-4 1e-10) garbage (with_geom (task 1 3 60 true) coated_fresh)) = Err e) /\
  snd (free_energy (coated_ops unk fuel transb coated_pair 1e-4 1e-10) garbage (with_geom (task 1 3 60 false) coated_fresh)) = Err TypeError.
Proof.
move=> unk fuel transb garbage; have h10 : 1%Re <> 0%Re by lra.
split; first by rewrite C71_finite_refuted.
split; first by apply: C71_default_refuted => /=; lia.
have [||||||t1 [e1 [-> _ _ _]]] := @C71_free_energy_refuted unk fuel transb coated_pair 1e-4 1e-10 garbage (with_geom (task 1 3 60 true) coated_fresh) 60; try by rewrite /=; lia.
- by [].
- by [].
- by [].
split; first by exists e1.
have [||||||t2 [e2 [-> _ h _]]] := @C71_free_energy_refuted unk fuel transb coated_pair 1e-4 1e-10 garbage (with_geom (task 1 3 60 false) coated_fresh) 60; try by rewrite /=; lia.
- by [].
- by [].
- by [].
by have [->] := h (or_introl erefl).
Qed.
