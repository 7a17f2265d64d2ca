(** * Property C102: solid and stratified spheres attract each other less at larger distances *)
From Coq Require Import Reals.
From Coq Require Import List Lia Lra ZArith.
From mathcomp Require Import all_ssreflect ssralg ssrnum fingroup perm matrix mxalgebra poly mxpoly.
From Verif Require Import Base RStruct Mat_Model Mat_Spec Mat_Proofs Thermo_Model Thermo_Proofs Geo_Model Geo_Spec Bessel_Model Scat_Model Scat_Spec Scat_Proofs Scat_Proofs4 Scat_Proofs7 Scat_Proofs9 Scat_Proofs10 Scat_Props Scat_Props2 Trans_Model Trans_Spec Trans_Proofs3
  Lin_Model Lin_Spec Bal_Proofs Lin_Proofs Trip_Proofs Lin_Proofs2 RT_Model RT_Spec RT_Spec2 RT_Proofs RT_Proofs2 RT_Proofs3 RT_Proofs4 RT_Proofs6 RT_Proofs7 RT_Proofs8 RT_Proofs9 RT_Proofs10
  RT_Props RT_Props2 RT_Props3 RT_Props5 Exp_Proofs2 Lap_Proofs2 Mono_Proofs Mono_Proofs2 Mono_Proofs3 RT_Props8 Cut_Proofs RT_Props9
  Run_Model Run_Spec Run_Proofs Run_Proofs2 Run_Proofs3 Run_Proofs4 Run_Proofs5 Run_Proofs9 Run_Props Run_Props2 Run_Props7 Conv_Spec Conv_Spec2 Conv_Proofs3 Conv_Proofs4 Conv_Proofs5 Conv_Proofs6 Conv_Proofs8 Conv_Proofs9 Conv_Props Conv_Props2
  Rad_Spec Rad_Proofs Rad_Proofs2 RT_Props10 Layer_Spec Layer_Proofs3 Layer_Proofs4 Layer_Props Bodies_Spec Bodies_Proofs Bodies_Proofs2 Bodies_Proofs3 Bodies_Props Bodies_Proofs4 Bodies_Props2 Bodies_Spec2 Bodies_Proofs6 Bodies_Props3.
Set Implicit Arguments.
Unset Strict Implicit.
Import GRing.Theory.
Local Open Scope ring_scope.
Delimit Scope R_scope with Re.

(** ** two bodies both denser or both thinner than the medium *)
Theorem C102_distance : forall c e u m k s conv L L', c_ext c = true -> has (c_med c) e u -> (0 < k)%Re -> some_orders c m -> body c s (c_1 c) e u k -> body c s (c_2 c) e u k -> (conv < 1)%Re -> (0 < L)%Re -> (L < L')%Re ->
  let U L := trip exact_bessels (at_distance c L) m k in
  (forall j, (0 <= \tr (mxpow (U L') j.+1) <= \tr (mxpow (U L) j.+1))%Re) /\
  ((\tr (U L) < 1)%Re -> exists v v' N, (forall fuel, (N <= fuel)%N -> rt_lndet exact_bessels trans_bessels (at_distance c L) fuel conv m [:: k] = Some (Val [:: Fin v]) /\
      rt_lndet exact_bessels trans_bessels (at_distance c L') fuel conv m [:: k] = Some (Val [:: Fin v'])) /\ (v + (\tr (U L) - \tr (U L')) <= v' <= - \tr (U L'))%Re).
Proof.
move=> c e u m k s conv L L' hx hm hk ho g1 g2 hc h0 h1 U.
have [s1 [A eA]] := body_A hm hk g1; have [s2 [B eB]] := body_B hm hk hx g2.
have [t1 t2] := distance_gap hx hm hk ho (body_sq g1) s1 s2 h0 h1.
split; first exact: t1.
have h2 : (0 < L')%Re by lra.
move=> ht; have [d d' hv] := t2 ht; have [N hN] := distance_run eA eB hm hk ho hc h0 h2 d d'.
exists (ln (\det (1%:M - U L))), (ln (\det (1%:M - U L'))), N; split; first exact: hN.
split; first exact: hv.
have [_ r2] := @C98_attraction (at_distance c L') e u m k s conv hx hm h2 hk ho g1 g2 hc.
have [_ tt] := t1 0%N; rewrite /mxpow /= !mulmx1 in tt.
have [w [N2 [hw [_ hw2]]]] := r2 (Rle_lt_trans _ _ _ tt ht).
have [_ ew] := hN (maxn N N2) (leq_maxl _ _); move: (hw (maxn N N2) (leq_maxr _ _)); rewrite ew => -[->]; exact: hw2.
Qed.
Print Assumptions C102_distance.

Lemma bright_distance c e u m k L L' : c_ext c = true -> has (c_med c) e u -> (0 < k)%Re -> some_orders c m -> body c 1 (c_1 c) e u k -> body c 1 (c_2 c) e u k -> bright c (c_1 c) e u k -> bright c (c_2 c) e u k -> (0 < L)%Re -> (L < L')%Re ->
  (0 < \tr (trip exact_bessels (at_distance c L') m k) < \tr (trip exact_bessels (at_distance c L) m k))%Re.
Proof.
move=> hx hm hk ho g1 g2 b1 b2 h0 h1; have [o0 [o1 o2]] := ho.
have [s1 _] := body_A hm hk g1; have [s2 _] := body_B hm hk hx g2.
have lE : lmin m = (Nat.sub (lmin m) 1).+1 by rewrite /lmin; lia.
have lA : (Nat.sub (lmin m) 1 < c_lmax c)%coq_nat by rewrite /lmin; lia.
have lB : (Nat.sub (lmin m) 1 < c_lssmax c)%coq_nat by rewrite /lmin; lia.
have r (x y : R) : (0 < x * y -> 0 < 1 * x * y)%Re by rewrite Rmult_1_l.
have t1 : (0 < 1 * (-1) ^ lmin m * entry TE (mieA exact_bessels c) (Nat.sub (lmin m) 1) k)%Re.
  by apply: r; rewrite {1}lE; exact: (C101_coefficients hm hk g1 b1 lA).
have t2 : (0 < 1 * (-1) ^ lmin m * entry TE (mieB exact_bessels c) (Nat.sub (lmin m) 1) k)%Re.
  by apply: r; rewrite {1}lE /mieB hx; exact: (C101_coefficients hm hk g2 b2 lB).
exact: (distance_strict hx hm hk ho (body_sq g1) s1 s2 h0 h1 t1 t2).
Qed.

(** ** bodies that scatter: strictly less *)
Theorem C102_strict : forall c e u m k conv L L', c_ext c = true -> has (c_med c) e u -> (0 < k)%Re -> some_orders c m -> body c 1 (c_1 c) e u k -> body c 1 (c_2 c) e u k -> bright c (c_1 c) e u k -> bright c (c_2 c) e u k ->
  (conv < 1)%Re -> (0 < L)%Re -> (L < L')%Re -> let U L := trip exact_bessels (at_distance c L) m k in
  (0 < \tr (U L') < \tr (U L))%Re /\
  ((\tr (U L) < 1)%Re -> exists v v' N, (forall fuel, (N <= fuel)%N -> rt_lndet exact_bessels trans_bessels (at_distance c L) fuel conv m [:: k] = Some (Val [:: Fin v]) /\
      rt_lndet exact_bessels trans_bessels (at_distance c L') fuel conv m [:: k] = Some (Val [:: Fin v'])) /\ (v < v')%Re /\ (v' < 0)%Re).
Proof.
move=> c e u m k conv L L' hx hm hk ho g1 g2 b1 b2 hc h0 h1 U.
have [p0 p1] := bright_distance hx hm hk ho g1 g2 b1 b2 h0 h1; split; first by split.
have [_ t2] := C102_distance hx hm hk ho g1 g2 hc h0 h1.
move=> ht; have [v [v' [N [hN [v1 v2]]]]] := t2 ht; exists v, v', N; split; first exact: hN.
have aux (a b x y : R) : (a + (x - y) <= b -> y < x -> a < b)%Re by lra.
have aux2 (a x : R) : (a <= - x -> 0 < x -> a < 0)%Re by lra.
by split; [exact: (aux _ _ _ _ v1 p1)|exact: (aux2 _ _ v2 p0)].
Qed.
Print Assumptions C102_strict.

Lemma matsubara_lt (g g' : R -> R) k0 dT n i : (0 < dT)%Re -> (0 < k0)%Re -> (1 <= i)%coq_nat -> (forall k, (0 < k)%Re -> (g k < g' k)%Re) -> (matsubara g k0 dT n i < matsubara g' k0 dT n i)%Re.
Proof.
move=> hT h0 hi h; have Pi : (0 < INR i)%Re by apply: lt_0_INR; lia.
have PT := Rmult_lt_0_compat _ _ Pi hT; rewrite /matsubara; apply: Rmult_lt_compat_l => //; apply: Rplus_lt_le_compat; first by have := h _ h0; lra.
apply: Rsum_map_le => j /in_seq [hj _]; left; apply: h; apply: Rmult_lt_0_compat => //; apply: lt_0_INR; lia.
Qed.

(** ** complete calculations *)
Theorem C102_free_energy : forall c p q e u precision conv t nmax L L', c_ext c = true -> has (c_med c) e u -> (1 <= c_lmax c)%coq_nat -> (c_lmax c <= c_lssmax c)%coq_nat -> (5 * (rim p + rim q) <= L)%Re -> (L < L')%Re ->
  (forall k, (0 < k)%Re -> u k = 1%Re) -> (forall k, (0 < k)%Re -> body c 1 p e u k /\ body c 1 q e u k) -> (forall k, (0 < k)%Re -> bright c p e u k /\ bright c q e u k) ->
  (conv < 1)%Re -> (precision <= 0)%Re -> (1 <= nmax)%coq_nat -> let d L := with_spheres (at_distance c L) p q in
  ready exact_bessels (d L) t nmax -> ready exact_bessels (d L') t nmax -> t_analytic t = false ->
  exists N, forall fuel, (N <= fuel)%N -> forall unk garbage empty, exists t1 t2 F F',
    [/\ free_energy (ops unk fuel exact_bessels trans_bessels (d L) precision conv false garbage) empty t = (t1, Ok F),
        free_energy (ops unk fuel exact_bessels trans_bessels (d L') precision conv false garbage) empty t = (t2, Ok F'),
        List.length F = Z.to_nat (pyround (t_Tmax t / t_deltaT t)), List.length F' = List.length F &
        forall i : nat, (i < List.length F)%coq_nat -> exists x x', [/\ List.nth_error F i = Some x, List.nth_error F' i = Some x', (x < x')%Re & (x' < 0)%Re]].
Proof.
move=> c p q e u precision conv t nmax L L' hx hm o1 o2 hL5 hLL hu hb hg hc hp hn d hR hR' hA.
have [b1 b2] := hb 1%Re Rlt_0_1; have ra := rim_pos hm Rlt_0_1 b1; have rb := rim_pos hm Rlt_0_1 b2.
have hL : (0 < L)%Re by lra.
have hL' : (0 < L')%Re by lra.
have hL5' : (5 * (rim p + rim q) <= L')%Re by lra.
have e10 : (0 < 1e-10)%Re by lra.
have [_ [_ [_ [HT _]]]] := hR.
have hS l : (0 < l)%Re -> objects (d l) e u by move=> hl; do 6 (split; first by [apply: (body_object b1)|apply: (body_object b2)|]).
have neg l m k : (5 * (rim p + rim q) <= l)%Re -> (m <= c_lmax (d l))%coq_nat -> (0 < k)%Re -> \det (1%:M - trip exact_bessels (d l) (Z.of_nat m) k) <> 0 /\ (lnr exact_bessels (d l) m k < 0)%Re.
  by move=> hl a3 hk; have [g1 g2] := hg k hk; exact: (@far_neg (at_distance c l) p q e u hx hm hl hu hb (c_lmax c) (c_lssmax c) m k o1 o2 a3 hk g1 g2).
have less m k : (m <= c_lmax c)%coq_nat -> (0 < k)%Re -> (lnr exact_bessels (d L) m k < lnr exact_bessels (d L') m k)%Re.
  move=> a3 hk; have [g1 g2] := hb k hk; have [z1 z2] := hg k hk.
  have ho : some_orders (with_spheres c p q) (Z.of_nat m) by rewrite /some_orders /=; lia.
  have [_ p1] := @bright_distance (with_spheres c p q) e u (Z.of_nat m) k L L' hx hm hk ho g1 g2 z1 z2 hL hLL.
  have [s1 _] := @body_A (with_spheres c p q) e u k hm hk 1 g1; have [s2 _] := @body_B (with_spheres c p q) e u k hm hk 1 hx g2.
  have [_ t2] := @distance_gap exact_bessels (with_spheres c p q) (Z.of_nat m) k e u 1 hx hm hk ho (body_sq g1) s1 s2 L L' hL hLL.
  have ho1 : some_orders (truncated (d L) (c_lmax c) (c_lssmax c)) (Z.of_nat m) by [].
  have [[_ tb] _ _] := @far_det (at_distance c L) p q e u hx hm hL5 hu hb (c_lmax c) (c_lssmax c) (Z.of_nat m) k ho1 hk.
  have bh := @far_half (at_distance c L) p q e u hm hL5 hb (Z.of_nat m) k hk.
  have ht : (\tr (trip exact_bessels (d L) (Z.of_nat m) k) < 1)%Re by apply: (Rle_lt_trans _ _ _ tb); lra.
  have [d1 d2 hv] := t2 ht; rewrite /lnr !Rabs_pos_eq; [|by left|by left].
  have aux (a b x y : R) : (a + (x - y) <= b -> y < x -> a < b)%Re by lra.
  exact: (aux _ _ _ _ hv p1).
have [N1 hN1] := full_bodies (hS L hL) hc hp hR hA hn (fun m k => neg L m k hL5); have [N2 hN2] := full_bodies (hS L' hL') hc hp hR' hA hn (fun m k => neg L' m k hL5').
exists (maxn N1 N2) => fuel; rewrite geq_max => /andP [f1 f2] unk garbage empty.
have [t1 [F [E1 E2 E3]]] := hN1 fuel f1 unk garbage empty; have [t2 [F' [E1' E2' E3']]] := hN2 fuel f2 unk garbage empty.
have EL : List.length F' = List.length F by rewrite E2 E2'.
exists t1, t2, F, F'; split=> // i hi; have hi' : (i < List.length F')%coq_nat by rewrite EL.
have i1 : (1 <= i.+1)%coq_nat by lia.
eexists; eexists; split; [exact: (E3 i hi)|exact: (E3' i hi')| |].
- by apply: matsubara_lt => // k hk; apply: rsum_lt => m hmx; exact: less.
- have z : matsubara (fun=> 0%Re) 1e-10 (t_deltaT t) nmax i.+1 = 0%Re.
    rewrite /matsubara; have -> : Rsum (List.map (fun=> 0%Re) (List.seq 1 (Nat.div nmax i.+1))) = 0%Re; last by lra.
    by elim: (List.seq _ _) => [//|a l IH] /=; rewrite IH; lra.
  rewrite -z; apply: matsubara_lt => // k hk; apply: rsum_neg => m hmx; exact: (proj2 (neg L' m k hL5' hmx hk)).
Qed.
Print Assumptions C102_free_energy.

(** ** Non-vacuity: the coated reflector and the hollow gold sphere at the distances 20 and 25 *)
Example C102_shells nmax : (1 <= nmax)%coq_nat ->
  exists N, forall fuel, (N <= fuel)%N -> forall unk garbage empty, exists t1 t2 F F',
    [/\ free_energy (ops unk fuel exact_bessels trans_bessels (at_distance shells 20) 0 1e-10 false garbage) empty (task (1 / 10) 3 nmax false) = (t1, Ok F),
        free_energy (ops unk fuel exact_bessels trans_bessels (at_distance shells 25) 0 1e-10 false garbage) empty (task (1 / 10) 3 nmax false) = (t2, Ok F'),
        List.length F = Z.to_nat (pyround (3 / (1 / 10))), List.length F' = List.length F &
        forall i : nat, (i < List.length F)%coq_nat -> exists x x', [/\ List.nth_error F i = Some x, List.nth_error F' i = Some x', (x < x')%Re & (x' < 0)%Re]].
Proof.
move=> hn; have d1 : (0 < 1 / 10)%Re by lra.
apply: (@C102_free_energy shells coated_pec hollow_gold (eps_spec [::]) (mu_val None) 0%Re 1e-10%Re (task (1 / 10) 3 nmax false) nmax 20%Re 25%Re erefl vacuum_has _ _ _ _ _ _ _ _ _ hn (@task_ready _ _ _ _ _ _ d1) (@task_ready _ _ _ _ _ _ d1) erefl); try (rewrite /=; lia); try (rewrite /=; lra).
- by [].
- by move=> k hk; have [h1 [h2 _]] := C98_example hk.
- exact: shells_bright.
Qed.
Example C102_pair : (0 < \tr (trip exact_bessels (at_distance shells 5) 1 2) < \tr (trip exact_bessels (at_distance shells 4) 1 2))%Re.
Proof.
have p2 : (0 < 2)%Re by lra.
have [g1 [g2 [_ [ho _]]]] := C98_example p2; have [z1 z2] := shells_bright p2.
by apply: (@bright_distance shells (eps_spec [::]) (mu_val None) 1 2 4 5 erefl vacuum_has p2 ho g1 g2 z1 z2); lra.
Qed.
