(** * Property C106, continued: the error of a finite number of frequencies, and single wavenumbers *)
From Coq Require Import Reals.
From Coq Require Import List Lia Lra ZArith Sorted.
From mathcomp Require Import all_ssreflect ssralg ssrnum fingroup perm matrix mxalgebra poly mxpoly.
From Verif Require Import Base RStruct Mat_Model Mat_Spec Mat_Proofs Thermo_Model Thermo_Proofs Geo_Model Geo_Spec Bessel_Model Scat_Model Scat_Spec Scat_Proofs Scat_Proofs4 Scat_Proofs7 Scat_Proofs9 Scat_Proofs10 Scat_Props Scat_Props2 Trans_Model Trans_Spec Trans_Proofs3
  Lin_Model Lin_Spec Bal_Proofs Lin_Proofs Trip_Proofs Lin_Proofs2 RT_Model RT_Spec RT_Spec2 RT_Proofs RT_Proofs2 RT_Proofs3 RT_Proofs4 RT_Proofs6 RT_Proofs7 RT_Proofs8 RT_Proofs9 RT_Proofs10
  RT_Props RT_Props2 RT_Props3 RT_Props5 Exp_Proofs2 Lap_Proofs2 Mono_Proofs Mono_Proofs2 Mono_Proofs3 RT_Props8 Cut_Proofs RT_Props9 RT_Props10
  Run_Model Run_Spec Run_Proofs Run_Proofs2 Run_Proofs3 Run_Proofs4 Run_Proofs5 Run_Proofs9 Run_Props Run_Props2 Run_Props7 Conv_Spec Conv_Spec2 Conv_Proofs3 Conv_Proofs4 Conv_Proofs5 Conv_Proofs6 Conv_Proofs8 Conv_Proofs9 Conv_Props Conv_Props2
  Far_Proofs3 Lim_Proofs Lim_Proofs2 Lim_Proofs3 Lim_Props Rep_Spec Rep_Proofs Rep_Props
  Rad_Spec Rad_Proofs Rad_Proofs2 Layer_Spec Layer_Proofs3 Layer_Proofs4 Layer_Props Bodies_Spec Bodies_Proofs Bodies_Proofs2 Bodies_Proofs3 Bodies_Props Bodies_Proofs4 Bodies_Props2 Bodies_Spec2 Bodies_Proofs6 Bodies_Props3 Bodies_Proofs7 Bodies_Props5 Bodies_Proofs8 Bodies_Props6 Bodies_Spec3 Bodies_Proofs9 Bodies_Props7 Bodies_Props4 Bodies_Props8.
Set Implicit Arguments.
Unset Strict Implicit.
Import GRing.Theory.
Local Open Scope ring_scope.
Delimit Scope R_scope with Re.


(** ** the contribution of the frequencies beyond nmax is exponentially small *)
Theorem C106_frequencies : forall c p q e u e0 s precision conv t t' nmax nmax', c_ext c = true -> has (c_med c) e u -> (1 <= c_lmax c)%coq_nat -> (c_lmax c <= c_lssmax c)%coq_nat -> (5 * (rim p + rim q) <= c_L c)%Re ->
  (0 < e0)%Re -> (forall k, (0 < k)%Re -> u k = 1%Re /\ (e0 <= e k)%Re) -> (forall k, (0 < k)%Re -> body c s p e u k /\ body c s q e u k) -> (forall k, (0 < k)%Re -> visible c s p e u k /\ visible c s q e u k) ->
  (conv < 1)%Re -> (precision <= 0)%Re -> (1 <= nmax)%coq_nat -> (nmax <= nmax')%coq_nat -> let d := with_spheres c p q in
  ready exact_bessels d t nmax -> ready exact_bessels d t' nmax' -> t_analytic t = false -> t_analytic t' = false -> t_deltaT t' = t_deltaT t -> t_Tmax t' = t_Tmax t ->
  exists Nf, forall fuel, (Nf <= fuel)%N -> forall unk garbage empty, exists t1 t2 F F',
    [/\ free_energy (ops unk fuel exact_bessels trans_bessels d precision conv false garbage) empty t = (t1, Ok F),
        free_energy (ops unk fuel exact_bessels trans_bessels d precision conv false garbage) empty t' = (t2, Ok F'),
        List.length F = Z.to_nat (pyround (t_Tmax t / t_deltaT t)), List.length F' = List.length F &
        forall i : nat, (i < List.length F)%coq_nat -> exists x x', [/\ List.nth_error F i = Some x, List.nth_error F' i = Some x' &
          let T := (INR i.+1 * t_deltaT t)%Re in let r := exp (- (c_L c * sqrt e0 / 70 * T)) in (x' <= x <= x' + 4 * T * r ^ (Nat.add (Nat.div nmax i.+1) 1) / (1 - r))%Re]].
Proof.
move=> c p q e u e0 s precision conv t t' nmax nmax' hx hm o1 o2 hL5 he0 hu hb hg hc hp hn hn' d hR hR' hA hA' eT eM.
have [b1 b2] := hb 1%Re Rlt_0_1; have ra := rim_pos hm Rlt_0_1 b1; have rb := rim_pos hm Rlt_0_1 b2.
have hL : (0 < c_L c)%Re by lra.
have e10 : (0 < 1e-10)%Re by lra.
have [_ [_ [_ [HT _]]]] := hR.
have hS : objects d e u by do 6 (split; first by [apply: (body_object b1)|apply: (body_object b2)|]).
have hu' k (hk : (0 < k)%Re) := proj1 (hu k hk).
have neg m k : (m <= c_lmax d)%coq_nat -> (0 < k)%Re -> \det (1%:M - trip exact_bessels d (Z.of_nat m) k) <> 0 /\ (lnr exact_bessels d m k < 0)%Re.
  by move=> a3 hk; have [g1 g2] := hg k hk; exact: (@both_neg c p q e u s hx hm hL5 hu' hb (c_lmax c) (c_lssmax c) m k o1 o2 a3 hk g1 g2).
pose g k := rsum (fun m => lnr exact_bessels d m k) (c_lmax d).
have gneg k : (0 < k)%Re -> (g k < 0)%Re by move=> hk; apply: rsum_neg => m hmx; exact: (proj2 (neg m k hmx hk)).
pose f := (c_L c * sqrt e0 / 70)%Re; have sp := sqrt_lt_R0 _ he0; have f0 : (0 < f)%Re by rewrite /f; have := Rmult_lt_0_compat _ _ hL sp; lra.
have low k : (0 < k)%Re -> (- (4 * exp (- (f * k))) <= g k)%Re.
  move=> hk; have z := @both_lower c p q e u s hx hm hL5 hu' hb (c_lmax c) (c_lssmax c) k o1 o2 hk; apply: (Rle_trans _ _ _ _ z).
  have [_ hek] := hu k hk; have sl : (sqrt e0 <= sqrt (e k))%Re by exact: sqrt_le_1_alt.
  have le : (f * k <= way e k (c_L c) / 70)%Re.
    rewrite /f /way; have := Rmult_le_compat_l (k * c_L c) _ _ (Rlt_le _ _ (Rmult_lt_0_compat _ _ hk hL)) sl; lra.
  have : (exp (- (way e k (c_L c) / 70)) <= exp (- (f * k)))%Re by case: (Req_dec (f * k) (way e k (c_L c) / 70)) => [->|ne]; [right|left; apply: exp_increasing; lra].
  lra.
have hn1 : (1 <= nmax')%coq_nat by lia.
have [N1 hN1] := full_bodies hS hc hp hR hA hn neg; have [N2 hN2] := full_bodies hS hc hp hR' hA' hn1 neg.
exists (maxn N1 N2) => fuel; rewrite geq_max => /andP [f1 f2] unk garbage empty.
have [t1 [F [E1 E2 E3]]] := hN1 fuel f1 unk garbage empty; have [t2 [F' [E1' E2' E3']]] := hN2 fuel f2 unk garbage empty; rewrite eT eM in E2'; rewrite eT in E3'.
have EL : List.length F' = List.length F by rewrite E2 E2'.
exists t1, t2, F, F'; split=> // i hi; have hi' : (i < List.length F')%coq_nat by rewrite EL.
eexists; eexists; split; [exact: (E3 i hi)|exact: (E3' i hi')|rewrite -/g => T r; split].
- by apply: matsubara_less => //; [lia|by move=> k hk; right|by move=> k hk; left; exact: gneg].
- have i1 : (1 <= i.+1)%coq_nat by lia.
  have := matsubara_tail g f 1e-10 (t_deltaT t) nmax nmax' i.+1 f0 HT i1 hn' low; rewrite -/T -/r; move: (matsubara _ _ _ nmax _) (matsubara _ _ _ nmax' _) => y y'; lra.
Qed.
Print Assumptions C106_frequencies.

(** ** two bodies that scatter attract each other strictly *)
Theorem C106_attraction : forall c p q e u s m k conv, c_ext c = true -> has (c_med c) e u -> (5 * (rim p + rim q) <= c_L c)%Re -> (forall k, (0 < k)%Re -> u k = 1%Re) ->
  (forall k, (0 < k)%Re -> body c s p e u k /\ body c s q e u k) -> some_orders c m -> (0 < k)%Re -> visible c s p e u k -> visible c s q e u k -> (conv < 1)%Re ->
  exists v F, (forall fuel, (F <= fuel)%N -> rt_lndet exact_bessels trans_bessels (with_spheres c p q) fuel conv m [:: k] = Some (Val [:: Fin v])) /\ (v < 0)%Re.
Proof.
move=> c p q e u s m k conv hx hm hL5 hu hb ho hk b1 b2 hc; have [g1 g2] := hb k hk.
have ra := rim_pos hm hk g1; have rb := rim_pos hm hk g2.
have hL : (0 < c_L c)%Re by lra.
pose d := with_spheres c p q.
have ho' : some_orders (truncated d (c_lmax c) (c_lssmax c)) m by [].
have [_ dd [_ z]] := @both_det c p q e u s hx hm hL5 hu hb (c_lmax c) (c_lssmax c) m k ho' hk.
have tp := @visible_trace d e u s m k hx hm hL hk g1 g2 b1 b2 ho.
have [_ [A eA]] := @body_A d e u k hm hk s g1; have [_ [B eB]] := @body_B d e u k hm hk s hx g2.
have [_ [o1 o2]] := ho; have [F hF] := @lndet_total exact_bessels d m k A B e u conv eA eB hm hL hk o1 o2 hc.
exists (ln (\det (1%:M - trip exact_bessels d m k))), F; split; first by move=> fuel /hF ->; rewrite (lnE dd).
have r (x y : R) : (0 < y -> x <= - y -> x < 0)%Re by lra.
exact: (r _ _ tp z).
Qed.
Print Assumptions C106_attraction.

(** ** bodies on opposite sides: the contribution of the frequencies beyond nmax is exponentially small, too *)
Lemma matsubara_rest (g : R -> R) (C f k0 dT : R) n n' i : (0 < C)%Re -> (0 < f)%Re -> (0 < dT)%Re -> (1 <= i)%coq_nat -> (n <= n')%coq_nat -> (forall k, (0 < k)%Re -> (g k <= C * exp (- (f * k)))%Re) ->
  let T := (INR i * dT)%Re in let r := exp (- (f * T)) in (matsubara g k0 dT n' i <= matsubara g k0 dT n i + C * T * r ^ (Nat.add (Nat.div n i) 1) / (1 - r))%Re.
Proof.
move=> hC hf hT hi hn h T r; have P : (0 < 4 / C)%Re by apply: Rdiv_lt_0_compat; lra.
have Y k : (0 < k)%Re -> (- (4 * exp (- (f * k))) <= - (4 / C) * g k)%Re.
  move=> hk; have Z := Rmult_le_compat_l (4 / C) _ _ (Rlt_le _ _ P) (h k hk).
  have E : (4 / C * (C * exp (- (f * k))) = 4 * exp (- (f * k)))%Re by field; lra.
  rewrite E in Z; lra.
have := matsubara_tail (fun k => - (4 / C) * g k)%Re f k0 dT n n' i hf hT hi hn Y; rewrite !matsubara_scal -/T -/r.
have Pi : (0 < INR i)%Re by apply: lt_0_INR; lia.
have fT : (0 < f * T)%Re by apply: Rmult_lt_0_compat => //; apply: Rmult_lt_0_compat.
have r1 : (r < 1)%Re by rewrite /r -exp_0; apply: exp_increasing; lra.
move: (matsubara _ _ _ n _) (matsubara _ _ _ n' _) => y y' X.
apply: (Rmult_le_reg_l (4 / C)) => //; have E : (4 / C * (y + C * T * r ^ (Nat.add (Nat.div n i) 1) / (1 - r)) = 4 / C * y + 4 * T * r ^ (Nat.add (Nat.div n i) 1) / (1 - r))%Re by field; lra.
rewrite E; lra.
Qed.
Theorem C105_frequencies : forall c e u e0 s precision conv t t' nmax nmax', c_ext c = true -> has (c_med c) e u -> (1 <= c_lmax c)%coq_nat -> (c_lmax c <= c_lssmax c)%coq_nat -> (2 * (rim (c_1 c) + rim (c_2 c)) < c_L c)%Re ->
  (0 < e0)%Re -> (forall k, (0 < k)%Re -> u k = 1%Re /\ (e0 <= e k)%Re) -> (forall k, (0 < k)%Re -> body c s (c_1 c) e u k /\ body c (- s) (c_2 c) e u k) -> (forall k, (0 < k)%Re -> visible c s (c_1 c) e u k /\ visible c (- s) (c_2 c) e u k) ->
  (conv < 1)%Re -> (precision <= 0)%Re -> (1 <= nmax)%coq_nat -> (nmax <= nmax')%coq_nat ->
  ready exact_bessels c t nmax -> ready exact_bessels c t' nmax' -> t_analytic t = false -> t_analytic t' = false -> t_deltaT t' = t_deltaT t -> t_Tmax t' = t_Tmax t ->
  exists Nf, forall fuel, (Nf <= fuel)%N -> forall unk garbage empty, exists t1 t2 F F',
    [/\ free_energy (ops unk fuel exact_bessels trans_bessels c precision conv false garbage) empty t = (t1, Ok F),
        free_energy (ops unk fuel exact_bessels trans_bessels c precision conv false garbage) empty t' = (t2, Ok F'),
        List.length F = Z.to_nat (pyround (t_Tmax t / t_deltaT t)), List.length F' = List.length F &
        forall i : nat, (i < List.length F)%coq_nat -> exists x x', [/\ List.nth_error F i = Some x, List.nth_error F' i = Some x' &
          let T := (INR i.+1 * t_deltaT t)%Re in let r := exp (- (decay (rim (c_1 c)) (rim (c_2 c)) (c_L c) * c_L c * sqrt e0 * T)) in
          (x <= x' <= x + factor (rim (c_1 c)) (rim (c_2 c)) (c_L c) * T * r ^ (Nat.add (Nat.div nmax i.+1) 1) / (1 - r))%Re]].
Proof.
move=> c e u e0 s precision conv t t' nmax nmax' hx hm o1 o2 hab he0 hu con hcon hc hp hn hn' hR hR' hA hA' eT eM.
have [b1 b2] := con 1%Re Rlt_0_1; have ha := rim_pos hm Rlt_0_1 b1; have hb := rim_pos hm Rlt_0_1 b2.
have hL : (0 < c_L c)%Re by lra.
have th1 : (0 < 1 / 2 <= 1)%Re by lra.
have [_ [_ [_ [HT _]]]] := hR.
have hu' k (hk : (0 < k)%Re) := proj1 (hu k hk).
have pe k (hk : (0 < k)%Re) : (0 < e k)%Re by have [_ [hpp _]] := hm; have [pe _] := hpp k hk.
have hq k : (0 < k)%Re -> (rate (1 / 2) e u k (rim (c_1 c)) (rim (c_2 c)) (c_L c) < 1)%Re by move=> hk; have [_ []] := two_rate e u k (rim (c_1 c)) (rim (c_2 c)) (c_L c) (pe k hk) (hu' k hk) hk ha hb hab.
have e10 : (0 < 1e-10)%Re by lra.
have strict m k : (m <= c_lmax c)%coq_nat -> (0 < k)%Re -> \det (1%:M - trip exact_bessels c (Z.of_nat m) k) <> 0 /\ (0 < lnr exact_bessels c m k)%Re.
  by move=> a3 hk; have [g1 g2] := hcon k hk; have := @sep_sharp c e u s (1 / 2)%Re hx hm hL th1 hq con (c_lmax c) (c_lssmax c) m k (orders_at c o1 o2 a3) hk g1 g2.
pose g k := rsum (fun m => lnr exact_bessels c m k) (c_lmax c).
have gpos k : (0 < k)%Re -> (0 < g k)%Re by move=> hk; apply: rsum_pos => m hmx; exact: (proj2 (strict m k hmx hk)).
have sp := sqrt_lt_R0 _ he0.
have [dp [fp _]] := two_total e u 1%Re (rim (c_1 c)) (rim (c_2 c)) (c_L c) (pe _ Rlt_0_1) (hu' _ Rlt_0_1) Rlt_0_1 ha hb hab.
pose d := (decay (rim (c_1 c)) (rim (c_2 c)) (c_L c) * c_L c * sqrt e0)%Re; have d0 : (0 < d)%Re by apply: Rmult_lt_0_compat => //; apply: Rmult_lt_0_compat.
have top k : (0 < k)%Re -> (g k <= factor (rim (c_1 c)) (rim (c_2 c)) (c_L c) * exp (- (d * k)))%Re.
  move=> hk; have [_ z] := sep_gsum hx hm hL th1 hq con o1 o2 hk; have [_ [_ z2]] := two_total e u k (rim (c_1 c)) (rim (c_2 c)) (c_L c) (pe k hk) (hu' k hk) hk ha hb hab.
  apply: (Rle_trans _ _ _ z); apply: (Rle_trans _ _ _ z2); apply: Rmult_le_compat_l; first by left.
  have [_ hek] := hu k hk; have sl : (sqrt e0 <= sqrt (e k))%Re by exact: sqrt_le_1_alt.
  have le : (d * k <= decay (rim (c_1 c)) (rim (c_2 c)) (c_L c) * way e k (c_L c))%Re.
    rewrite /d /way; have := Rmult_le_compat_l (decay (rim (c_1 c)) (rim (c_2 c)) (c_L c) * (k * c_L c)) _ _ (Rlt_le _ _ (Rmult_lt_0_compat _ _ dp (Rmult_lt_0_compat _ _ hk hL))) sl; lra.
  by case: le => [lt|->]; [left; apply: exp_increasing; lra|right].
have hS : objects c e u by do 6 (split; first by [apply: (body_object b1)|apply: (body_object b2)|]).
have hn1 : (1 <= nmax')%coq_nat by lia.
have [N1 hN1] := full_seen hS hc hp hR hA hn strict; have [N2 hN2] := full_seen hS hc hp hR' hA' hn1 strict.
exists (maxn N1 N2) => fuel; rewrite geq_max => /andP [f1 f2] unk garbage empty.
have [t1 [F [E1 E2 E3]]] := hN1 fuel f1 unk garbage empty; have [t2 [F' [E1' E2' E3']]] := hN2 fuel f2 unk garbage empty; rewrite eT eM in E2'; rewrite eT in E3'.
have EL : List.length F' = List.length F by rewrite E2 E2'.
exists t1, t2, F, F'; split=> // i hi; have hi' : (i < List.length F')%coq_nat by rewrite EL.
have i1 : (1 <= i.+1)%coq_nat by lia.
eexists; eexists; split; [exact: (E3 i hi)|exact: (E3' i hi')|rewrite -/g => T r; split].
- by apply: matsubara_more => //; [move=> k hk; right|move=> k hk; left; exact: gpos].
- exact: (matsubara_rest 1e-10 fp d0 HT i1 hn' top).
Qed.
Print Assumptions C105_frequencies.

(** ** Non-vacuity: two bubbles, and a coated reflector and a bubble, with 10 and with 20 frequencies *)
Lemma gold_one k : (0 < k)%Re -> mu_val None k = 1%Re /\ (1 <= eps_spec e_Gold k)%Re.
Proof. by move=> hk; split=> //; have := gold_above hk; rewrite {1}/eps_spec /=; move: (eps_spec e_Gold k) => y; lra. Qed.
Example C106_more : exists Nf, forall fuel, (Nf <= fuel)%N -> forall unk garbage empty, exists t1 t2 F F',
    [/\ free_energy (ops unk fuel exact_bessels trans_bessels (truncated foams 3 3) 0 1e-10 false garbage) empty (task (1 / 10) 3 10 false) = (t1, Ok F),
        free_energy (ops unk fuel exact_bessels trans_bessels (truncated foams 3 3) 0 1e-10 false garbage) empty (task (1 / 10) 3 20 false) = (t2, Ok F'),
        List.length F = Z.to_nat (pyround (3 / (1 / 10))), List.length F' = List.length F &
        forall i : nat, (i < List.length F)%coq_nat -> exists x x', [/\ List.nth_error F i = Some x, List.nth_error F' i = Some x' &
          let T := (INR i.+1 * (1 / 10))%Re in let r := exp (- (20 * sqrt 1 / 70 * T)) in (x' <= x <= x' + 4 * T * r ^ (Nat.add (Nat.div 10 i.+1) 1) / (1 - r))%Re]].
Proof.
have d1 : (0 < 1 / 10)%Re by lra.
apply: (@C106_frequencies (truncated foams 3 3) foam foam (eps_spec e_Gold) (mu_val None) 1%Re (- (1 : R)) 0%Re 1e-10%Re (task (1 / 10) 3 10 false) (task (1 / 10) 3 20 false) 10 20 erefl gold_has _ _ _ _ gold_one foams_sides foams_visible _ _ _ _ (@task_ready _ _ _ _ _ _ d1) (@task_ready _ _ _ _ _ _ d1) erefl erefl erefl erefl); try (rewrite /=; lia); try (rewrite /= /rim /=; lra).
Qed.
Example C106_single : exists v F, (forall fuel, (F <= fuel)%N -> rt_lndet exact_bessels trans_bessels (truncated foams 3 3) fuel 1e-10 1 [:: 2%Re] = Some (Val [:: Fin v])) /\ (v < 0)%Re.
Proof.
have p2 : (0 < 2)%Re by lra.
have [v1 v2] := foams_visible p2.
apply: (@C106_attraction (truncated foams 3 3) foam foam (eps_spec e_Gold) (mu_val None) (- (1 : R)) 1 2 1e-10 erefl gold_has _ _ foams_sides _ p2 v1 v2); try (rewrite /= /rim /=; lra); try by [].
Qed.
Example C105_more : exists Nf, forall fuel, (Nf <= fuel)%N -> forall unk garbage empty, exists t1 t2 F F',
    let c := truncated (at_distance bubble 20) 3 3 in
    [/\ free_energy (ops unk fuel exact_bessels trans_bessels c 0 1e-10 false garbage) empty (task (1 / 10) 3 10 false) = (t1, Ok F),
        free_energy (ops unk fuel exact_bessels trans_bessels c 0 1e-10 false garbage) empty (task (1 / 10) 3 20 false) = (t2, Ok F'),
        List.length F = Z.to_nat (pyround (3 / (1 / 10))), List.length F' = List.length F &
        forall i : nat, (i < List.length F)%coq_nat -> exists x x', [/\ List.nth_error F i = Some x, List.nth_error F' i = Some x' &
          let T := (INR i.+1 * (1 / 10))%Re in let r := exp (- (decay (rim (c_1 c)) (rim (c_2 c)) (c_L c) * c_L c * sqrt 1 * T)) in
          (x <= x' <= x + factor (rim (c_1 c)) (rim (c_2 c)) (c_L c) * T * r ^ (Nat.add (Nat.div 10 i.+1) 1) / (1 - r))%Re]].
Proof.
have d1 : (0 < 1 / 10)%Re by lra.
apply: (@C105_frequencies (truncated (at_distance bubble 20) 3 3) (eps_spec e_Gold) (mu_val None) 1%Re 1%Re 0%Re 1e-10%Re (task (1 / 10) 3 10 false) (task (1 / 10) 3 20 false) 10 20 erefl gold_has _ _ _ _ gold_one bubble_sides bubble_visible _ _ _ _ (@task_ready _ _ _ _ _ _ d1) (@task_ready _ _ _ _ _ _ d1) erefl erefl erefl erefl); try (rewrite /=; lia); try (rewrite /= /rim /=; lra).
Qed.
