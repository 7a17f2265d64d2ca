(** * Property C85: complete results with the analytic zero-frequency term *)
From Coq Require Import Reals.
From Coq Require Import String List Lia Lra ZArith.
From mathcomp Require Import all_ssreflect ssralg ssrnum fingroup perm matrix mxalgebra poly mxpoly.
From Verif Require Import Base RStruct Mat_Model Mat_Spec Mat_Proofs Thermo_Model Thermo_Proofs Geo_Model Geo_Spec Bessel_Model Scat_Model Scat_Spec Scat_Proofs Scat_Proofs4 Scat_Proofs7 Scat_Proofs9 Scat_Proofs10 Scat_Props2 Trans_Model Trans_Spec Trans_Proofs3
  Lin_Model Lin_Spec Bal_Proofs Lin_Proofs Trip_Proofs Lin_Proofs2 RT_Model RT_Spec RT_Spec2 RT_Proofs RT_Proofs2 RT_Proofs3 RT_Proofs4 RT_Proofs5 RT_Proofs6 RT_Proofs7 RT_Proofs8 RT_Proofs9 RT_Proofs10
  RT_Props RT_Props2 RT_Props3 RT_Props5 Exp_Proofs2 Lap_Proofs2 Mono_Proofs Mono_Proofs2 Mono_Proofs3 RT_Props8 Cut_Proofs RT_Props9
  Run_Model Run_Spec Run_Proofs Run_Proofs2 Run_Proofs3 Run_Proofs4 Run_Proofs5 Run_Proofs9 Run_Props Run_Props2 Run_Props7 Conv_Spec Conv_Spec2 Conv_Proofs3 Conv_Proofs4 Conv_Proofs5 Conv_Proofs6 Conv_Proofs8 Conv_Proofs9 Conv_Props Conv_Props2
  Far_Proofs Far_Proofs2.
Set Implicit Arguments.
Unset Strict Implicit.
Import GRing.Theory.
Local Open Scope ring_scope.
Delimit Scope R_scope with Re.

Lemma gt_super bes c m k : round_trip (n1 c m) (n2 c m) (rt_with bes c m k) = super (n1 c m) (gblocks bes c m k).
Proof.
have := blocks_round_trip (n1 c m) (n2 c m) (rt_with bes c m k); move=> <-; rewrite /gblocks /super /EE /EM /ME /MM /=.
have h : forall i j s, exp (log_skalierung (rt_with bes c m k) i j s) = 1%Re.
  by move=> i j s; rewrite /log_skalierung /rt_with /= !Rplus_0_r exp_0.
by congr block_mx; apply/matrixP => i j; rewrite !mxE; apply: sumn_ext => s _; rewrite h.
Qed.

(** ** the zero-frequency matrices of the code are the low-frequency limit of the round trips, whatever (accurate) Bessel functions are used *)
Section Limit.
Context (bes : list R -> nat -> Z -> res (list (list R) * list (list R))) (J : nat -> R -> R) (dl : R) (HG : good_bes bes J dl).
Context (c : config) (m1 m2 : material) (ra rb : R) (e : list Mat_Model.osc) (b : Mat_Model.bprops) (HC : two_spheres c m1 m2 ra rb e b).
Context (S1 : static_sphere m1) (S2 : static_sphere m2) (Hext : c_ext c = true) (m : Z) (ho : some_orders c m) (hmu : mu_val b 0 = 1%Re).
Let n := n1 c m.
Let Hm : (0 <= m)%Z. Proof. exact: (proj1 ho). Qed.
Let hs : (n1 c m <= 1)%coq_nat \/ (0 < n2 c m)%coq_nat. Proof. by right; apply/ltP; exact: (proj2 (orders_pos ho)). Qed.
Let U k := round_trip (n1 c m) (n2 c m) (rt_with bes c m k).
Let o := (lmin m - 1)%coq_nat.
Let row (v w : list R) (i : nat) : R := (at_ v (o + i)%coq_nat * exp (at_ w (o + i)%coq_nat))%Re.
Lemma good_limit : exists A0 B0 TE0 TM0, [/\ blockmatrices_k0 trans_bessels c m = Val (A0, B0), @is_arr2 n n A0 TE0, @is_arr2 n n B0 TM0,
    forall z, lim0 (fun k => \det (z%:M - U k)) (\det (z%:M - TE0) * \det (z%:M - TM0)) & lim0 (fun k => \tr (U k)) (\tr TE0 + \tr TM0)].
Proof.
have [ate [atm [aln [bte [btm [bln [A0 [B0 [kap [Ea [Eb [RA [RB [E0 h0]]]]]]]]]]]]]] := k0_blocks c m1 m2 ra rb e b HC S1 S2 Hext m hs.
exists (Arr2 n n A0), (Arr2 n n B0), (mx n A0), (mx n B0).
have RA' := rows_same bes J dl HG c m1 m2 ra rb e b HC S1 ate atm aln RA.
have RB' := rows_same2 bes J dl HG c m1 m2 ra rb e b HC S2 Hext bte btm bln RB.
have [Y [_ [_ [_ [_ _]]]]] := arg_facts c m1 m2 ra rb e b HC.
pose q := sqrt (mu_val b 0).
pose S q := mx n (sblock c ra rb m q (row ate aln) (row bte bln)); pose P q := mx n (sblock c ra rb m q (row atm aln) (row btm bln)).
pose y k := (k * ra * refr (eps_spec e) (mu_val b) k)%Re.
pose Q k : mat * mat * mat * mat := let r := rescaled ra e b m in let B := gblocks bes c m k in
  (r (fst (fst (fst B))) k, r (snd (fst (fst B))) k, r (snd (fst B)) k, r (snd B) k).
pose V k := super n (Q k).
have VS k : (0 < k)%Re -> similar (U k) (V k).
  move=> hk; have py := proj1 Y k hk; rewrite -/(y k) in py.
  have yn i : (y k ^ i <> 0)%Re by apply: pow_nonzero; lra.
  rewrite /U gt_super; apply: (@super_similar n (fun i => / (y k ^ (lmin m + i)%coq_nat))%Re (fun i => y k ^ (lmin m + i)%coq_nat)%Re).
    by move=> i; apply: Rinv_l; apply: yn.
  by move=> i j _ _; rewrite /Q /rescaled /EE /EM /ME /MM /=; split; rewrite -/(y k) /Rdiv -!RmultE; ring.
have VL i j : lim0 (fun k => V k i j) (block_mx (S q) 0 0 (P q) i j).
  pose q0 : mat * mat * mat * mat := (sblock c ra rb m q (row ate aln) (row bte bln), fun _ _ => 0%Re, fun _ _ => 0%Re, sblock c ra rb m q (row atm aln) (row btm bln)).
  have -> : block_mx (S q) 0 0 (P q) = super n q0 by rewrite /super /q0 /=; congr block_mx; apply/matrixP => a d; rewrite !mxE.
  apply: lim0_super => a d ha hd.
  by have [h1 [h2 [h3 h4]]] := Far_Proofs.block_limits bes c m1 m2 ra rb e b HC Hext m Hm ate atm aln bte btm bln RA' RB' a d ha hd; split.
have q1 : q = 1%Re by rewrite /q hmu sqrt_1.
have [s1 s2] : similar (S 1%Re) (mx n A0) /\ similar (P 1%Re) (mx n B0).
  have xy i : exp (kap * INR i)%Re * exp (- (kap * INR i))%Re = 1 by rewrite -exp_add Rplus_opp_r exp_0.
  have cj i j x : (exp (kap * (INR i - INR j)) * x)%Re = exp (kap * INR i)%Re * x * exp (- (kap * INR j))%Re.
    by rewrite mulrAC -exp_add; congr (_ * _); congr exp; ring.
  by split; apply: (one_similar xy) => i j hi hj; have [h1 h2] := h0 i j (ltP hi) (ltP hj); rewrite -cj.
rewrite -q1 in s1 s2; split=> //.
- move=> z; rewrite (similar_det (similar_zm z s1)) (similar_det (similar_zm z s2)) RmultE -(@det_ud n z _ 0 0 _ erefl erefl).
  apply: (@lim0_ext (fun k => \det (z%:M - V k))); last by apply: lim0_zm => i j; apply: VL.
  by move=> k hk; have h := VS k hk; rewrite (similar_det (similar_zm z h)).
- rewrite (similar_tr s1) (similar_tr s2) RplusE.
  have -> : \tr (S q) + \tr (P q) = \tr (block_mx (S q) 0 0 (P q)) by rewrite mxtrace_block.
  apply: (@lim0_ext (fun k => \tr (V k))); last by apply: lim0_tr => i j; apply: VL.
  by move=> k hk; have h := VS k hk; rewrite (similar_tr h).
Qed.
End Limit.
Lemma arr2_unique p q (M : arr2) (f g : 'M[R]_(p, q)) : is_arr2 M f -> is_arr2 M g -> f = g.
Proof. by case=> _ _ h [_ _ h']; apply/matrixP => i j; rewrite -h -h'. Qed.

Theorem C85_static_limit : forall c m1 m2 ra rb e b m, two_spheres c m1 m2 ra rb e b -> static_sphere m1 -> static_sphere m2 -> c_ext c = true -> some_orders c m ->
  mu_val b 0 = 1%Re -> let n := n1 c m in
  exists A0 B0 TE0 TM0, [/\ blockmatrices_k0 trans_bessels c m = Val (A0, B0), @is_arr2 n n A0 TE0, @is_arr2 n n B0 TM0 &
    forall bes, bes = mie_bessels \/ bes = exact_bessels ->
      (forall z, limit0 (fun k => \det (z%:M - trip bes c m k)) (\det (z%:M - TE0) * \det (z%:M - TM0))) /\ limit0 (fun k => \tr (trip bes c m k)) (\tr TE0 + \tr TM0)].
Proof.
move=> c m1 m2 ra rb e b m HC S1 S2 hx ho hmu n.
have [A0 [B0 [TE0 [TM0 [E0 hA hB hz ht]]]]] := good_limit exact_good HC S1 S2 hx ho hmu.
have [A0' [B0' [TE0' [TM0' [E0' hA' hB' hz' ht']]]]] := good_limit code_good HC S1 S2 hx ho hmu.
have [eA eB] : A0' = A0 /\ B0' = B0 by move: E0'; rewrite E0 => -[-> ->].
rewrite eA in hA'; rewrite eB in hB'.
have e1 := arr2_unique hA' hA; have e2 := arr2_unique hB' hB; rewrite e1 e2 in hz' ht'.
exists A0, B0, TE0, TM0; split; [exact E0|exact hA|exact hB|] => bes [->|->]; split; [exact hz'|exact ht'|exact hz|exact ht].
Qed.
Print Assumptions C85_static_limit.

Lemma bnd_limit (P k : R) : (0 <= P)%Re -> (0 <= k)%Re -> (P * exp (- k) <= P)%Re.
Proof.
move=> hP hk; have h : (exp (- k) <= 1)%Re by rewrite -exp_0; case: hk => [hk|<-]; [left; apply: exp_increasing; lra|right; congr exp; ring].
by have := Rmult_le_compat_l P _ _ hP h; lra.
Qed.

(** ** two spheres on the same side of the medium, centres at least five sums of radii apart *)
Section Far.
Context (c : config) (m1 m2 : material) (ra rb : R) (e : list Mat_Model.osc) (b : Mat_Model.bprops) (s : R) (HC : two_spheres c m1 m2 ra rb e b).
Context (S1 : static_sphere m1) (S2 : static_sphere m2) (hx : c_ext c = true) (hmu : forall k, (0 <= k)%Re -> mu_val b k = 1%Re) (hL5 : (5 * (ra + rb) <= c_L c)%Re).
Context (hcon : forall k, (0 < k)%Re -> contrast s m1 (eps_spec e) (mu_val b) k /\ contrast s m2 (eps_spec e) (mu_val b) k).
Let ec : truncated c (c_lmax c) (c_lssmax c) = c. Proof. by case: (c). Qed.
Let mu0 : mu_val b 0 = 1%Re. Proof. by apply: hmu; right. Qed.
Lemma far_det m k : some_orders c m -> (0 < k)%Re -> let U := trip exact_bessels c m k in
  (0 < \det (1%:M - U))%Re /\ (0 <= \tr U)%Re /\ (- ((1 / 81) ^ (lmin m - 1) * exp (- (c_L c / 70 * k))) <= ln (\det (1%:M - U)) <= - \tr U)%Re.
Proof.
move=> ho hk U; have [h1 [h2 [hm [ha [hb hL]]]]] := HC.
have ho' : some_orders (truncated c (c_lmax c) (c_lssmax c)) m by rewrite ec.
have := @apart_det c m1 m2 ra rb (eps_spec e) (mu_val b) s h1 h2 hx (insulator_has _ _ _ hm) ha hb hL5 (fun k hk => hmu (Rlt_le _ _ hk)) hcon (c_lmax c) (c_lssmax c) m k ho' hk.
rewrite ec -/U => -[[t0 t1] d [l0 l1]]; split=> //; split=> //; split=> //; apply: (Rle_trans _ _ _ _ l0).
have [_ [hp _]] := hm; have e1 := eps_ge_1 e k hp hk.
have s1 : (1 <= sqrt (eps_spec e k))%Re by rewrite -sqrt_1; apply: sqrt_le_1_alt.
have w : (c_L c / 70 * k <= way (eps_spec e) k (c_L c) / 70)%Re.
  by rewrite /way; have := Rmult_le_compat_l (k * c_L c) _ _ (Rlt_le _ _ (Rmult_lt_0_compat _ _ hk hL)) s1; lra.
have le : (exp (- (way (eps_spec e) k (c_L c) / 70)) <= exp (- (c_L c / 70 * k)))%Re.
  by case: (Req_dec (c_L c / 70 * k) (way (eps_spec e) k (c_L c) / 70)) => [->|ne]; [right|left; apply: exp_increasing; lra].
have p0 : (0 <= (1 / 81) ^ (lmin m - 1))%Re by apply: pow_le; lra.
rewrite /bnd; have := Rmult_le_compat_l _ _ _ p0 le; move: (pow _ _) (exp _) (exp _) => p x y; lra.
Qed.
Lemma far_static m : some_orders c m -> exists d t, [/\ limit0 (fun k => \det (1%:M - trip mie_bessels c m k)) d, limit0 (fun k => \det (1%:M - trip exact_bessels c m k)) d,
  limit0 (fun k => \tr (trip mie_bessels c m k)) t, (0 < d)%Re /\ (0 <= t)%Re & (- (1 / 81) ^ (lmin m - 1) <= ln d <= - t)%Re].
Proof.
move=> ho; have [h1 [h2 [hm [ha [hb hL]]]]] := HC.
have [A0 [B0 [TE0 [TM0 [E0 hA hB hz]]]]] := C85_static_limit HC S1 S2 hx ho mu0.
have [z1 t1] := hz mie_bessels (or_introl erefl); have [z2 t2] := hz exact_bessels (or_intror erefl).
exists (\det (1%:M - TE0) * \det (1%:M - TM0))%Re, (\tr TE0 + \tr TM0)%Re.
have p0 : (0 <= (1 / 81) ^ (lmin m - 1))%Re by apply: pow_le; lra.
have H k : (0 < k)%Re -> (0 < \det (1%:M - trip exact_bessels c m k))%Re /\ (- (1 / 81) ^ (lmin m - 1) <= ln (\det (1%:M - trip exact_bessels c m k)) <= - \tr (trip exact_bessels c m k))%Re.
  move=> hk; have [a1 [a2 [a3 a4]]] := far_det ho hk; split=> //; split=> //; apply: (Rle_trans _ _ _ _ a3).
  have hk' : (0 <= c_L c / 70 * k)%Re by apply: Rmult_le_pos; lra.
  by have := bnd_limit p0 hk'; lra.
have [d0 d1] := lim0_between _ _ _ _ _ _ H (z2 1) (lim0_const _) (lim0_opp _ _ t2).
split; [exact (z1 1)|exact (z2 1)|exact t1|split; first exact d0|exact d1].
by apply: (lim0_le _ _ _ _ _ (lim0_const 0%Re) t2) => k hk; have [_ [z _]] := far_det ho hk.
Qed.
End Far.
(** at zero frequency: what the code computes for each m is the logarithm of a positive number, with explicit bounds *)
Theorem C85_zero_term : forall c m1 m2 ra rb e b s m, two_spheres c m1 m2 ra rb e b -> static_sphere m1 -> static_sphere m2 -> c_ext c = true -> some_orders c m ->
  (forall k, (0 <= k)%Re -> mu_val b k = 1%Re) -> (5 * (ra + rb) <= c_L c)%Re ->
  (forall k, (0 < k)%Re -> contrast s m1 (eps_spec e) (mu_val b) k /\ contrast s m2 (eps_spec e) (mu_val b) k) ->
  forall conv, (conv < 1)%Re -> exists v t, limit0 (fun k => \tr (trip mie_bessels c m k)) t /\ (0 <= t)%Re /\ (- (1 / 81) ^ (lmin m - 1) <= v <= - t)%Re /\
  exists N, forall fuel, (N <= fuel)%N -> single_m_k0 trans_bessels c fuel conv m = Some (Val (Fin v)).
Proof.
move=> c m1 m2 ra rb e b s m HC S1 S2 hx ho hmu hL5 hcon conv hc.
have [d [t [z1 z2 ht [d0 t0] hd]]] := far_static HC S1 S2 hx hmu hL5 hcon ho.
exists (ln d), t; split; first exact ht; split; first exact t0; split; first exact hd.
have mu0 : mu_val b 0 = 1%Re by apply: hmu; right.
have [d' [l' h']] := C57_lndet HC S1 S2 hx ho mu0 hc.
have ed : d' = d := limit0_unique _ _ _ l' z1; move: h'; rewrite ed => /(_ d0) [[N hN] _].
by exists N => fuel /hN ->.
Qed.
Print Assumptions C85_zero_term.

(** ** free energies with the analytic zero-frequency term, for every setting of the precision *)
Theorem C85_free_energy : forall c m1 m2 ra rb e b s precision conv t nmax,
  two_spheres c m1 m2 ra rb e b -> static_sphere m1 -> static_sphere m2 -> c_ext c = true -> (forall k, (0 <= k)%Re -> mu_val b k = 1%Re) -> (5 * (ra + rb) <= c_L c)%Re ->
  (forall k, (0 < k)%Re -> contrast s m1 (eps_spec e) (mu_val b) k /\ contrast s m2 (eps_spec e) (mu_val b) k) ->
  (1 <= c_lmax c)%coq_nat -> (c_lmax c <= c_lssmax c)%coq_nat -> (conv < 1)%Re -> ready exact_bessels c t nmax -> t_analytic t = true ->
  exists N, forall fuel, (N <= fuel)%N -> forall unk garbage empty, exists t' F,
    [/\ free_energy (ops unk fuel exact_bessels trans_bessels c precision conv false garbage) empty t = (t', Ok F), sound exact_bessels c (t_geom t'),
        List.length F = Z.to_nat (pyround (t_Tmax t / t_deltaT t)) &
        forall i : nat, (i < List.length F)%coq_nat -> exists x, [/\ List.nth_error F i = Some x,
          (let T := INR i.+1 * t_deltaT t in let r := exp (- (c_L c / 70 * T)) in - (T * (2 + 4 * (r / (1 - r)))) <= x <= 0)%Re &
          (forall k, (0 < k)%Re -> sharp s m1 (eps_spec e) (mu_val b) k /\ sharp s m2 (eps_spec e) (mu_val b) k) -> (i < nmax)%coq_nat -> (x < 0)%Re]].
Proof.
move=> c m1 m2 ra rb e b s precision conv t nmax HC S1 S2 hx hmu hL5 hcon hl hls hc hR hA.
have [h1 [h2 [hm [ha [hb hL]]]]] := HC; have [_ [_ [_ [HT _]]]] := hR.
have mu0 : mu_val b 0 = 1%Re by apply: hmu; right.
have om m : (m <= c_lmax c)%coq_nat -> some_orders c (Z.of_nat m) by move=> hmx; split; [lia|split; lia].
have lm m : lmin (Z.of_nat m) = Nat.max 1 m by rewrite /lmin; lia.
have [d0 hd0] : exists d0 : nat -> R, forall m, (m <= c_lmax c)%coq_nat -> limit0 (fun k => \det (1%:M - trip mie_bessels c (Z.of_nat m) k)) (d0 m) /\ (0 < d0 m)%Re /\ (- (1 / 81) ^ (Nat.max 1 m - 1) <= ln (d0 m) <= 0)%Re.
  apply: (@choose_upto R (fun m d => limit0 (fun k => \det (1%:M - trip mie_bessels c (Z.of_nat m) k)) d /\ (0 < d)%Re /\ (- (1 / 81) ^ (Nat.max 1 m - 1) <= ln d <= 0)%Re) 0%Re (c_lmax c)) => m hmx; have [d [tt [z1 _ _ [p1 p2] [p3 p4]]]] := far_static HC S1 S2 hx hmu hL5 hcon (om m hmx).
  exists d; split; first exact z1; split; first exact p1; rewrite lm in p3; split; first exact p3; lra.
have pos n : (1 <= n)%coq_nat /\ (n <= nmax)%coq_nat -> (0 < t_deltaT t * INR n)%Re by move=> [hn1 _]; apply: Rmult_lt_0_compat => //; apply: lt_0_INR; lia.
have key m k : (m <= c_lmax c)%coq_nat -> (0 < k)%Re -> \det (1%:M - trip exact_bessels c (Z.of_nat m) k) <> 0 /\ (- ((1 / 81) ^ (Nat.max 1 m - 1) * exp (- (c_L c / 70 * k))) <= lnr exact_bessels c m k <= 0)%Re.
  move=> hmx hk; have [q1 [q2 [q3 q4]]] := far_det HC hx hmu hL5 hcon (om m hmx) hk; rewrite lm in q3.
  rewrite /lnr Rabs_pos_eq; last by left.
  by split; [move=> E; rewrite E in q1; exact: (Rlt_irrefl _ q1)|split=> //; lra].
have hreg n m : (1 <= n)%coq_nat /\ (n <= nmax)%coq_nat -> (m <= c_lmax c)%coq_nat -> \det (1%:M - trip exact_bessels c (Z.of_nat m) (t_deltaT t * INR n)%Re) <> 0.
  by move=> hn hmx; have [z _] := key m _ hmx (pos n hn).
have hd m : (m <= c_lmax c)%coq_nat -> limit0 (fun k => \det (1%:M - trip mie_bessels c (Z.of_nat m) k)) (d0 m) /\ (0 < d0 m)%Re by move=> hmx; have [z1 [z2 _]] := hd0 m hmx; split; [exact z1|exact z2].
have hel q : freqs (t_deltaT t) nmax q <> nil -> elementwise_at exact_bessels c (freqs (t_deltaT t) nmax q) by move=> _; exact: (exact_at _ _ (trans_at_ext _ _ hx)).
have [cut0 [cut [N [hc0 hcut hN]]]] := C66_free_energy precision HC S1 S2 hx mu0 hl hls hc hR hA hel hd hreg.
exists N => fuel hf unk garbage empty; have [t' [F [E1 E2 E3 E4]]] := hN fuel hf unk garbage empty; exists t', F; split=> // i hi.
have hi1 : (1 <= i.+1)%coq_nat /\ (i.+1 <= List.length F)%coq_nat by lia.
have si : (i.+1 - 1)%coq_nat = i by lia.
have nthE := E4 _ hi1; rewrite si in nthE.
have hc0' : (cut0 <= c_lmax c)%coq_nat by have [] := hc0.
have cutn n : (1 <= n)%coq_nat /\ (n <= nmax)%coq_nat -> (cut (PeanoNat.Nat.div n 50) <= c_lmax c)%coq_nat.
  move=> hn1; have hin := freqs_has (t_deltaT t) nmax n hn1.
  have hne : freqs (t_deltaT t) nmax (PeanoNat.Nat.div n 50) <> nil by move=> hz; rewrite hz in hin.
  by have [] := hcut _ hne.
have one : (0 <= 1)%Re by lra.
have dpos : (0 < c_L c / 70)%Re by lra.
have z0 : (-4 <= rsum (fun m => ln (d0 m)) cut0)%Re.
  have -> : (-4 = - (4 * 1))%Re by lra.
  apply: rsum_lower => // m hmx; have hmx' : (m <= c_lmax c)%coq_nat by lia.
  by have [_ [_ [z _]]] := hd0 m hmx'; rewrite Rmult_1_r.
have z1 : (rsum (fun m => ln (d0 m)) cut0 <= 0)%Re.
  apply: rsum_nonpos => m hmx; have hmx' : (m <= c_lmax c)%coq_nat by lia.
  by have [_ [_ [_ z]]] := hd0 m hmx'.
eexists; split; first exact nthE.
- split.
  + apply: sliced_lower => //; first lia.
    move=> n hn1; have hcn := cutn n hn1; apply: rsum_lower; first by left; exact: exp_pos.
    move=> m hmx; have hmx' : (m <= c_lmax c)%coq_nat by lia.
    by have [_ [z _]] := key m _ hmx' (pos n hn1).
  + apply: sliced_nonpos => //; first lia.
    move=> n hn1; have hcn := cutn n hn1; apply: rsum_nonpos => m hmx; have hmx' : (m <= c_lmax c)%coq_nat by lia.
    by have [_ [_ z]] := key m _ hmx' (pos n hn1).
- move=> hsh hin; apply: sliced_neg_some => //; first lia.
  move=> n hn1; have hcn := cutn n hn1; apply: rsum_neg => m hmx; have hmx' : (m <= c_lmax c)%coq_nat by lia.
  have hk := pos n hn1; have [g1 g2] := hsh _ hk.
  have tp := @sharp_trace c m1 m2 ra rb _ _ (Z.of_nat m) _ s h1 h2 hx (insulator_has _ _ _ hm) ha hb hL hk g1 g2 (om m hmx').
  have [q1 [_ [_ q4]]] := far_det HC hx hmu hL5 hcon (om m hmx') hk.
  rewrite Rabs_pos_eq; last by left.
  have r (x y : R) : (0 < y -> x <= - y -> x < 0)%Re by lra.
  exact: (r _ _ tp q4).
Qed.
Print Assumptions C85_free_energy.

(** ** Non-vacuity: a gold sphere and a perfect reflector in vacuum *)
Lemma far_gold : two_spheres (at_distance gold_in_vacuum 20) (Lorentz e_Gold None) PEC 1 2 [::] None /\ static_sphere (Lorentz e_Gold None).
Proof.
split; last by right; right; exists e_Gold, None; exact gold_drude.
by rewrite /two_spheres /=; do 2 split=> //; split; [by split|lra].
Qed.
Example C85_gold_static : forall m, (m <= 3)%N -> exists v, (- (1 / 81) ^ (Nat.max 1 m - 1) <= v <= 0)%Re /\
  exists N, forall fuel, (N <= fuel)%N -> single_m_k0 trans_bessels (at_distance gold_in_vacuum 20) fuel 1e-10 (Z.of_nat m) = Some (Val (Fin v)).
Proof.
move=> m hm; have [HC S1] := far_gold; have S2 : static_sphere PEC by left.
have ho : some_orders (at_distance gold_in_vacuum 20) (Z.of_nat m) by rewrite /some_orders /=; move/leP: hm; lia.
have hc : (1e-10 < 1)%Re by lra.
have h5 : (5 * (1 + 2) <= c_L (at_distance gold_in_vacuum 20))%Re by rewrite /=; lra.
have hg k : (0 < k)%Re -> contrast 1 (Lorentz e_Gold None) (eps_spec [::]) (mu_val None) k /\ contrast 1 PEC (eps_spec [::]) (mu_val None) k by move=> hk; have [g1 [g2 _]] := C61_gold hk.
have [v [t [_ [t0 [[v1 v2] hN]]]]] := C85_zero_term HC S1 S2 erefl ho (fun _ _ => erefl) h5 hg hc.
have lm : lmin (Z.of_nat m) = Nat.max 1 m by rewrite /lmin; lia.
by rewrite lm in v1; exists v; split=> //; split=> //; lra.
Qed.
Example C85_gold : exists N, forall fuel, (N <= fuel)%N -> forall unk garbage empty, exists t' F,
  [/\ free_energy (ops unk fuel exact_bessels trans_bessels (at_distance gold_in_vacuum 20) 1e-4 1e-10 false garbage) empty (task (1 / 10) 3 60 true) = (t', Ok F),
      List.length F = 30%N & forall x, In x F -> (x < 0)%Re].
Proof.
have [HC S1] := far_gold; have S2 : static_sphere PEC by left.
have h5 : (5 * (1 + 2) <= c_L (at_distance gold_in_vacuum 20))%Re by rewrite /=; lra.
have hg k : (0 < k)%Re -> contrast 1 (Lorentz e_Gold None) (eps_spec [::]) (mu_val None) k /\ contrast 1 PEC (eps_spec [::]) (mu_val None) k by move=> hk; have [g1 [g2 _]] := C61_gold hk.
have l1 : (1 <= c_lmax (at_distance gold_in_vacuum 20))%coq_nat by rewrite /=; lia.
have l2 : (c_lmax (at_distance gold_in_vacuum 20) <= c_lssmax (at_distance gold_in_vacuum 20))%coq_nat by rewrite /=; lia.
have hc : (1e-10 < 1)%Re by lra.
have hr : ready exact_bessels (at_distance gold_in_vacuum 20) (task (1 / 10) 3 60 true) 60 by apply: task_ready; lra.
have [N hN] := C85_free_energy 1e-4%Re HC S1 S2 erefl (fun _ _ => erefl) h5 hg l1 l2 hc hr erefl.
exists N => fuel hf unk garbage empty; have [t' [F [E _ LF NF]]] := hN fuel hf unk garbage empty.
have L30 : Z.to_nat (pyround (3 / (1 / 10))) = 30%N.
  have -> : (3 / (1 / 10) = 30)%Re by lra.
  by rewrite (pyround_IZR 30).
rewrite /= L30 in LF; exists t', F; split=> // x /(@List.In_nth_error _ _ _) [i hi].
have hl : (i < List.length F)%coq_nat by apply/List.nth_error_Some; rewrite hi.
have [y [E' _ neg]] := NF i hl; move: E'; rewrite hi => -[->]; apply: neg; last by rewrite LF in hl; lia.
by move=> k hk; split; [exact: gold_sharp|left].
Qed.
