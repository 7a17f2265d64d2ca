(** * Property C57: the matrices at zero frequency and the limit of those at finite frequency *)
From Coq Require Import Reals.
From Coq Require Import List Lia Lra ZArith Ranalysis4.
From mathcomp Require Import all_ssreflect ssralg matrix mxalgebra poly mxpoly.
From Verif Require Import Base RStruct Mat_Model Mat_Spec Bessel_Model Scat_Model Scat_Spec Scat_Proofs Scat_Proofs7 Scat_Proofs9 Scat_Proofs10 Scat_Props2 Trans_Model Trans_Spec
  Lin_Model Lin_Spec Bal_Proofs Lin_Proofs Trip_Proofs Lin_Proofs2 RT_Model RT_Spec RT_Proofs RT_Proofs2 RT_Proofs3 RT_Proofs4 RT_Proofs5.
Set Implicit Arguments.
Unset Strict Implicit.
Import GRing.Theory.
Local Open Scope ring_scope.
Delimit Scope R_scope with Re.

(** at least one order on each side *)
Definition some_orders (c : config) (m : Z) : Prop := (0 <= m)%Z /\ (Z.max 1 m <= Z.of_nat (c_lmax c))%Z /\ (Z.max 1 m <= Z.of_nat (c_lssmax c))%Z.
Lemma orders_pos c m : some_orders c m -> (0 < n1 c m)%N /\ (0 < n2 c m)%N.
Proof. by move=> [h0 [h1 h2]]; rewrite /n1 /n2 /lmin; split; apply/ltP; lia. Qed.

(** ** the matrix of the code is the round-trip operator of the coefficients, for all solid spheres and m >= 0 *)
Lemma mieAB_val c m1 m2 ra rb k e u : c_1 c = Solid m1 ra -> c_2 c = Solid m2 rb -> solid_ok m1 -> solid_ok m2 -> has (c_med c) e u -> (0 < ra)%Re -> (0 < rb)%Re -> (0 < k)%Re ->
  (exists A, mieA mie_bessels c [:: k] = Val A) /\ (exists B, mieB mie_bessels c [:: k] = Val B).
Proof.
move=> e1 e2 s1 s2 hm ha hb hk; rewrite /mieA /mieB e1 e2; split; first exact: (mie_val m1 (c_med c) e u).
by case: (c_ext c); [apply: (mie_val m2 (c_med c) e u)|apply: (mie_int_val (c_med c) m2 e u)].
Qed.
Theorem C57_matrix : forall c m1 m2 ra rb e u m k, c_1 c = Solid m1 ra -> c_2 c = Solid m2 rb -> solid_ok m1 -> solid_ok m2 -> has (c_med c) e u ->
  (0 < ra)%Re -> (0 < rb)%Re -> (0 < c_L c)%Re -> (0 < k)%Re -> (Z.max 1 m <= Z.of_nat (c_lmax c))%Z -> (Z.max 1 m <= Z.of_nat (c_lssmax c))%Z ->
  let n := n1 c m in let U := round_trip n (n2 c m) (rt_at c m k) in
  exists M g, [/\ rt_matrix mie_bessels trans_bessels c m [:: k] = Val M, @is_arr 1 (n + n) (n + n) M (fun=> g), similar U g &
    forall conv, (conv < 1)%Re -> exists N, forall fuel, (N <= fuel)%N ->
      rt_lndet mie_bessels trans_bessels c fuel conv m [:: k] = Some (Val [:: ln_abs_det (1%:M - U)])].
Proof.
move=> c m1 m2 ra rb e u m k e1 e2 s1 s2 hm ha hb hL hk h1 h2 n U.
have [[A eA] [B eB]] := mieAB_val e1 e2 s1 s2 hm ha hb hk.
have hn : (0 < n1 c m)%N by rewrite /n1 /lmin; apply/ltP; lia.
have hs : n1 c m = 1%N \/ (0 < n2 c m)%N by right; rewrite /n2 /lmin; apply/ltP; lia.
have [M [g [eM hM s _]]] := rt_run eA eB hm hL hk hn hs; exists M, g; split; [exact eM|exact hM|exact s|].
exact (rt_lndet_run eA eB hm hL hk hn hs).
Qed.
Print Assumptions C57_matrix.

(** ** exterior geometry: the blocks at zero frequency have the characteristic polynomial that the finite-frequency
    round-trip operator tends to *)
Theorem C57_static_limit : forall c m1 m2 ra rb e b m, two_spheres c m1 m2 ra rb e b -> static_sphere m1 -> static_sphere m2 -> c_ext c = true -> some_orders c m ->
  mu_val b 0 = 1%Re -> let n := n1 c m in
  exists A0 B0 TE0 TM0, [/\ blockmatrices_k0 trans_bessels c m = Val (A0, B0), @is_arr2 n n A0 TE0, @is_arr2 n n B0 TM0,
    forall z, limit0 (fun k => \det (z%:M - round_trip n (n2 c m) (rt_at c m k))) (\det (z%:M - TE0) * \det (z%:M - TM0)) &
    limit0 (fun k => \tr (round_trip n (n2 c m) (rt_at c m k))) (\tr TE0 + \tr TM0)].
Proof.
move=> c m1 m2 ra rb e b m HC S1 S2 hext ho hmu n; have [p1 p2] := orders_pos ho.
have hs : (n1 c m <= 1)%coq_nat \/ (0 < n2 c m)%coq_nat by right; apply/ltP.
have [ate [atm [aln [bte [btm [bln [A0 [B0 [TE0 [TM0 [_ [E0 hA hB] [s1 s2] hz ht]]]]]]]]]]] := ext_limit HC S1 S2 hext (proj1 ho) hs.
move: hz ht; rewrite hmu sqrt_1 => hz ht; exists A0, B0, TE0, TM0; split=> //.
- by move=> z; rewrite (similar_det (similar_zm z s1)) (similar_det (similar_zm z s2)); apply: hz.
- by rewrite (similar_tr s1) (similar_tr s2); apply: ht.
Qed.
Print Assumptions C57_static_limit.

(** the contribution of m to the free energy: if the static determinant is positive, its logarithm is what the code
    computes at zero frequency, and it is the limit of what it computes at finite frequencies *)
Lemma ln_prod a b : (0 < a * b)%Re -> Fin (ln (a * b)) = Fin (ln (Rabs a) + ln (Rabs b))%Re /\ a <> 0%Re /\ b <> 0%Re.
Proof.
move=> h; have ha : a <> 0%Re by move=> h0; move: h; rewrite h0; lra.
have hb : b <> 0%Re by move=> h0; move: h; rewrite h0; lra.
split=> //; rewrite -ln_mult; [|exact: Rabs_pos_lt|exact: Rabs_pos_lt].
by rewrite -Rabs_mult Rabs_pos_eq //; lra.
Qed.
Theorem C57_lndet : forall c m1 m2 ra rb e b m conv, two_spheres c m1 m2 ra rb e b -> static_sphere m1 -> static_sphere m2 -> c_ext c = true -> some_orders c m ->
  mu_val b 0 = 1%Re -> (conv < 1)%Re -> let n := n1 c m in let d k := \det (1%:M - round_trip n (n2 c m) (rt_at c m k)) in
  exists d0, limit0 d d0 /\ ((0 < d0)%Re ->
    (exists N, forall fuel, (N <= fuel)%N -> single_m_k0 trans_bessels c fuel conv m = Some (Val (Fin (ln d0)))) /\
    limit0 (fun k => ln (Rabs (d k))) (ln d0) /\
    (forall k, (0 < k)%Re -> exists N, forall fuel, (N <= fuel)%N ->
       rt_lndet mie_bessels trans_bessels c fuel conv m [:: k] = Some (Val [:: if d k == 0 then NInf else Fin (ln (Rabs (d k)))]))).
Proof.
move=> c m1 m2 ra rb e b m conv HC S1 S2 hext ho hmu hc n d; have [p1 p2] := orders_pos ho.
have [A0 [B0 [TE0 [TM0 [E0 hA hB hz _]]]]] := C57_static_limit HC S1 S2 hext ho hmu.
exists (\det (1%:M - TE0) * \det (1%:M - TM0)); split; first exact: (hz 1).
move=> hp; split; [|split].
- have [N hN] := blockdiag_total hc hA hB.
  exists N => fuel hf; rewrite /single_m_k0 E0.
  case: (Nat.eq_dec (n1 c m) 1) => [e1|ne].
  + move: TE0 TM0 hA hB hz hp; rewrite /n e1 => TE0 TM0 hA hB _ hp {hN}.
    move: (hA) (hB); rewrite (mx11_scalar TE0) (mx11_scalar TM0) => hA' hB'.
    rewrite (@blockdiag_1x1 _ _ _ _ _ _ hA' hB') /= /nplog.
    have e2 : \det (1%:M - TE0) * \det (1%:M - TM0) = (1 - TE0 ord0 ord0) * (1 - TM0 ord0 ord0) by rewrite !det_mx11 !mxE.
    move: hp; rewrite e2 -!RminusE -!RmultE => hp.
    case: Reqb_spec => [h0|_]; first by move: hp; rewrite h0; lra.
    by case: Rltb_spec => hl; [case: (Rlt_irrefl _ (Rlt_trans _ _ _ hl hp))|rewrite -(mx11_scalar TE0) -(mx11_scalar TM0); congr (Some (Val (Fin (ln _)))); exact (esym e2)].
  + case: (blockdiag_spec fuel conv ne hA hB) => [h|->]; first by have := hN fuel hf; rewrite h.
    have [-> [n1 n2]] := ln_prod hp; rewrite /ln_abs_det.
    by case: eqP => // _; case: eqP => // _ /=; rewrite Rplus_comm.
- apply: (@lim0_eq _ (ln (Rabs (\det (1%:M - TE0) * \det (1%:M - TM0))%Re))); first by rewrite Rabs_pos_eq //; exact (Rlt_le _ _ hp).
  apply: (@lim0_comp (fun x => ln (Rabs x)) d); last exact: (hz 1).
  apply: (Ranalysis1.continuity_pt_comp Rabs ln); first exact: Rcontinuity_abs.
  by apply: derivable_continuous_pt; exists (/ (Rabs (\det (1%:M - TE0) * \det (1%:M - TM0))))%Re; apply: derivable_pt_lim_ln; apply: Rabs_pos_lt; exact (Rgt_not_eq _ _ hp).
- move=> k hk; have [e1 [e2 [CM [ha [hb hL]]]]] := HC.
  have [_ [_ [_ [_ hh]]]] := insulator_flags _ _ _ CM.
  have [M [g [_ _ _ h]]] := C57_matrix e1 e2 (static_solid _ S1) (static_solid _ S2) hh ha hb hL hk (proj1 (proj2 ho)) (proj2 (proj2 ho)).
  exact: h hc.
Qed.
Print Assumptions C57_lndet.

(** in a magnetic medium the two disagree: the translation coefficients are evaluated at k L sqrt(epsilon), the Mie
    coefficients at k r sqrt(epsilon mu), while the static matrices use the ratio r / L *)
Lemma pec_trace c ra rb e b m : two_spheres c PEC PEC ra rb e b -> c_ext c = true -> some_orders c m -> mu_val b 0 <> 1%Re ->
  exists A0 B0 TE0 TM0 t, [/\ blockmatrices_k0 trans_bessels c m = Val (A0, B0), @is_arr2 (n1 c m) (n1 c m) A0 TE0, @is_arr2 (n1 c m) (n1 c m) B0 TM0,
    limit0 (fun k => \tr (round_trip (n1 c m) (n2 c m) (rt_at c m k))) t & t <> \tr TE0 + \tr TM0].
Proof.
move=> HC hext ho hmu; have [p1 p2] := orders_pos ho.
have SP : static_sphere PEC by left.
have hs : (n1 c m <= 1)%coq_nat \/ (0 < n2 c m)%coq_nat by right; apply/ltP.
have [ate [atm [aln [bte [btm [bln [A0 [B0 [TE0 [TM0 [[ea eb] [E0 hA hB] [s1 s2] _ ht]]]]]]]]]]] := ext_limit HC SP SP hext (proj1 ho) hs.
exists A0, B0, TE0, TM0; eexists; split; [exact E0|exact hA|exact hB|exact ht|].
have [_ [_ [CM [ha [hb hL]]]]] := HC.
have [_ [_ [_ [Hb _]]]] := insulator_flags _ _ _ CM.
have qp : (0 < mu_val b 0)%Re by apply: mu_val_pos Hb _; lra.
rewrite (similar_tr s1) (similar_tr s2) -!mtraceE.
have lp := lmin_pos m.
have o1 i : (i < n1 c m)%coq_nat -> (((lmin m - 1)%coq_nat + i)%coq_nat < c_lmax c)%coq_nat by rewrite /n1; lia.
have o2 i : (i < n2 c m)%coq_nat -> (((lmin m - 1)%coq_nat + i)%coq_nat < c_lssmax c)%coq_nat by rewrite /n2; lia.
have so i : S ((lmin m - 1)%coq_nat + i)%coq_nat = (lmin m + i)%coq_nat by lia.
have rA i : (i < n1 c m)%coq_nat -> exists p p', [/\ (0 < p)%Re, (0 < p')%Re, (at_ ate ((lmin m - 1)%coq_nat + i)%coq_nat * exp (at_ aln ((lmin m - 1)%coq_nat + i)%coq_nat) = 1 * sgn (lmin m + i)%coq_nat * p)%Re &
   (at_ atm ((lmin m - 1)%coq_nat + i)%coq_nat * exp (at_ aln ((lmin m - 1)%coq_nat + i)%coq_nat) = -1 * sgn (lmin m + i)%coq_nat * p')%Re].
  move=> hi; have [p [p' [h1 [h2 [-> ->]]]]] := pec_rows _ _ _ _ _ _ _ _ CM ea _ (o1 i hi).
  by exists p, p'; rewrite so; split=> //; ring.
have rB i : (i < n2 c m)%coq_nat -> exists p p', [/\ (0 < p)%Re, (0 < p')%Re, (at_ bte ((lmin m - 1)%coq_nat + i)%coq_nat * exp (at_ bln ((lmin m - 1)%coq_nat + i)%coq_nat) = 1 * sgn (lmin m + i)%coq_nat * p)%Re &
   (at_ btm ((lmin m - 1)%coq_nat + i)%coq_nat * exp (at_ bln ((lmin m - 1)%coq_nat + i)%coq_nat) = -1 * sgn (lmin m + i)%coq_nat * p')%Re].
  move=> hi; have [p [p' [h1 [h2 [-> ->]]]]] := pec_rows _ _ _ _ _ _ _ _ CM eb _ (o2 i hi).
  by exists p, p'; rewrite so; split=> //; ring.
have mono q q' : (0 < q < q')%Re ->
  (mtrace (n1 c m) (sblock c ra rb m q (fun i => (at_ ate ((lmin m - 1)%coq_nat + i)%coq_nat * exp (at_ aln ((lmin m - 1)%coq_nat + i)%coq_nat))%Re) (fun i => (at_ bte ((lmin m - 1)%coq_nat + i)%coq_nat * exp (at_ bln ((lmin m - 1)%coq_nat + i)%coq_nat))%Re))
   < mtrace (n1 c m) (sblock c ra rb m q' (fun i => (at_ ate ((lmin m - 1)%coq_nat + i)%coq_nat * exp (at_ aln ((lmin m - 1)%coq_nat + i)%coq_nat))%Re) (fun i => (at_ bte ((lmin m - 1)%coq_nat + i)%coq_nat * exp (at_ bln ((lmin m - 1)%coq_nat + i)%coq_nat))%Re)))%Re /\
  (mtrace (n1 c m) (sblock c ra rb m q (fun i => (at_ atm ((lmin m - 1)%coq_nat + i)%coq_nat * exp (at_ aln ((lmin m - 1)%coq_nat + i)%coq_nat))%Re) (fun i => (at_ btm ((lmin m - 1)%coq_nat + i)%coq_nat * exp (at_ bln ((lmin m - 1)%coq_nat + i)%coq_nat))%Re))
   < mtrace (n1 c m) (sblock c ra rb m q' (fun i => (at_ atm ((lmin m - 1)%coq_nat + i)%coq_nat * exp (at_ aln ((lmin m - 1)%coq_nat + i)%coq_nat))%Re) (fun i => (at_ btm ((lmin m - 1)%coq_nat + i)%coq_nat * exp (at_ bln ((lmin m - 1)%coq_nat + i)%coq_nat))%Re)))%Re.
  move=> hq; split.
  - apply: (trace_mono c ra rb m ha hb hL _ _ 1%Re) => //; [lra| | |exact/ltP|exact/ltP].
      by move=> i /rA [p [p' [h1 h2 h3 h4]]]; exists p.
    by move=> i /rB [p [p' [h1 h2 h3 h4]]]; exists p.
  - apply: (trace_mono c ra rb m ha hb hL _ _ (-1)%Re) => //; [lra| | |exact/ltP|exact/ltP].
      by move=> i /rA [p [p' [h1 h2 h3 h4]]]; exists p'.
    by move=> i /rB [p [p' [h1 h2 h3 h4]]]; exists p'.
have sq : sqrt (mu_val b 0) <> 1%Re by move=> h; apply: hmu; rewrite -(sqrt_sqrt (mu_val b 0)) ?h; lra.
have sp : (0 < sqrt (mu_val b 0))%Re by apply: sqrt_lt_R0.
case: (Rtotal_order (sqrt (mu_val b 0)) 1) => [hl|[//|hl]].
- have [h1 h2] := mono _ 1%Re (conj sp hl); apply: Rlt_not_eq; exact: Rplus_lt_compat h1 h2.
- have [h1 h2] := mono 1%Re _ (conj Rlt_0_1 hl); apply: Rgt_not_eq; exact: Rplus_lt_compat h1 h2.
Qed.
Theorem C57_magnetic_refuted : forall c ra rb e b m, two_spheres c PEC PEC ra rb e b -> c_ext c = true -> some_orders c m -> mu_val b 0 <> 1%Re ->
  exists A0 B0 TE0 TM0, [/\ blockmatrices_k0 trans_bessels c m = Val (A0, B0), @is_arr2 (n1 c m) (n1 c m) A0 TE0, @is_arr2 (n1 c m) (n1 c m) B0 TM0 &
    ~ limit0 (fun k => \tr (round_trip (n1 c m) (n2 c m) (rt_at c m k))) (\tr TE0 + \tr TM0)].
Proof.
move=> c ra rb e b m HC hext ho hmu; have [A0 [B0 [TE0 [TM0 [t [E0 hA hB ht hne]]]]]] := pec_trace HC hext ho hmu.
exists A0, B0, TE0, TM0; split=> // h; apply: hne; exact: (limit0_unique _ _ _ ht h).
Qed.
Print Assumptions C57_magnetic_refuted.

(** ** the hypotheses are met: two metal spheres of radii 1 and 2 in water, distance 4, orders up to 3 and 4 *)
Definition gold_in_water : config := {| c_1 := Solid (Lorentz e_Gold None) 1; c_2 := Solid (Lorentz e_Gold None) 2; c_med := Lorentz e_Water None; c_L := 4;
  c_lmax := 3; c_lssmax := 4; c_ext := true; c_mat := fun=> PEC |}.
Example C57_gold : two_spheres gold_in_water (Lorentz e_Gold None) (Lorentz e_Gold None) 1 2 e_Water None /\ static_sphere (Lorentz e_Gold None) /\ some_orders gold_in_water 1 /\
  sphere_sphere (fun=> PEC) (c_1 gold_in_water) (c_2 gold_in_water) (c_med gold_in_water) 4 3 4 = Ok gold_in_water /\ mu_val None 0 = 1%Re.
Proof.
split; first by rewrite /two_spheres /=; split=> //; split=> //; split; [exact water_insulator|lra].
split; first by right; right; exists e_Gold, None; exact gold_drude.
split; first by rewrite /some_orders /=; lia.
split=> //; rewrite /sphere_sphere /=; case: Rltb_spec => // h; lra.
Qed.
Definition reflectors_in_ferrofluid : config := {| c_1 := Solid PEC 1; c_2 := Solid PEC 2; c_med := Lorentz e_Water (Some (2, 1)%Re); c_L := 4;
  c_lmax := 3; c_lssmax := 4; c_ext := true; c_mat := fun=> PEC |}.
Example C57_ferrofluid : two_spheres reflectors_in_ferrofluid PEC PEC 1 2 e_Water (Some (2, 1)%Re) /\ some_orders reflectors_in_ferrofluid 0 /\ mu_val (Some (2, 1)%Re) 0 <> 1%Re.
Proof.
split.
  rewrite /two_spheres /=; split=> //; split=> //; split; last by lra.
  by have [_ [h1 [h2 _]]] := water_insulator; split=> //; split=> //; split=> //; lra.
split; first by rewrite /some_orders /=; lia.
rewrite /mu_val /mu_spec => h; have : (1 + (2 - 1) / (1 + 0 / (1 / omega_norm)) = 2)%Re by rewrite /Rdiv Rmult_0_l Rplus_0_r Rinv_1; lra.
by rewrite h; lra.
Qed.
