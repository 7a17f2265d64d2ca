(** * The determinants of all orders at large distances *)
From Coq Require Import Reals.
From Coq Require Import List Lia Lra ZArith.
From mathcomp Require Import all_ssreflect ssralg fingroup perm matrix mxalgebra poly mxpoly.
From Verif Require Import Base RStruct Mat_Model Mat_Spec Mat_Proofs Bessel_Model Scat_Model Scat_Spec Scat_Proofs Scat_Proofs7 Scat_Proofs8 Scat_Proofs9 Scat_Proofs10 Trans_Model Trans_Spec Trans_Proofs3 Lin_Model Lin_Spec Lin_Proofs Trip_Proofs
  RT_Model RT_Spec RT_Spec2 RT_Proofs RT_Proofs2 RT_Proofs4 RT_Proofs5 RT_Proofs14 RT_Props RT_Props2 Far_Proofs Far_Props Dip_Spec Dip_Proofs2 Dip_Proofs4 Remote_Proofs Remote_Proofs2 Remote_Proofs3 Remote_Proofs4.
Set Implicit Arguments.
Unset Strict Implicit.
Import GRing.Theory.
Local Open Scope ring_scope.
Delimit Scope R_scope with Re.

Lemma back (y L : R) : (0 < y)%Re -> (0 < L)%Re -> (y / (y / L) = L)%Re.
Proof. by move=> hy hL; field; split; lra. Qed.
Lemma tr_super n q : \tr (super n q) = (mtrace n (EE q) + mtrace n (MM q))%Re.
Proof. by rewrite /super mxtrace_block !mtraceE. Qed.

Section Freq.
Context (bes : list R -> nat -> Z -> res (list (list R) * list (list R))) (J : nat -> R -> R) (dl : R) (HG : good_bes bes J dl).
Context (c : config) (m1 m2 : material) (ra rb : R) (e : list Mat_Model.osc) (b : Mat_Model.bprops) (HC : two_spheres c m1 m2 ra rb e b).
Context (pe pm pe' pm' : R) (P1 : polarizability e b m1 pe pm) (P2 : polarizability e b m2 pe' pm') (hmu : mu_val b 0 = 1%Re) (Hext : c_ext c = true).
Lemma all_freq m y eps : (0 <= m)%Z -> (Z.to_nat m <= c_lmax c)%coq_nat -> (1 <= c_lmax c)%coq_nat -> (1 <= c_lssmax c)%coq_nat -> (0 < y)%Re -> (0 < eps)%Re ->
  exists L0, (0 < L0)%Re /\ forall L, (L0 <= L)%Re -> let D := \det (1%:M - trip bes (at_distance c L) m (y / L)%Re) in
    (0 < D)%Re /\ (Rabs (ln D / (ra * rb / L ^ 2) ^ 3 + far_value pe pm pe' pm' m (y * sqrt (eps_spec e 0))) < eps)%Re.
Proof.
move=> hm0 hm hl hs hy he; have [_ [_ [_ [pa [pb _]]]]] := HC.
pose M k : 'M[R]_(n1 c m + n1 c m) := super (n1 c m) (gblocks bes (at_distance c (y / k)%Re) m k).
have hr : (0 < ra * rb)%Re by apply: Rmult_lt_0_compat.
have N := @block_near bes J dl HG c m1 m2 ra rb e b HC pe pm pe' pm' P1 P2 hmu Hext m y hy.
have hb i j : bnd (fun k => M k i j / (ra * rb / (y / k) ^ 2) ^ 3)%Re.
  rewrite -(splitK i) -(splitK j); case: (split i) => i'; case: (split j) => j'; have [n1' [n2' [n3' n4']]] := N i' j' (ltP (ltn_ord i')) (ltP (ltn_ord j')).
  - by move: n1'; apply: bnd_ext => k _; rewrite /M /super /= block_mxEul mxE.
  - by move: n2'; apply: bnd_ext => k _; rewrite /M /super /= block_mxEur mxE.
  - by move: n3'; apply: bnd_ext => k _; rewrite /M /super /= block_mxEdl mxE.
  - by move: n4'; apply: bnd_ext => k _; rewrite /M /super /= block_mxEdr mxE.
have T := @trace_limit bes J dl HG c m1 m2 ra rb e b HC pe pm pe' pm' P1 P2 hmu Hext m hm0 y hy hm hl hs.
have ht : lim0 (fun k => \tr (M k) / (ra * rb / (y / k) ^ 2) ^ 3)%Re (far_value pe pm pe' pm' m (y * sqrt (eps_spec e 0))%Re).
  by move: T; apply: lim0_ext => k _; rewrite /M tr_super.
have [L0 [p0 h]] := @far_ln_det _ M y (ra * rb)%Re _ hy hr hb ht eps he.
exists L0; split; first exact p0.
move=> L hL; have pL : (0 < L)%Re by lra.
have := h L hL; rewrite /M back // /trip gt_super; exact.
Qed.
End Freq.

Lemma ln_two (A B a b d del h : R) : (0 < A)%Re -> (0 < B)%Re -> (0 < del)%Re -> (Rabs (ln A / del + a) < h)%Re -> (Rabs (ln B / del + b) < h)%Re -> d = (a + b)%Re ->
  (0 < A * B)%Re /\ (Rabs (ln (A * B) / del + d) < h + h)%Re.
Proof.
move=> pa pb pd ha hb ->; split; first exact: Rmult_lt_0_compat.
rewrite ln_mult //; have -> : ((ln A + ln B) / del + (a + b) = (ln A / del + a) + (ln B / del + b))%Re by rewrite /Rdiv; ring.
by apply: Rle_lt_trans; [exact: Rabs_triang|lra].
Qed.

Section Zero.
Context (c : config) (m1 m2 : material) (ra rb : R) (e : list Mat_Model.osc) (b : Mat_Model.bprops) (HC : two_spheres c m1 m2 ra rb e b).
Context (pe pm pe' pm' : R) (P1 : polarizability e b m1 pe pm) (P2 : polarizability e b m2 pe' pm') (hmu : mu_val b 0 = 1%Re) (Hext : c_ext c = true).
Context (S1 : static_sphere m1) (S2 : static_sphere m2).
Lemma far_block m al be eps : (0 <= m)%Z -> (0 < n1 c m)%coq_nat -> (0 < n2 c m)%coq_nat -> (0 < eps)%Re ->
  exists L0, (0 < L0)%Re /\ forall L, (L0 <= L)%Re -> let D := \det (1%:M - mx (n1 c m) (sblock (at_distance c L) ra rb m 1 al be)) in
    (0 < D)%Re /\ (Rabs (ln D / (ra * rb / L ^ 2) ^ 3 + (if (Z.to_nat m <=? 1)%coq_nat then static_value (trans_k0_ext m 1 1) ^ 2 * al 0%N * be 0%N else 0)) < eps)%Re.
Proof.
move=> hm q1 q2 he; have [_ [_ [_ [pa [pb _]]]]] := HC.
have hr : (0 < ra * rb)%Re by apply: Rmult_lt_0_compat.
pose M k : 'M[R]_(n1 c m) := mx (n1 c m) (sblock (at_distance c (1 / k)%Re) ra rb m 1 al be).
have hb i j : bnd (fun k => M k i j / (ra * rb / (1 / k) ^ 2) ^ 3)%Re.
  by have := @static_near c ra rb pa pb m al be i j; apply: bnd_ext => k _; rewrite /M mxE.
have ht := @static_trace c ra rb pa pb m al be (fun _ => conj q1 q2).
have ht' : lim0 (fun k => \tr (M k) / (ra * rb / (1 / k) ^ 2) ^ 3)%Re (if (Z.to_nat m <=? 1)%coq_nat then static_value (trans_k0_ext m 1 1) ^ 2 * al 0%N * be 0%N else 0)%Re.
  by move: ht; apply: lim0_ext => k _; rewrite /M mtraceE.
have [L0 [p0 h]] := @far_ln_det _ M 1%Re (ra * rb)%Re _ Rlt_0_1 hr hb ht' eps he.
exists L0; split; first exact p0.
move=> L hL; have pL : (0 < L)%Re by lra.
have := h L hL; rewrite /M (back Rlt_0_1 pL); exact.
Qed.

Lemma all_static m eps : some_orders c m -> (0 < eps)%Re ->
  exists L0, (0 < L0)%Re /\ forall L, (L0 <= L)%Re -> exists D, [/\ limit0 (fun k => \det (1%:M - trip mie_bessels (at_distance c L) m k)) D, (0 < D)%Re &
    (Rabs (ln D / (ra * rb / L ^ 2) ^ 3 + far_value pe pm pe' pm' m 0) < eps)%Re].
Proof.
move=> ho he; have [p1 p2] := orders_pos ho; have hm0 := proj1 ho.
have hs : (n1 c m <= 1)%coq_nat \/ (0 < n2 c m)%coq_nat by right; apply/ltP.
have [ate [atm [aln [bte [btm [bln [A0 [B0 [kap [Ea [Eb [RA [RB _]]]]]]]]]]]]] := k0_blocks c m1 m2 ra rb e b HC S1 S2 Hext m hs.
have [c1e [c2e [cme [pa [pb _]]]]] := HC.
pose o := (lmin m - 1)%coq_nat; pose row (v w : list R) (i : nat) : R := (at_ v (o + i)%coq_nat * exp (at_ w (o + i)%coq_nat))%Re.
pose S L := mx (n1 c m) (sblock (at_distance c L) ra rb m 1 (row ate aln) (row bte bln)).
pose P L := mx (n1 c m) (sblock (at_distance c L) ra rb m 1 (row atm aln) (row btm bln)).
have lim L : (0 < L)%Re -> limit0 (fun k => \det (1%:M - trip mie_bessels (at_distance c L) m k)) (\det (1%:M - S L) * \det (1%:M - P L)).
  move=> pL; have HC' : two_spheres (at_distance c L) m1 m2 ra rb e b by exact: (conj c1e (conj c2e (conj cme (conj pa (conj pb pL))))).
  have [a1 [a2 [a3 [b1 [b2 [b3 [_ [_ [_ [_ [[eA' eB'] _ _ hz _]]]]]]]]]]] := RT_Proofs5.ext_limit HC' S1 S2 Hext hm0 hs.
  move: hz eA' eB'; rewrite /= Ea Eb => hz [e1 e2 e3] [e4 e5 e6]; move: hz; rewrite -e1 -e2 -e3 -e4 -e5 -e6 => hz.
  by move: (hz 1); rewrite hmu sqrt_1.
have he2 : (0 < eps / 2)%Re by lra.
have [L1 [q1 h1]] := @far_block m (row ate aln) (row bte bln) _ hm0 (ltP p1) (ltP p2) he2.
have [L2 [q2 h2]] := @far_block m (row atm aln) (row btm bln) _ hm0 (ltP p1) (ltP p2) he2.
exists (L1 + L2)%Re; split; first lra.
move=> L hL; have pL : (0 < L)%Re by lra.
have hL1 : (L1 <= L)%Re by lra.
have hL2 : (L2 <= L)%Re by lra.
have [d1 l1] := h1 L hL1; have [d2 l2] := h2 L hL2.
have pdel : (0 < (ra * rb / L ^ 2) ^ 3)%Re by apply: pow_lt; apply: Rdiv_lt_0_compat; [exact: Rmult_lt_0_compat|exact: pow_lt].
have V : far_value pe pm pe' pm' m 0 = ((if (Z.to_nat m <=? 1)%coq_nat then static_value (trans_k0_ext m 1 1) ^ 2 * row ate aln 0%N * row bte bln 0%N else 0) +
   (if (Z.to_nat m <=? 1)%coq_nat then static_value (trans_k0_ext m 1 1) ^ 2 * row atm aln 0%N * row btm bln 0%N else 0))%Re.
  rewrite /far_value; case E : (Z.to_nat m <=? 1)%coq_nat; last by ring.
  have hm1 : (m = 0 \/ m = 1)%Z by move/PeanoNat.Nat.leb_le: E; lia.
  have h1l : (1 <= c_lmax c)%coq_nat by move: ho => [_ [u _]]; lia.
  have h1s : (1 <= c_lssmax c)%coq_nat by move: ho => [_ [_ u]]; lia.
  have o0 : o = 0%N by rewrite /o /lmin; case: hm1 => ->.
  have [RA1 RA2] := RA 0%N h1l; have [RB1 RB2] := RB 0%N h1s.
  have [LA LA'] := @mie_dipole m1 (c_med c) e b ra (c_lmax c) pe pm pa cme P1 h1l _ _ _ code_good.
  have [LB LB'] := @mie_dipole m2 (c_med c) e b rb (c_lssmax c) pe' pm' pb cme P2 h1s _ _ _ code_good.
  move: RA1 RA2 RB1 RB2; rewrite /mieA /mieB c1e c2e Hext => RA1 RA2 RB1 RB2.
  have v1 := limit0_unique _ _ _ RA1 LA; have v2 := limit0_unique _ _ _ RA2 LA'; have v3 := limit0_unique _ _ _ RB1 LB; have v4 := limit0_unique _ _ _ RB2 LB'.
  rewrite /row o0 (v1 : (at_ ate (0 + 0)%coq_nat * exp (at_ aln (0 + 0)%coq_nat) = _)%Re) (v2 : (at_ atm (0 + 0)%coq_nat * exp (at_ aln (0 + 0)%coq_nat) = _)%Re).
  rewrite (v3 : (at_ bte (0 + 0)%coq_nat * exp (at_ bln (0 + 0)%coq_nat) = _)%Re) (v4 : (at_ btm (0 + 0)%coq_nat * exp (at_ bln (0 + 0)%coq_nat) = _)%Re).
  rewrite (@dipole_static (c_med c) e b m cme hm1) /dip0 /dip1 Rmult_0_r Ropp_0 exp_0.
  by case: (Z.eqb m 0); field.
have [z1 z2] := ln_two d1 d2 pdel l1 l2 V.
exists (\det (1%:M - S L) * \det (1%:M - P L)); split; [exact: lim|exact: z1|].
by apply: Rlt_le_trans z2 _; lra.
Qed.
End Zero.
