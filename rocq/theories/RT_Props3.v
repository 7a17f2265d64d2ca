(** * Property C61: bodies that are both denser, or both less dense, than the medium attract each other *)
From Coq Require Import Reals.
From Coq Require Import List Lia Lra ZArith.
From mathcomp Require Import all_ssreflect ssralg matrix mxalgebra poly mxpoly.
From Verif Require Import Base RStruct Mat_Model Mat_Spec Mat_Proofs Bessel_Model Scat_Model Scat_Spec Scat_Proofs Scat_Proofs4 Scat_Proofs7 Scat_Proofs9 Scat_Proofs10 Scat_Props2 Trans_Model Trans_Spec
  Lin_Model Lin_Spec Bal_Proofs Lin_Proofs Trip_Proofs Lin_Proofs2 RT_Model RT_Spec RT_Spec2 RT_Proofs RT_Proofs2 RT_Proofs3 RT_Proofs4 RT_Proofs6 RT_Proofs7 RT_Proofs8 RT_Proofs9 RT_Proofs10
  RT_Props RT_Props2.
Set Implicit Arguments.
Unset Strict Implicit.
Import GRing.Theory.
Local Open Scope ring_scope.
Delimit Scope R_scope with Re.

(** ** determinants *)
Lemma prod_exp (I : Type) (r : seq I) (F : I -> R) : (forall i, (0 <= F i <= 1)%Re) -> (0 <= \prod_(i <- r) (1 - F i) <= exp (- \sum_(i <- r) F i))%Re.
Proof.
move=> h; elim: r => [|i r IH]; first by rewrite !big_nil zE oE Ropp_0 exp_0; lra.
have e2 : (1 - F i) = (1 - F i)%Re by [].
rewrite !big_cons -[X in exp (- X)]RplusE -RmultE Ropp_plus_distr exp_plus e2.
have [h1 h2] := h i; have e1 : (1 - F i <= exp (- F i))%Re by have := exp_ineq1_le (- F i); lra.
split; first by apply: Rmult_le_pos; [lra|case: IH].
by apply: Rmult_le_compat => //; [lra|case: IH|case: IH].
Qed.
Lemma lnE n (A : 'M[R]_n) : (0 < \det A)%Re -> ln_abs_det A = Fin (ln (\det A)).
Proof.
move=> h; rewrite /ln_abs_det; case: eqP => [h0|_]; first by move: h; rewrite h0 zE; lra.
by rewrite Rabs_pos_eq //; lra.
Qed.
Lemma ln_le (a b : R) : (0 < a -> a <= b -> ln a <= ln b)%Re.
Proof. by move=> ha [h| ->]; [left; apply: ln_increasing|right]. Qed.
Lemma one_minus (a b : R) : (a < 1 -> 1 - a <= b -> 0 < 1 - a /\ 0 < b)%Re.
Proof. by lra. Qed.
(** a definite round trip, [q]: the product of the two signs *)
Section Definite.
Context (n ns : nat) (e : roundtrip) (s1 s2 : R) (hp : parity n ns e) (h1 : s1 * s1 = 1) (h2 : s2 * s2 = 1).
Context (d1 : definite s1 n (fun i => aTE e i * exp (a2 e i)) (fun i => aTM e i * exp (a2 e i))).
Context (d2 : definite s2 ns (fun i => bTE e i * exp (b2 e i)) (fun i => bTM e i * exp (b2 e i))).
Let U := round_trip n ns e.
Lemma attract : s1 * s2 = 1 -> (forall j, (0 <= \tr (mxpow U j.+1))%Re) /\
  ((\tr U < 1)%Re -> exists v, ln_abs_det (1%:M - U) = Fin v /\ (ln (1 - \tr U) <= v <= - \tr U)%Re).
Proof.
move=> hs; have [B [hd ht _]] := definite_gram hp h1 h2 d1 d2.
have ht' j : \tr (mxpow U j.+1) = \tr (mxpow (B *m B^T) j.+1) by rewrite ht hs expr1n mul1r.
have t1 : \tr U = \tr (B *m B^T) by have := ht' 0%N; rewrite /mxpow /= !mulmx1.
split; first by move=> j; rewrite ht'; apply: gram_pow.
rewrite t1 => hlt; have [p0 [p1 [p2 p3]]] := psd_small (psd_gram B) hlt.
have hd' : \det (1%:M - U) = \det (1%:M - B *m B^T) by rewrite hd hs scale1r.
have [lp dp'] := one_minus hlt p1.
have dp : (0 < \det (1%:M - U))%Re by rewrite hd'.
exists (ln (\det (1%:M - U))); split; first exact: lnE.
rewrite hd'; split; first exact: ln_le.
rewrite -[(- _)%Re]ln_exp; apply: ln_le => //.
have aux (a b : R) : (0 <= a -> a <= b -> b < 1 -> 0 <= a <= 1)%Re by lra.
have hb i : (0 <= (B *m B^T) i i <= 1)%Re by have [q1 q2] := p3 i; exact (aux _ _ q1 q2 hlt).
have [_ hx] := prod_exp (index_enum _) hb; exact: Rle_trans p2 hx.
Qed.
Lemma repel : s1 * s2 = -1 -> (forall j, (0 <= (-1) ^+ j.+1 * \tr (mxpow U j.+1))%Re) /\ (\tr U <= 0)%Re /\
  exists v, ln_abs_det (1%:M - U) = Fin v /\ (0 <= ln (1 - \tr U) <= v)%Re.
Proof.
move=> hs; have [B [hd ht _]] := definite_gram hp h1 h2 d1 d2.
have t1 : \tr U = - \tr (B *m B^T) by have := ht 0%N; rewrite /mxpow /= !mulmx1 hs expr1 mulN1r.
have hd' : \det (1%:M - U) = \det (1%:M + B *m B^T) by rewrite hd hs scaleN1r opprK.
have pp := psd_plus (psd_gram B); have p0 := tr_gram_nonneg B.
split; first by move=> j; rewrite ht hs RmultE mulrA sgn_sqr mul1r; apply: gram_pow.
have t2 : \tr U = (- \tr (B *m B^T))%Re by [].
split; first by rewrite t2; lra.
exists (ln (\det (1%:M - U))); split; first by apply: lnE; rewrite hd'; lra.
rewrite hd' t2; split; first by rewrite -[X in (X <= _)%Re]ln_1; apply: ln_le; lra.
by apply: ln_le; lra.
Qed.
End Definite.

(** ** signs of the coefficients of a configuration *)
Definition s_of (m : Z) (s : R) : R := s * (-1) ^+ lmin m.
Lemma s_ofM m s s' : s_of m s * s_of m s' = s * s'.
Proof. by rewrite /s_of mulrACA sgn_sqr mulr1. Qed.
Lemma definite_of m s N k F n : (n + lmin m = N + 1)%coq_nat -> signed s N k F ->
  definite (s_of m s) n (fun i => (entry TE F ((lmin m - 1)%coq_nat + i)%coq_nat k * exp 0)%Re) (fun i => (entry TM F ((lmin m - 1)%coq_nat + i)%coq_nat k * exp 0)%Re).
Proof.
move=> hn hs i /ltP hi; have lp := lmin_1 m.
have [|p1 p2] := hs ((lmin m - 1)%coq_nat + i)%coq_nat; first lia.
have e1 : (s_of m s * (-1) ^+ i)%Re = (s * (-1) ^ (((lmin m - 1)%coq_nat + i)%coq_nat + 1)%coq_nat)%Re.
  by rewrite RmultE /s_of -mulrA -exprD powE; congr (_ * (_ ^ _))%Re; rewrite -plusE; lia.
by rewrite exp_0 !Rmult_1_r e1.
Qed.
Lemma solid_definite mieb c m k s1 s2 : some_orders c m -> signed s1 (c_lmax c) k (mieA mieb c) -> signed s2 (c_lssmax c) k (mieB mieb c) -> let e := rt_with mieb c m k in
  definite (s_of m s1) (n1 c m) (fun i => aTE e i * exp (a2 e i)) (fun i => aTM e i * exp (a2 e i)) /\
  definite (s_of m s2) (n2 c m) (fun i => bTE e i * exp (b2 e i)) (fun i => bTM e i * exp (b2 e i)).
Proof.
move=> [h0 [h1 h2]] g1 g2 e; split.
- by apply: (@definite_of m s1 (c_lmax c) k (mieA mieb c)) => //; rewrite /n1 /lmin; lia.
- by apply: (@definite_of m s2 (c_lssmax c) k (mieB mieb c)) => //; rewrite /n2 /lmin; lia.
Qed.
Lemma contrast_sq s m e u k : contrast s m e u k -> s * s = 1.
Proof.
have h1 : (1 * 1)%Re = 1%Re by lra.
have h2 : (-1 * -1)%Re = 1%Re by lra.
by case=> [[-> _]|[e1 [u1 [_ [[-> _]|[-> _]]]]]].
Qed.
Lemma contrast_solid s m e u k : contrast s m e u k -> solid_ok m.
Proof. by case=> [[_ ->]|[e1 [u1 [h _]]]]; [left|right; exists e1, u1]. Qed.
Lemma exact_val c m1 m2 ra rb k e u : c_1 c = Solid m1 ra -> c_2 c = Solid m2 rb -> solid_ok m1 -> solid_ok m2 -> has (c_med c) e u -> (0 < ra)%Re -> (0 < rb)%Re -> (0 < k)%Re ->
  (exists A, mieA exact_bessels c [:: k] = Val A) /\ (exists B, mieB exact_bessels c [:: k] = Val B).
Proof.
move=> e1 e2 s1 s2 hm ha hb hk; rewrite /mieA /mieB e1 e2.
have l1 n : (Z.of_nat 0 <= Z.of_nat n)%Z by lia.
have ext n r mm : solid_ok mm -> (0 < r)%Re -> exists A, mie exact_bessels [:: k] 0 (Z.of_nat n) r mm (c_med c) = Val A.
  move=> [->|[e3 [u3 h3]]] hr.
  - by have [A [hA _]] := mie_pec_exact [:: k] 0 (Z.of_nat n) (only k hk) (l1 n) r (c_med c) e u hr hm; exists A.
  - by have [A [hA _]] := mie_exact [:: k] 0 (Z.of_nat n) (only k hk) (l1 n) r mm (c_med c) e3 u3 e u hr h3 hm; exists A.
split; first exact: ext.
case: (c_ext c); first exact: ext.
case: s2 => [->|[e3 [u3 h3]]].
- by have [A [hA _]] := mie_pec_int_exact [:: k] 0 (Z.of_nat (c_lssmax c)) (only k hk) (l1 _) rb (c_med c) e u hb hm; exists A.
- by have [A [hA _]] := mie_int_exact [:: k] 0 (Z.of_nat (c_lssmax c)) (only k hk) (l1 _) rb (c_med c) m2 e u e3 u3 hb hm h3; exists A.
Qed.

(** ** two solid bodies, exact radial functions *)
Theorem C61_attraction : forall c m1 m2 ra rb e u m k s conv, c_1 c = Solid m1 ra -> c_2 c = Solid m2 rb -> has (c_med c) e u -> (0 < ra)%Re -> (0 < rb)%Re -> (0 < c_L c)%Re -> (0 < k)%Re ->
  some_orders c m -> contrast s m1 e u k -> contrast s m2 e u k -> (conv < 1)%Re -> let U := trip exact_bessels c m k in
  (forall j, (0 <= \tr (mxpow U j.+1))%Re) /\
  ((\tr U < 1)%Re -> exists v N, (forall fuel, (N <= fuel)%N -> rt_lndet exact_bessels trans_bessels c fuel conv m [:: k] = Some (Val [:: Fin v])) /\ (ln (1 - \tr U) <= v <= - \tr U)%Re).
Proof.
move=> c m1 m2 ra rb e u m k s conv e1 e2 hm ha hb hL hk ho g1 g2 hc U.
have [[A eA] [B eB]] := exact_val e1 e2 (contrast_solid g1) (contrast_solid g2) hm ha hb hk.
have [N hN] := lndet_total eA eB hm hL hk (proj1 (proj2 ho)) (proj2 (proj2 ho)) hc.
have s1 : signed s (c_lmax c) k (mieA exact_bessels c) by rewrite /mieA e1; apply: (ext_signed _ _ ha _ _ _ hm _ hk).
have s2 : signed s (c_lssmax c) k (mieB exact_bessels c) by rewrite /mieB e2; case: (c_ext c); [apply: (ext_signed _ _ hb _ _ _ hm _ hk)|apply: (int_signed _ _ hb _ _ _ hm _ hk)].
have [d1 d2] := solid_definite ho s1 s2; have ss := contrast_sq g1.
have sq : s_of m s * s_of m s = 1 by rewrite s_ofM.
have [h1 h2] := attract (@parity_rt exact_bessels c m k) sq sq d1 d2 sq.
split; first exact h1.
move=> /h2 [v [ev hv]]; exists v, N; split; last exact hv.
by move=> f hf; rewrite (hN f hf) /trip ev.
Qed.
Print Assumptions C61_attraction.
Theorem C61_repulsion : forall c m1 m2 ra rb e u m k s conv, c_1 c = Solid m1 ra -> c_2 c = Solid m2 rb -> has (c_med c) e u -> (0 < ra)%Re -> (0 < rb)%Re -> (0 < c_L c)%Re -> (0 < k)%Re ->
  some_orders c m -> contrast s m1 e u k -> contrast (- s) m2 e u k -> (conv < 1)%Re -> let U := trip exact_bessels c m k in
  (forall j, (0 <= (-1) ^+ j.+1 * \tr (mxpow U j.+1))%Re) /\
  exists v N, (forall fuel, (N <= fuel)%N -> rt_lndet exact_bessels trans_bessels c fuel conv m [:: k] = Some (Val [:: Fin v])) /\ (0 <= ln (1 - \tr U) <= v)%Re.
Proof.
move=> c m1 m2 ra rb e u m k s conv e1 e2 hm ha hb hL hk ho g1 g2 hc U.
have [[A eA] [B eB]] := exact_val e1 e2 (contrast_solid g1) (contrast_solid g2) hm ha hb hk.
have [N hN] := lndet_total eA eB hm hL hk (proj1 (proj2 ho)) (proj2 (proj2 ho)) hc.
have s1 : signed s (c_lmax c) k (mieA exact_bessels c) by rewrite /mieA e1; apply: (ext_signed _ _ ha _ _ _ hm _ hk).
have s2 : signed (- s) (c_lssmax c) k (mieB exact_bessels c) by rewrite /mieB e2; case: (c_ext c); [apply: (ext_signed _ _ hb _ _ _ hm _ hk)|apply: (int_signed _ _ hb _ _ _ hm _ hk)].
have [d1 d2] := solid_definite ho s1 s2; have ss := contrast_sq g1.
have sq : s_of m s * s_of m s = 1 by rewrite s_ofM.
have sq' : s_of m (- s) * s_of m (- s) = 1 by rewrite s_ofM mulrNN.
have sq2 : s_of m s * s_of m (- s) = -1 by rewrite s_ofM mulrN ss.
have [h1 [_ [v [ev hv]]]] := repel (@parity_rt exact_bessels c m k) sq sq' d1 d2 sq2.
split; first exact h1.
exists v, N; split; last exact hv.
by move=> f hf; rewrite (hN f hf) /trip ev.
Qed.
Print Assumptions C61_repulsion.

(** ** perfect reflectors: with the radial functions of the code *)
Lemma signs_signed N k F : signs N k F -> signed 1 N k F.
Proof.
move=> h j hj; have [p [p' [h1 [h2 [-> ->]]]]] := h j hj; rewrite !Rmult_1_l.
have sq := m1_sq (j + 1)%coq_nat.
have aux (x a : R) : (x * x = 1 -> 0 < a -> 0 <= x * (x * a) /\ 0 <= - (x * - (x * a)))%Re.
  by move=> hx hp; rewrite Ropp_mult_distr_r Ropp_involutive -Rmult_assoc hx Rmult_1_l; split; lra.
by split; [have [] := aux _ _ sq h1|have [] := aux _ _ sq h2].
Qed.
Theorem C61_perfect_reflectors : forall c ra rb e u m k conv, c_1 c = Solid PEC ra -> c_2 c = Solid PEC rb -> has (c_med c) e u -> (0 < ra)%Re -> (0 < rb)%Re -> (0 < c_L c)%Re -> (0 < k)%Re ->
  some_orders c m -> (conv < 1)%Re -> let U := trip mie_bessels c m k in
  (forall j, (0 <= \tr (mxpow U j.+1))%Re) /\
  ((\tr U < 1)%Re -> exists v N, (forall fuel, (N <= fuel)%N -> rt_lndet mie_bessels trans_bessels c fuel conv m [:: k] = Some (Val [:: Fin v])) /\ (ln (1 - \tr U) <= v <= - \tr U)%Re).
Proof.
move=> c ra rb e u m k conv e1 e2 hm ha hb hL hk ho hc U.
have so : solid_ok PEC by left.
have [[A eA] [B eB]] := mieAB_val e1 e2 so so hm ha hb hk.
have [N hN] := lndet_total eA eB hm hL hk (proj1 (proj2 ho)) (proj2 (proj2 ho)) hc.
have s1 : signed 1 (c_lmax c) k (mieA mie_bessels c) by apply: signs_signed; rewrite /mieA e1; apply: (pec_ext_signs _ _ _ _ _ _ hm ha hk).
have s2 : signed 1 (c_lssmax c) k (mieB mie_bessels c) by apply: signs_signed; rewrite /mieB e2; case: (c_ext c); [apply: (pec_ext_signs _ _ _ _ _ _ hm hb hk)|apply: (pec_int_signs _ _ _ _ _ _ hm hb hk)].
have [d1 d2] := solid_definite ho s1 s2.
have sq : s_of m 1%Re * s_of m 1%Re = 1 by rewrite s_ofM; exact: mul1r.
have [h1 h2] := attract (@parity_rt mie_bessels c m k) sq sq d1 d2 sq.
split; first exact h1.
move=> /h2 [v [ev hv]]; exists v, N; split; last exact hv.
by move=> f hf; rewrite (hN f hf) /trip ev.
Qed.
Print Assumptions C61_perfect_reflectors.

(** ** Non-vacuity: gold and a perfect reflector in water; a bubble in water and a perfect reflector *)
Lemma vacuum_has : has (Lorentz [::] None) (eps_spec [::]) (mu_val None).
Proof. by apply: has_lorentz. Qed.
Definition gold_in_vacuum : config := {| c_1 := Solid (Lorentz e_Gold None) 1; c_2 := Solid PEC 2; c_med := Lorentz [::] None; c_L := 4; c_lmax := 3; c_lssmax := 4; c_ext := true; c_mat := fun=> PEC |}.
Definition bubble_in_water : config := {| c_1 := Solid (Lorentz [::] None) 1; c_2 := Solid PEC 2; c_med := Lorentz e_Water None; c_L := 4; c_lmax := 3; c_lssmax := 4; c_ext := true; c_mat := fun=> PEC |}.
Example C61_gold k : (0 < k)%Re -> contrast 1 (Lorentz e_Gold None) (eps_spec [::]) (mu_val None) k /\ contrast 1 PEC (eps_spec [::]) (mu_val None) k /\ some_orders gold_in_vacuum 1.
Proof.
move=> hk; have [_ [h1 _]] := gold_drude; have [_ [_ [_ [_ h]]]] := drude_flags _ _ _ gold_drude; split.
  right; exists (eps_spec e_Gold), (mu_val None); split=> //; left; split=> //; split; first by right.
  by have := Mat_Proofs.eps_ge_1 _ _ h1 hk; rewrite /mu_val /eps_spec /=; lra.
by split; [left|rewrite /some_orders /=; lia].
Qed.
Example C61_bubble k : (0 < k)%Re -> contrast (-1) (Lorentz [::] None) (eps_spec e_Water) (mu_val None) k /\ contrast (- (-1)) PEC (eps_spec e_Water) (mu_val None) k /\ some_orders bubble_in_water 1.
Proof.
move=> hk; have [_ [h1 _]] := water_insulator; split.
  right; exists (eps_spec [::]), (mu_val None); split; first exact vacuum_has.
  right; split=> //; split; first by right.
  by have := Mat_Proofs.eps_ge_1 _ _ h1 hk; rewrite /mu_val /eps_spec /=; lra.
by split; [left; split=> //; lra|rewrite /some_orders /=; lia].
Qed.
