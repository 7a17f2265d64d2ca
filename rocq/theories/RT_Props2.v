(** * Properties C58, C59 and C61: symmetries and signs of the round trip *)
From Coq Require Import Reals.
From Coq Require Import List Lia Lra ZArith.
From mathcomp Require Import all_ssreflect ssralg matrix mxalgebra poly mxpoly.
From Verif Require Import Base RStruct Mat_Model Mat_Spec Bessel_Model Scat_Model Scat_Spec Scat_Proofs Scat_Proofs9 Scat_Proofs7 Scat_Proofs10 Scat_Props2 Trans_Model Trans_Spec
  Lin_Model Lin_Spec Bal_Proofs Lin_Proofs Trip_Proofs Lin_Proofs2 RT_Model RT_Spec RT_Spec2 RT_Proofs RT_Proofs2 RT_Proofs3 RT_Proofs4 RT_Proofs6 RT_Proofs7 RT_Proofs8 RT_Proofs9 RT_Props.
Set Implicit Arguments.
Unset Strict Implicit.
Import GRing.Theory.
Local Open Scope ring_scope.
Delimit Scope R_scope with Re.

(** the round-trip operator of a configuration *)
Definition trip (mieb : list R -> nat -> Z -> res (list (list R) * list (list R))) (c : config) (m : Z) (k : R) : 'M[R]_(n1 c m + n1 c m) := round_trip (n1 c m) (n2 c m) (rt_with mieb c m k).

Lemma powE (x : R) n : x ^+ n = (x ^ n)%Re.
Proof. by elim: n => [|n IH] //; rewrite exprS IH. Qed.
Lemma parity_rt mieb c m k : parity (n1 c m) (n2 c m) (rt_with mieb c m k).
Proof.
move=> i s _ _; have [-> ->] := rt_parity mieb c m k i s.
by rewrite powE.
Qed.
Lemma lndet_total mieb c m k A B e u conv : mieA mieb c [:: k] = Val A -> mieB mieb c [:: k] = Val B -> has (c_med c) e u -> (0 < c_L c)%Re -> (0 < k)%Re ->
  (Z.max 1 m <= Z.of_nat (c_lmax c))%Z -> (Z.max 1 m <= Z.of_nat (c_lssmax c))%Z -> (conv < 1)%Re ->
  exists N, forall fuel, (N <= fuel)%N -> rt_lndet mieb trans_bessels c fuel conv m [:: k] = Some (Val [:: ln_abs_det (1%:M - trip mieb c m k)]).
Proof.
move=> eA eB hm hL hk h1 h2 hc.
have hn : (0 < n1 c m)%N by rewrite /n1 /lmin; apply/ltP; lia.
have hs : n1 c m = 1%N \/ (0 < n2 c m)%N by right; rewrite /n2 /lmin; apply/ltP; lia.
exact (rt_lndet_run eA eB hm hL hk hn hs hc).
Qed.

(** ** C58: exchanging the two spheres *)
Lemma exchanged_rt mieb c m k : c_ext c = true -> exchanged (n1 c m) (n2 c m) (rt_with mieb c m k) (rt_with mieb (exchange c) m k).
Proof.
move=> hx; have [ht hv] := rt_exchange mieb c m k hx; split; [|split].
- by rewrite /T1 /T2; congr block_mx; congr diag_mx; apply/rowP => i; rewrite !mxE; have [h1 [h2 _]] := ht i; rewrite ?h1 ?h2.
- by rewrite /T1 /T2; congr block_mx; congr diag_mx; apply/rowP => i; rewrite !mxE; have [_ [_ [h3 h4]]] := ht i; rewrite ?h3 ?h4.
- by rewrite /V12 tr_block_mx; congr block_mx; apply/matrixP => i s; rewrite !mxE; have [h1 h2] := hv s i; rewrite ?h1 ?h2.
Qed.
Theorem C58_exchange : forall mieb c m k, c_ext c = true ->
  \det (1%:M - trip mieb (exchange c) m k) = \det (1%:M - trip mieb c m k) /\ forall j, \tr (mxpow (trip mieb (exchange c) m k) j.+1) = \tr (mxpow (trip mieb c m k) j.+1).
Proof. move=> mieb c m k hx; exact (@exchange_det (n1 c m) (n2 c m) (rt_with mieb c m k) (rt_with mieb (exchange c) m k) (@parity_rt mieb c m k) (@parity_rt mieb (exchange c) m k) (@exchanged_rt mieb c m k hx)). Qed.
Print Assumptions C58_exchange.
Lemma ln_abs_det_eq n n' (A : 'M[R]_n) (B : 'M[R]_n') : \det A = \det B -> ln_abs_det A = ln_abs_det B.
Proof. by rewrite /ln_abs_det => ->. Qed.
Lemma both_fuel (P Q : nat -> Prop) : (exists N, forall f, (N <= f)%N -> P f) -> (exists N, forall f, (N <= f)%N -> Q f) -> exists N, forall f, (N <= f)%N -> P f /\ Q f.
Proof.
move=> [N hN] [N' hN']; exists (maxn N N') => f; rewrite geq_max => /andP [h h'].
by split; [apply: hN|apply: hN'].
Qed.
(** what the code computes *)
Theorem C58_lndet : forall mieb c m k A B e u conv, c_ext c = true -> mieA mieb c [:: k] = Val A -> mieB mieb c [:: k] = Val B -> has (c_med c) e u ->
  (0 < c_L c)%Re -> (0 < k)%Re -> (Z.max 1 m <= Z.of_nat (c_lmax c))%Z -> (Z.max 1 m <= Z.of_nat (c_lssmax c))%Z -> (conv < 1)%Re ->
  exists v N, forall fuel, (N <= fuel)%N -> rt_lndet mieb trans_bessels c fuel conv m [:: k] = Some (Val [:: v]) /\
    rt_lndet mieb trans_bessels (exchange c) fuel conv m [:: k] = Some (Val [:: v]).
Proof.
move=> mieb c m k A B e u conv hx eA eB hm hL hk h1 h2 hc; exists (ln_abs_det (1%:M - trip mieb c m k)).
apply: both_fuel; first exact (lndet_total eA eB hm hL hk h1 h2 hc).
have eB' : mieA mieb (exchange c) [:: k] = Val B by rewrite -eB /mieA /mieB /= hx.
have eA' : mieB mieb (exchange c) [:: k] = Val A by rewrite -eA /mieA /mieB /= hx.
have [N hN] := @lndet_total mieb (exchange c) m k B A e u conv eB' eA' hm hL hk h2 h1 hc; exists N => f hf; rewrite (hN f hf).
by rewrite (ln_abs_det_eq (proj1 (C58_exchange mieb m k hx))).
Qed.
Print Assumptions C58_lndet.
(** at zero frequency *)
Theorem C58_static : forall c m1 m2 ra rb e b m, two_spheres c m1 m2 ra rb e b -> static_sphere m1 -> static_sphere m2 -> c_ext c = true -> some_orders c m -> mu_val b 0 = 1%Re ->
  exists A B TE TM A' B' TE' TM', [/\ blockmatrices_k0 trans_bessels c m = Val (A, B), @is_arr2 (n1 c m) (n1 c m) A TE, @is_arr2 (n1 c m) (n1 c m) B TM &
    [/\ blockmatrices_k0 trans_bessels (exchange c) m = Val (A', B'), @is_arr2 (n2 c m) (n2 c m) A' TE', @is_arr2 (n2 c m) (n2 c m) B' TM',
    \det (1%:M - TE') * \det (1%:M - TM') = \det (1%:M - TE) * \det (1%:M - TM) & \tr TE' + \tr TM' = \tr TE + \tr TM]].
Proof.
move=> c m1 m2 ra rb e b m HC S1 S2 hx ho hmu.
have [A [B [TE [TM [E0 hA hB hz ht]]]]] := C57_static_limit HC S1 S2 hx ho hmu.
have HC' : two_spheres (exchange c) m2 m1 rb ra e b by have [? [? [? [? [? ?]]]]] := HC.
have ho' : some_orders (exchange c) m by have [? [? ?]] := ho.
have [A' [B' [TE' [TM' [E0' hA' hB' hz' ht']]]]] := C57_static_limit HC' S2 S1 (hx : c_ext (exchange c) = true) ho' hmu.
exists A, B, TE, TM, A', B', TE', TM'; split=> //; split=> //.
- apply: (limit0_unique _ _ _ (hz' 1)); apply: lim0_ext (hz 1) => k _; exact (esym (proj1 (C58_exchange mie_bessels m k hx))).
- apply: (limit0_unique _ _ _ ht'); apply: lim0_ext ht => k _; have := proj2 (C58_exchange mie_bessels m k hx) 0%N.
  by rewrite /mxpow /= !mulmx1 => h; exact (esym h).
Qed.
Print Assumptions C58_static.

(** ** C59: m and -m *)
Lemma opposite_rt mieb c m k e u : has (c_med c) e u -> (0 < c_L c)%Re -> (0 < k)%Re -> (0 < m)%Z -> (m <= Z.of_nat (c_lmax c))%Z -> (m <= Z.of_nat (c_lssmax c))%Z ->
  opposite (Z.to_nat (m - 1)) (n1 c (- m)) (n2 c (- m)) (n1 c m) (n2 c m) (rt_with mieb c (- m) k) (rt_with mieb c m k).
Proof.
move=> hm hL hk m0 h1 h2; have [ht hv] := @rt_negm mieb c m k e u (Z.to_nat (m - 1)) hm hL hk m0 erefl; split.
- by rewrite /n1 /lmin -plusE; lia.
- by rewrite /n2 /lmin -plusE; lia.
- by move=> i; have [-> [-> _]] := ht i.
- by move=> i; have [_ [_ [-> ->]]] := ht i.
- move=> i s /ltP hi /ltP hs r.
  have lebE a b : Nat.leb a b = (a <= b)%N by apply/idP/idP => [/Nat.leb_le/leP|/leP/Nat.leb_le].
  have aux (x y : R) : x = y -> (x * exp 0)%Re = y by move=> ->; rewrite exp_0; lra.
  have [r0 [r1 [r2 r3]]] := hv i s hi hs.
  split; rewrite /r; apply: aux; [rewrite r0|rewrite r1|rewrite r2|rewrite r3]; rewrite !lebE exp_0; case: ifP => // _; rewrite mulr1 //.
Qed.
Theorem C59_opposite_m : forall mieb c m k e u, has (c_med c) e u -> (0 < c_L c)%Re -> (0 < k)%Re -> (0 < m)%Z -> (m <= Z.of_nat (c_lmax c))%Z -> (m <= Z.of_nat (c_lssmax c))%Z ->
  \det (1%:M - trip mieb c (- m) k) = \det (1%:M - trip mieb c m k) /\ forall j, \tr (mxpow (trip mieb c (- m) k) j.+1) = \tr (mxpow (trip mieb c m k) j.+1).
Proof. move=> mieb c m k e u hm hL hk m0 h1 h2; exact: opposite_det (opposite_rt mieb hm hL hk m0 h1 h2). Qed.
Print Assumptions C59_opposite_m.
Theorem C59_lndet : forall mieb c m k A B e u conv, mieA mieb c [:: k] = Val A -> mieB mieb c [:: k] = Val B -> has (c_med c) e u ->
  (0 < c_L c)%Re -> (0 < k)%Re -> (0 < m)%Z -> (m <= Z.of_nat (c_lmax c))%Z -> (m <= Z.of_nat (c_lssmax c))%Z -> (conv < 1)%Re ->
  exists v N, forall fuel, (N <= fuel)%N -> rt_lndet mieb trans_bessels c fuel conv m [:: k] = Some (Val [:: v]) /\
    rt_lndet mieb trans_bessels c fuel conv (- m) [:: k] = Some (Val [:: v]).
Proof.
move=> mieb c m k A B e u conv eA eB hm hL hk m0 h1 h2 hc; exists (ln_abs_det (1%:M - trip mieb c m k)).
apply: both_fuel; first by apply: (lndet_total eA eB hm hL hk _ _ hc); lia.
have [||N hN] := @lndet_total mieb c (- m) k A B e u conv eA eB hm hL hk _ _ hc; [lia|lia|].
exists N => f hf; rewrite (hN f hf).
by rewrite (ln_abs_det_eq (proj1 (C59_opposite_m mieb hm hL hk m0 h1 h2))).
Qed.
Print Assumptions C59_lndet.

(** ** Non-vacuity: gold in water meets the hypotheses, and exchanging the spheres is not the identity *)
Lemma water_has : has (Lorentz e_Water None) (eps_spec e_Water) (mu_val None).
Proof. by have [_ [_ [_ [_ h]]]] := insulator_flags _ _ _ water_insulator. Qed.
Example C58_gold : exists A B, mieA mie_bessels gold_in_water [:: 1%Re] = Val A /\ mieB mie_bessels gold_in_water [:: 1%Re] = Val B /\ c_ext gold_in_water = true /\
  has (c_med gold_in_water) (eps_spec e_Water) (mu_val None) /\ (0 < c_L gold_in_water)%Re /\ some_orders gold_in_water 2 /\ exchange gold_in_water <> gold_in_water.
Proof.
have so : solid_ok (Lorentz e_Gold None) by right; exists (eps_spec e_Gold), (mu_val None); have [_ [_ [_ [_ h]]]] := drude_flags _ _ _ gold_drude.
have [|||[A eA] [B eB]] := @mieAB_val gold_in_water (Lorentz e_Gold None) (Lorentz e_Gold None) 1%Re 2%Re 1%Re (eps_spec e_Water) (mu_val None) erefl erefl so so water_has; try lra.
exists A, B; split=> //; split=> //; split=> //; split; first exact water_has.
split; first by rewrite /=; lra.
split; first by rewrite /some_orders /=; lia.
by move=> /(f_equal c_lmax).
Qed.
