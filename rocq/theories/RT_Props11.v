(** * Property C79: a sphere in a cavity is attracted by the wall *)
From Coq Require Import Reals.
From Coq Require Import List Lia Lra ZArith.
From mathcomp Require Import all_ssreflect ssralg ssrnum fingroup perm matrix mxalgebra poly mxpoly.
From Verif Require Import Base RStruct Mat_Model Mat_Spec Mat_Proofs Bessel_Model Scat_Model Scat_Spec Scat_Proofs Scat_Proofs2 Scat_Proofs4 Scat_Proofs7 Scat_Proofs9 Scat_Proofs10 Scat_Props2 Trans_Model Trans_Spec Trans_Proofs3
  Lin_Model Lin_Spec Bal_Proofs Lin_Proofs Trip_Proofs Lin_Proofs2 RT_Model RT_Spec RT_Spec2 RT_Proofs RT_Proofs2 RT_Proofs3 RT_Proofs4 RT_Proofs6 RT_Proofs7 RT_Proofs8 RT_Proofs9 RT_Proofs10
  RT_Props RT_Props2 RT_Props3 RT_Props5 Exp_Proofs2 Lap_Proofs2 Mono_Proofs Mono_Proofs2 Mono_Proofs3 RT_Props8 RT_Props9 Rad_Spec Rad_Proofs Rad_Proofs2 RT_Props10 Rad_Proofs3 Int_Proofs2 Ecc_Spec Ecc_Proofs Ecc_Proofs2 Ecc_Proofs3 Ecc_Proofs4.
Set Implicit Arguments.
Unset Strict Implicit.
Import GRing.Theory.
Local Open Scope ring_scope.
Delimit Scope R_scope with Re.

(** ** the coefficients of the wall grow with the contrast, and fall with the radius of the cavity *)
Theorem C79_wall : forall lmax m e u k s mat mat' r r' j, has m e u -> (0 < k)%Re -> contrast s mat e u k -> contrast s mat' e u k -> stronger s mat' mat k -> (0 < r')%Re -> (r' <= r)%Re -> (j < lmax)%coq_nat ->
  let T pick mat r := entry pick (fun ks => mie_internal exact_bessels ks 0 (Z.of_nat lmax) r m mat) j k in
  (0 <= s * (-1) ^ (j + 1)%coq_nat * T TE mat r <= s * (-1) ^ (j + 1)%coq_nat * T TE mat' r')%Re /\
  (0 <= - (s * (-1) ^ (j + 1)%coq_nat * T TM mat r) <= - (s * (-1) ^ (j + 1)%coq_nat * T TM mat' r'))%Re.
Proof.
move=> lmax m e u k s mat mat' r r' j hm hk g g' st hr hr' hj T.
have [a b] := int_signed lmax r (Rlt_le_trans _ _ _ hr hr') m e u hm k hk s mat g j hj.
have [a' b'] := shrunk lmax m e u hm k hk s mat mat' r r' j g g' st hr hr' hj.
by split; split.
Qed.
Print Assumptions C79_wall.

(** ** further from the centre, larger, in a narrower cavity, of denser material, behind a denser wall: more strongly attracted *)
Theorem C79_cavity : forall c m1 m2 m1' m2' ra rb ra' rb' L L' e u m k s conv, has (c_med c) e u -> (0 < ra)%Re -> (0 < rb')%Re -> (ra <= ra')%Re -> (rb' <= rb)%Re -> (0 < L)%Re -> (L <= L')%Re -> (0 < k)%Re ->
  c_ext c = false -> some_orders c m ->
  contrast s m1 e u k -> contrast s m2 e u k -> contrast s m1' e u k -> contrast s m2' e u k -> stronger s m1' m1 k -> stronger s m2' m2 k -> (conv < 1)%Re ->
  let c0 := placed c L (Solid m1 ra) (Solid m2 rb) in let c1 := placed c L' (Solid m1' ra') (Solid m2' rb') in let U c := etrip exact_bessels c m k in
  (forall j, (0 <= \tr (mxpow (U c0) j.+1) <= \tr (mxpow (U c1) j.+1))%Re) /\
  ((\tr (U c1) < 1)%Re -> exists v v' F, (forall fuel, (F <= fuel)%N -> rt_lndet exact_bessels exact_trans c0 fuel conv m [:: k] = Some (Val [:: Fin v]) /\
      rt_lndet exact_bessels exact_trans c1 fuel conv m [:: k] = Some (Val [:: Fin v'])) /\ (v' + (\tr (U c1) - \tr (U c0)) <= v <= - \tr (U c0))%Re).
Proof.
move=> c m1 m2 m1' m2' ra rb ra' rb' L L' e u m k s conv hm ha hb ha' hb' hL hL' hk hx ho g1 g2 g1' g2' st1 st2 hc c0 c1 U.
have [t1 t2] := cav_gap hm ha hb ha' hb' hL hL' hk hx ho g1 g2 g1' g2' st1 st2.
split; first exact: t1.
move=> ht; have [d d' hv] := t2 ht; have [F hF] := cav_run hm ha hb ha' hb' hL hL' hk ho g1 g2 g1' g2' hc d' d.
exists (ln (\det (1%:M - U c0))), (ln (\det (1%:M - U c1))), F; split; first exact: hF.
split; first exact: hv.
have [_ tt] := t1 0%N; rewrite /mxpow /= !mulmx1 in tt.
have [w [ew [_ hw]]] := @cav_attract c0 m1 m2 ra rb e u m k s erefl erefl hx hm ha (Rlt_le_trans _ _ _ hb hb') hk ho g1 g2 (Rle_lt_trans _ _ _ tt ht).
by move: ew; rewrite (lnE d') => -[->].
Qed.
Print Assumptions C79_cavity.

(** ** perfect reflectors: strictly *)
Theorem C79_perfect_reflectors : forall c ra rb ra' rb' L L' e u m k conv, has (c_med c) e u -> (0 < ra)%Re -> (0 < rb')%Re -> (ra <= ra')%Re -> (rb' <= rb)%Re -> (0 < L)%Re -> (L <= L')%Re ->
  (ra < ra')%Re \/ (rb' < rb)%Re \/ (L < L')%Re -> (0 < k)%Re -> c_ext c = false -> some_orders c m -> (conv < 1)%Re ->
  let c0 := placed c L (Solid PEC ra) (Solid PEC rb) in let c1 := placed c L' (Solid PEC ra') (Solid PEC rb') in let U c := etrip exact_bessels c m k in
  (0 <= \tr (U c0) < \tr (U c1))%Re /\
  ((\tr (U c1) < 1)%Re -> exists v v' F, (forall fuel, (F <= fuel)%N -> rt_lndet exact_bessels exact_trans c0 fuel conv m [:: k] = Some (Val [:: Fin v]) /\
      rt_lndet exact_bessels exact_trans c1 fuel conv m [:: k] = Some (Val [:: Fin v'])) /\ (v' < v)%Re /\ (v <= 0)%Re).
Proof.
move=> c ra rb ra' rb' L L' e u m k conv hm ha hb ha' hb' hL hL' hlt hk hx ho hc c0 c1 U.
have gp : contrast 1 PEC e u k by left.
have st : stronger 1 PEC PEC k by left.
have [pa pb] : (0 < ra')%Re /\ (0 < rb)%Re by lra.
have [t1 t2] := @C79_cavity c PEC PEC PEC PEC ra rb ra' rb' L L' e u m k 1 conv hm ha hb ha' hb' hL hL' hk hx ho gp gp gp gp st st hc.
have [z1 z2] : (0 <= \tr (U c0) <= \tr (U c1))%Re by have := t1 0%N; rewrite /mxpow /= !mulmx1.
have [o0 [o1 o2]] := ho.
have lA : ((lmin m - 1)%coq_nat < c_lmax c)%coq_nat by rewrite /lmin; lia.
have lB : ((lmin m - 1)%coq_nat < c_lssmax c)%coq_nat by rewrite /lmin; lia.
have big r : (r < r + 1)%Re by lra.
have half r : (0 < r -> 0 < r / 2 /\ r / 2 < r)%Re by lra.
have [a1 _] := larger_pec (c_lmax c) (c_med c) e u hm k hk ra' (ra' + 1)%Re (lmin m - 1)%coq_nat pa (big _) lA.
have [hb2 hb3] := half _ hb.
have [b1 _] := narrower_pec (c_lssmax c) (c_med c) e u hm k hk (rb' / 2)%Re rb' (lmin m - 1)%coq_nat hb2 hb3 lB.
have strict : (\tr (U c0) < \tr (U c1))%Re.
  apply: (@cav_strict c PEC PEC PEC PEC ra rb ra' rb' L L' e u m k 1 hm ha hb ha' hb' hL hL' hk hx ho gp gp gp gp st st).
  - exact: a1.
  - by rewrite /mieB /= hx; exact: b1.
  - case: hlt => [h|[h|h]]; [left|right; left|by right; right].
    + by have [_ h'] := larger_pec (c_lmax c) (c_med c) e u hm k hk ra ra' (lmin m - 1)%coq_nat ha h lA; exact: h'.
    + by have [_ h'] := narrower_pec (c_lssmax c) (c_med c) e u hm k hk rb' rb (lmin m - 1)%coq_nat hb h lB; rewrite /mieB /= hx; exact: h'.
split; first by split.
move=> ht; have [v [v' [F [hF [h1 h2]]]]] := t2 ht; exists v, v', F; split; first exact: hF.
have aux (a b x y : R) : (a + (x - y) <= b -> b <= - y -> 0 <= y -> y < x -> a < b /\ b <= 0)%Re by lra.
exact: (aux _ _ _ _ h1 h2 z1 strict).
Qed.
Print Assumptions C79_perfect_reflectors.

(** ** a small sphere hardly interacts with the wall *)
Lemma small_trace c m2 rb L e u m k : has (c_med c) e u -> (0 < k)%Re -> some_orders c m -> lim0 (fun ra => \tr (etrip exact_bessels (placed c L (Solid PEC ra) (Solid m2 rb)) m k)) 0.
Proof.
move=> hm hk [o0 [o1 o2]]; have z : (0 : R) = \tr (0 : 'M[R]_(n1 c m + n1 c m)) by rewrite mxtrace0.
rewrite [X in lim0 _ X]z.
pose d ra := placed c L (Solid PEC ra) (Solid m2 rb).
pose U ra : 'M[R]_(n1 c m + n1 c m) := etrip exact_bessels (d ra) m k.
apply: (@lim0_ext (fun ra => \tr (U ra))); first by [].
apply: (@lim0_tr (n1 c m + n1 c m) U) => a b.
pose W := V12 (n1 c m) (n2 c m) (rt_gen exact_bessels exact_trans (d 1%Re) m k) *m T2 (n2 c m) (rt_gen exact_bessels exact_trans (d 1%Re) m k) *m V21 (n1 c m) (n2 c m) (rt_gen exact_bessels exact_trans (d 1%Re) m k).
pose T ra := T1 (n1 c m) (rt_gen exact_bessels exact_trans (d ra) m k).
apply: (@lim0_ext (fun ra => (T ra *m W) a b)).
  move=> ra _; have q : U ra = T ra *m V12 (n1 c m) (n2 c m) (rt_gen exact_bessels exact_trans (d 1%Re) m k) *m T2 (n2 c m) (rt_gen exact_bessels exact_trans (d 1%Re) m k) *m V21 (n1 c m) (n2 c m) (rt_gen exact_bessels exact_trans (d 1%Re) m k) by [].
  by rewrite q /W !mulmxA.
apply: (@lim0_ext (fun ra => \sum_j T ra a j * W j b)); first by move=> ra _; rewrite [in RHS]mxE.
have z' : (0 : 'M[R]_(n1 c m + n1 c m)) a b = \sum_(j < n1 c m + n1 c m) 0 * W j b by rewrite mxE big1 // => j _; rewrite mul0r.
rewrite [X in lim0 _ X]z'.
apply: lim0_bigsum => j; apply: (lim0_mult (fun ra => T ra a j) (fun=> W j b)); last exact: lim0_const.
have small (i : 'I_(n1 c m)) : lim0 (fun ra => aTE (rt_gen exact_bessels exact_trans (d ra) m k) i * exp 0)%Re 0 /\ lim0 (fun ra => aTM (rt_gen exact_bessels exact_trans (d ra) m k) i * exp 0)%Re 0.
  have hi : (Nat.add (lmin m - 1)%coq_nat i < c_lmax c)%coq_nat by have := ltn_ord i; move=> /ltP; rewrite {2}/n1 /lmin; lia.
  have [p q] := small_pec (c_lmax c) (c_med c) e u k _ hm hk hi.
  have q0 : (0 = 0 * exp 0)%Re by rewrite Rmult_0_l.
  by split; rewrite [X in lim0 _ X]q0; apply: (lim0_mult _ (fun=> exp 0)); try exact: lim0_const; [exact: p|exact: q].
have diag (f : R -> 'I_(n1 c m) -> R) (i l : 'I_(n1 c m)) : (forall i, lim0 (fun ra => f ra i) 0) -> lim0 (fun ra => diag_mx (\row_i f ra i) i l) 0.
  move=> hf; case E: (i == l).
  - by apply: (@lim0_ext (fun ra => f ra i)); [move=> ra _; rewrite !mxE E|exact: hf].
  - by apply: (@lim0_ext (fun=> 0%Re)); [move=> ra _; rewrite !mxE E|exact: lim0_const].
rewrite /T /T1; case: (splitP a) => i Ei; case: (splitP j) => l El.
- have -> : a = lshift _ i by apply: val_inj.
  have -> : j = lshift _ l by apply: val_inj.
  apply: (@lim0_ext (fun ra => diag_mx (\row_i (aTE (rt_gen exact_bessels exact_trans (d ra) m k) i * exp 0)%Re) i l)); first by move=> ra _; rewrite block_mxEul.
  by apply: diag => i'; exact: (proj1 (small i')).
- have -> : a = lshift _ i by apply: val_inj.
  have -> : j = rshift _ l by apply: val_inj.
  by apply: (@lim0_ext (fun=> 0%Re)); [move=> ra _; rewrite block_mxEur mxE|exact: lim0_const].
- have -> : a = rshift _ i by apply: val_inj.
  have -> : j = lshift _ l by apply: val_inj.
  by apply: (@lim0_ext (fun=> 0%Re)); [move=> ra _; rewrite block_mxEdl mxE|exact: lim0_const].
- have -> : a = rshift _ i by apply: val_inj.
  have -> : j = rshift _ l by apply: val_inj.
  apply: (@lim0_ext (fun ra => diag_mx (\row_i (aTM (rt_gen exact_bessels exact_trans (d ra) m k) i * exp 0)%Re) i l)); first by move=> ra _; rewrite block_mxEdr.
  by apply: diag => i'; exact: (proj2 (small i')).
Qed.
Theorem C79_small_sphere : forall c m1 m2 rb L e u m k, has (c_med c) e u -> (0 < rb)%Re -> (0 < L)%Re -> (0 < k)%Re -> c_ext c = false -> some_orders c m -> contrast 1 m1 e u k -> contrast 1 m2 e u k ->
  forall eps, (0 < eps)%Re -> exists r0, (0 < r0)%Re /\ forall ra, (0 < ra <= r0)%Re -> (0 <= \tr (etrip exact_bessels (placed c L (Solid m1 ra) (Solid m2 rb)) m k) < eps)%Re.
Proof.
move=> c m1 m2 rb L e u m k hm hb hL hk hx ho g1 g2 eps he.
have [r0 [h0 hr]] := lim0_near _ _ (@small_trace c m2 rb L e u m k hm hk ho) he.
exists r0; split=> // ra [ha ha'].
have gp : contrast 1 PEC e u k by left.
have st1 : stronger 1 PEC m1 k by left.
have st2 : stronger 1 m2 m2 k by case: g2 => [[_ ->]|[e2 [u2 [h2 _]]]]; [left|right; exists e2, u2, e2, u2; do ! (split=> //); left; split=> //; split; exact: Rle_refl].
have h1 : (0 < 1)%Re by lra.
have [t _] := @cav_gap c m1 m2 PEC m2 ra rb ra rb L L e u m k 1 hm ha hb (Rle_refl _) (Rle_refl _) hL (Rle_refl _) hk hx ho g1 g2 gp g2 st1 st2.
have := t 0%N; rewrite /mxpow /= !mulmx1 => -[z1 z2]; split; first exact: z1.
by apply: Rle_lt_trans z2 _; apply: hr.
Qed.
Print Assumptions C79_small_sphere.

(** ** Non-vacuity: a small sphere of gold in a cavity in gold, against a larger perfect reflector further from the centre of a narrower cavity in a perfect reflector *)
Definition gold_cavity : config := {| c_1 := Solid (Lorentz e_Gold None) 1; c_2 := Solid (Lorentz e_Gold None) 5; c_med := c_med gold_in_vacuum; c_L := 1; c_lmax := c_lmax gold_in_vacuum; c_lssmax := c_lssmax gold_in_vacuum;
  c_ext := false; c_mat := c_mat gold_in_vacuum |}.
Example C79_gold : exists r0, (0 < r0)%Re /\ forall ra, (0 < ra <= r0)%Re ->
  let c0 := placed gold_cavity 1 (Solid (Lorentz e_Gold None) (ra / 2)) (Solid (Lorentz e_Gold None) 5) in let c1 := placed gold_cavity 2 (Solid PEC ra) (Solid PEC 4) in
  (\tr (etrip exact_bessels c1 1 2) < 1)%Re /\
  exists v v' F, (forall fuel, (F <= fuel)%N -> rt_lndet exact_bessels exact_trans c0 fuel 1e-10 1 [:: 2%Re] = Some (Val [:: Fin v]) /\
      rt_lndet exact_bessels exact_trans c1 fuel 1e-10 1 [:: 2%Re] = Some (Val [:: Fin v'])) /\ (v' <= v)%Re /\ (v <= 0)%Re.
Proof.
have [p1 [p2 [p3 p4]]] : (0 < 1)%Re /\ (0 < 2)%Re /\ (0 < 5)%Re /\ (0 < 4)%Re by lra.
have [q1 q2] : (1 <= 2)%Re /\ (4 <= 5)%Re by lra.
have hc : (1e-10 < 1)%Re by lra.
have [g1 [g2 ho]] := C61_gold p2.
have ho' : some_orders gold_cavity 1 by exact: ho.
have [r0 [h0 h]] := @C79_small_sphere gold_cavity PEC PEC 4%Re 2%Re _ _ 1%Z 2%Re vacuum_has p4 p2 p2 erefl ho' g2 g2 1%Re p1.
exists r0; split=> // ra hra c0 c1; have [z tr1] := h ra hra; split=> //.
have [hr [hr' hr2]] : (0 < ra / 2)%Re /\ (ra / 2 <= ra)%Re /\ (0 < ra)%Re by lra.
have st mm : stronger 1 PEC mm 2 by left.
have [tt rr] := @C79_cavity gold_cavity (Lorentz e_Gold None) (Lorentz e_Gold None) PEC PEC (ra / 2)%Re 5%Re ra 4%Re 1%Re 2%Re _ _ 1%Z 2%Re 1 1e-10%Re vacuum_has hr p4 hr' q2 p1 q1 p2 erefl ho' g1 g1 g2 g2 (st _) (st _) hc.
have [v [v' [F [hF [b1 b2]]]]] := rr tr1; exists v, v', F; split=> //.
have := tt 0%N; rewrite /mxpow /= !mulmx1 => -[t0 t1].
have aux (a b x y : R) : (a + (x - y) <= b -> b <= - y -> 0 <= y -> y <= x -> a <= b /\ b <= 0)%Re by lra.
exact: (aux _ _ _ _ b1 b2 t0 t1).
Qed.
