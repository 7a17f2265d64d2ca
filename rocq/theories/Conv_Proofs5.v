(** * The trace of the round trip as a double sum, and geometric bounds *)
From Coq Require Import Reals.
From Coq Require Import List Lia Lra ZArith.
From mathcomp Require Import all_ssreflect ssralg ssrnum fingroup perm matrix mxalgebra poly mxpoly.
From Verif Require Import Base RStruct Lin_Model Lin_Spec Bal_Proofs Lin_Proofs Trip_Proofs Lin_Proofs2 RT_Proofs4 RT_Proofs6 RT_Proofs8 RT_Props3 Exp_Proofs Exp_Proofs2 Mono_Proofs Mono_Proofs2 Conv_Proofs4.
Set Implicit Arguments.
Unset Strict Implicit.
Import GRing.Theory Num.Theory.
Local Open Scope ring_scope.
Delimit Scope R_scope with Re.

(** ** double sums *)
Definition box (n ns : nat) (f : ff) : R := \sum_(0 <= i < n) \sum_(0 <= s < ns) f i s.
Lemma nsum_le a b (f g : nat -> R) : (forall i, (a <= i < b)%N -> (f i <= g i)%Re) -> (\sum_(a <= i < b) f i <= \sum_(a <= i < b) g i)%Re.
Proof.
move=> h; rewrite big_nat_cond [X in (_ <= X)%Re]big_nat_cond.
have r0 : (0 <= 0)%Re by lra.
apply: (big_ind2 (fun x y : R => (x <= y)%Re)); first by right.
- by move=> x1 x2 y1 y2 hx hy; exact: Rplus_le_compat.
- by move=> i /andP [hi _]; apply: h.
Qed.
Lemma geo a b (q : R) : (0 <= q < 1)%Re -> (\sum_(a <= i < b) q ^ i <= q ^ a / (1 - q))%Re.
Proof.
move=> [q0 q1]; have i0 : (0 < / (1 - q))%Re by apply: Rinv_0_lt_compat; lra.
have qa : (0 <= q ^ a / (1 - q))%Re by apply: Rmult_le_pos; [exact: pow_le|lra].
case: (leqP b a) => h; first by rewrite big_geq.
suff -> : \sum_(a <= i < b) (q ^ i)%Re = (q ^ a / (1 - q) - q ^ b / (1 - q))%Re.
  have : (0 <= q ^ b / (1 - q))%Re by apply: Rmult_le_pos; [exact: pow_le|lra].
  lra.
rewrite -(subnKC (ltnW h)); move: (b - a)%N => d; elim: d => [|d IH].
  by rewrite addn0 big_geq //; have r (x : R) : (0 = x - x)%Re by ring.
rewrite addnS big_nat_recr ?leq_addr // [LHS]/= IH.
have r (x y z : R) : (y = z * (1 - q))%Re -> (x - z + y = x - (z - y))%Re by move=> ->; ring.
have e : (q ^ (a + d).+1 / (1 - q) = q ^ (a + d) / (1 - q) - q ^ (a + d))%Re by rewrite /=; field; lra.
by rewrite e; apply: r; field; lra.
Qed.
Lemma nsum_scal a b (c : R) (f : nat -> R) : \sum_(a <= i < b) (c * f i)%Re = (c * \sum_(a <= i < b) f i)%Re.
Proof. by rewrite -[RHS]/(c * _) big_distrr. Qed.
Section Box.
Context (f : ff) (K q : R) (K0 : (0 <= K)%Re) (hq : (0 <= q < 1)%Re) (n' ns' : nat).
Context (hf : forall i s, (i < n')%N -> (s < ns')%N -> (f i s <= K * q ^ i * q ^ s)%Re).
Lemma row_le i a b : (i < n')%N -> (b <= ns')%N -> (\sum_(a <= s < b) f i s <= K * q ^ i * (q ^ a / (1 - q)))%Re.
Proof.
move=> hi hb; apply: (Rle_trans _ (\sum_(a <= s < b) (K * q ^ i * q ^ s)%Re)).
  by apply: nsum_le => s /andP [_ hs]; apply: hf => //; exact: leq_trans hs hb.
rewrite nsum_scal; apply: Rmult_le_compat_l; last exact: geo.
by apply: Rmult_le_pos => //; apply: pow_le; case: hq.
Qed.
Lemma rect_le a b c d : (b <= n')%N -> (d <= ns')%N -> (\sum_(a <= i < b) \sum_(c <= s < d) f i s <= K * (q ^ a / (1 - q)) * (q ^ c / (1 - q)))%Re.
Proof.
move=> hb hd; have [q0 q1] := hq; have i0 : (0 < / (1 - q))%Re by apply: Rinv_0_lt_compat; lra.
have c0 : (0 <= q ^ c / (1 - q))%Re by apply: Rmult_le_pos; [exact: pow_le|lra].
apply: (Rle_trans _ (\sum_(a <= i < b) (K * (q ^ c / (1 - q)) * q ^ i)%Re)).
  apply: nsum_le => i /andP [_ hi]; apply: (Rle_trans _ _ _ (row_le c (leq_trans hi hb) hd)); right; ring.
rewrite nsum_scal; apply: (Rle_trans _ (K * (q ^ c / (1 - q)) * (q ^ a / (1 - q)))%Re); last by right; ring.
by apply: Rmult_le_compat_l; [exact: Rmult_le_pos|exact: geo].
Qed.
Lemma box_le : (box n' ns' f <= K / (1 - q) ^ 2)%Re.
Proof.
have [q0 q1] := hq; apply: (Rle_trans _ _ _ (rect_le 0 0 (leqnn _) (leqnn _))); right; rewrite /=; field; lra.
Qed.
Lemma box_tail n ns : (n <= n')%N -> (ns <= ns')%N -> (box n' ns' f - box n ns f <= K * (q ^ n + q ^ ns) / (1 - q) ^ 2)%Re.
Proof.
move=> h1 h2; have [q0 q1] := hq.
have e1 : box n' ns' f = ((box n ns f + \sum_(0 <= i < n) \sum_(ns <= s < ns') f i s) + \sum_(n <= i < n') \sum_(0 <= s < ns') f i s)%Re.
  rewrite /box (big_cat_nat _ _ _ (leq0n n) h1) /=; congr (_ + _).
  by rewrite RplusE -big_split /=; apply: eq_bigr => i _; rewrite (big_cat_nat _ _ _ (leq0n ns) h2).
have r1 := rect_le 0 ns h1 (leqnn _); have r2 := rect_le n 0 (leqnn _) (leqnn _).
have e2 : (K * (q ^ n + q ^ ns) / (1 - q) ^ 2 = K * (q ^ 0 / (1 - q)) * (q ^ ns / (1 - q)) + K * (q ^ n / (1 - q)) * (q ^ 0 / (1 - q)))%Re by rewrite /=; field; lra.
rewrite e1 e2.
have r (x y z u v : R) : (y <= u -> z <= v -> x + y + z - x <= u + v)%Re by lra.
exact: r.
Qed.
End Box.

(** ** the trace *)
Lemma tr_cmat n ns (a b c d : ff) : \tr (cmat n ns a b c d *m (cmat n ns a b c d)^T) = box n ns (fun i s => (a i s * a i s + b i s * b i s + c i s * c i s + d i s * d i s)%Re).
Proof.
rewrite tr_gram big_split_ord /= /box big_mkord -big_split /=; apply: eq_bigr => i _.
rewrite !big_split_ord /= big_mkord -!big_split /=; apply: eq_bigr => s _.
rewrite /cmat !block_mxEul !block_mxEur !block_mxEdl !block_mxEdr !mxE.
by rewrite !addrA.
Qed.
(** the contribution of one pair of orders *)
Definition weight (s1 s2 sg sg' : R) (e : roundtrip) : ff := fun i s =>
  let E := vv sg (V0 e) (V4 e) i s in let M := vv sg' (V2 e) (V4 e) i s in
  let aE := pE s1 (aTE e) (a2 e) i in let aM := pM s1 (aTM e) (a2 e) i in let bE := pE s2 (bTE e) (b2 e) s in let bM := pM s2 (bTM e) (b2 e) s in
  (aE * E ^ 2 * bE + aE * M ^ 2 * bM + aM * M ^ 2 * bE + aM * E ^ 2 * bM)%Re.
Lemma sqrt3 (a v b : R) : (0 <= a -> 0 <= b -> sqrt a * v * sqrt b * (sqrt a * v * sqrt b) = a * v ^ 2 * b)%Re.
Proof.
move=> ha hb; have ea := sqrt_sqrt _ ha; have eb := sqrt_sqrt _ hb.
rewrite -{3}ea -{3}eb; ring.
Qed.
Lemma nsum_eq n (f g : nat -> R) : (forall i, (i < n)%N -> f i = g i) -> \sum_(0 <= i < n) f i = \sum_(0 <= i < n) g i.
Proof. by move=> h; rewrite !big_mkord; apply: eq_bigr => i _; apply: h. Qed.
Section TripTrace.
Context (n ns : nat) (e : roundtrip) (s1 s2 sg sg' : R) (hp : parity n ns e) (h1 : s1 * s1 = 1) (h2 : s2 * s2 = 1) (hq : s1 * s2 = 1) (hs : sg * sg = 1) (hs' : sg' * sg' = 1).
Context (hpos : positive s1 s2 sg sg' n ns e).
Lemma trip_trace : \tr (round_trip n ns e) = box n ns (weight s1 s2 sg sg' e).
Proof.
have [a1 a2] := positive_definite hpos; have [_ x2] := signed_gram hp h1 h2 hq hs hs' a1 a2.
have := x2 0%N; rewrite /mxpow /= !mulmx1 => ->; rewrite /bigC tr_cmat.
have [p1 p2 p3] := hpos.
apply: nsum_eq => i hi; apply: nsum_eq => s hj; have [q1 q2] := p1 i hi; have [q3 q4] := p2 s hj.
by rewrite !sqrt3.
Qed.
End TripTrace.
Section UpperTrips.
Context (n ns n' ns' : nat) (e e' : roundtrip) (s1 s2 sg sg' : R) (hn : (n <= n')%N) (hns : (ns <= ns')%N).
Context (hp : parity n ns e) (hp' : parity n' ns' e') (h1 : s1 * s1 = 1) (h2 : s2 * s2 = 1) (hq : s1 * s2 = 1) (hs : sg * sg = 1) (hs' : sg' * sg' = 1).
Context (hpos : positive s1 s2 sg sg' n ns e) (hpos' : positive s1 s2 sg sg' n' ns' e') (hle : smaller s1 s2 sg sg' n ns e e').
Let U := round_trip n ns e.
Let U' := round_trip n' ns' e'.
Lemma upper_trips : (\tr U' < 1)%Re -> (ln (\det (1%:M - U)) <= ln (\det (1%:M - U')) + 2 * sqrt (\tr U' * (\tr U' - \tr U)) / (1 - \tr U'))%Re.
Proof.
have [e1 e2 e3 e4] := trips_eq hn hns hp hp' h1 h2 hq hs hs' hpos hpos'; have hd := D_dom hpos hpos' hle.
have t1 := e3 0%N; have t2 := e4 0%N; rewrite /mxpow /= !mulmx1 in t1 t2.
by rewrite /U /U' e1 e2 t1 t2; exact: lndet_up.
Qed.
Lemma upper_powers j : (\tr (mxpow U' j.+1) - \tr (mxpow U j.+1) <= INR j.+1 * (2 * (\tr U' ^ j * sqrt (\tr U' * (\tr U' - \tr U)))))%Re.
Proof.
have [e1 e2 e3 e4] := trips_eq hn hns hp hp' h1 h2 hq hs hs' hpos hpos'; have hd := D_dom hpos hpos' hle.
have t1 := e3 0%N; have t2 := e4 0%N; rewrite /mxpow /= !mulmx1 in t1 t2.
rewrite /U /U' e3 e4 t1 t2; have st := step hd j 0; have o r (C X : 'M[R]_r) : C *m mxpow X 0 = C by exact: mulmx1.
rewrite addn0 !o in st.
apply: (Rle_trans _ _ _ st); apply: Rmult_le_compat_l; [exact: pos_INR|exact: slope].
Qed.
End UpperTrips.
