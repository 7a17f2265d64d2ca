(** * Structure of the round-trip operator: transposition, exchange of the spheres, sign of m, definiteness *)
From Coq Require Import Reals.
From Coq Require Import List Lia Lra.
From mathcomp Require Import all_ssreflect ssralg ssrnum fingroup perm matrix mxalgebra poly mxpoly.
From Verif Require Import Base RStruct Lin_Model Lin_Spec Bal_Proofs Lin_Proofs Trip_Proofs Lin_Proofs2 RT_Proofs4.
Set Implicit Arguments.
Unset Strict Implicit.
Import GRing.Theory Num.Theory.
Local Open Scope ring_scope.
Delimit Scope R_scope with Re.

(** ** products in both orders *)
Lemma det_swap p q (X : 'M[R]_(p, q)) (Y : 'M[R]_(q, p)) : \det (1%:M - X *m Y) = \det (1%:M - Y *m X).
Proof.
have e1 : block_mx 1%:M X Y 1%:M = block_mx 1%:M 0 Y 1%:M *m block_mx 1%:M X 0 (1%:M - Y *m X).
  by rewrite mulmx_block !mul0mx !mulmx0 !mul1mx !mulmx1 !addr0 addrC subrK.
have e2 : block_mx 1%:M X Y 1%:M = block_mx 1%:M X 0 1%:M *m block_mx (1%:M - X *m Y) 0 Y 1%:M.
  by rewrite mulmx_block !mul0mx !mulmx0 !mul1mx !mulmx1 !add0r subrK.
have := f_equal determinant e1; rewrite e2 !det_mulmx !det_lblock !det_ublock !det1 !mul1r !mulr1.
by [].
Qed.
Lemma mxpow_swap p q (X : 'M[R]_(p, q)) (Y : 'M[R]_(q, p)) j : mxpow (X *m Y) j *m X = X *m mxpow (Y *m X) j.
Proof.
elim: j => [|j IH]; first by rewrite /mxpow /= mul1mx mulmx1.
by rewrite /mxpow !iterS -/(mxpow _ _) -/(mxpow _ _) -mulmxA IH !mulmxA.
Qed.
Lemma tr_swap p q (X : 'M[R]_(p, q)) (Y : 'M[R]_(q, p)) j : \tr (mxpow (X *m Y) j.+1) = \tr (mxpow (Y *m X) j.+1).
Proof.
rewrite /mxpow !iterS -/(mxpow _ _) -/(mxpow _ _).
by rewrite -!mulmxA [LHS]mxtrace_mulC -mulmxA mxpow_swap mxtrace_mulC -mulmxA.
Qed.
Lemma mxpowS n (A : 'M[R]_n) j : mxpow A j.+1 = A *m mxpow A j. Proof. by []. Qed.
Lemma mxpowSr n (A : 'M[R]_n) j : mxpow A j.+1 = mxpow A j *m A.
Proof. by elim: j => [|j IH]; [rewrite /mxpow /= mul1mx mulmx1|rewrite mxpowS {1}IH mulmxA -mxpowS]. Qed.
Lemma mxpow_tr n (A : 'M[R]_n) j : (mxpow A j)^T = mxpow A^T j.
Proof. by elim: j => [|j IH]; [rewrite /mxpow /= trmx1|rewrite mxpowS trmx_mul IH -mxpowSr]. Qed.

(** ** the round trip of coefficients that obey the parity rules *)
Definition parity (n ns : nat) (e : roundtrip) : Prop := forall i s, (i < n)%N -> (s < ns)%N ->
  V1 e i s = (-1) ^+ (i + s) * V0 e i s /\ V3 e i s = - ((-1) ^+ (i + s) * V2 e i s).
Definition altd n : 'M[R]_n := diag_mx (\row_(i < n) (-1) ^+ i).
Definition alt n : 'M[R]_(n + n) := block_mx (altd n) 0 0 (- altd n).
Lemma altd_sq n : altd n *m altd n = 1%:M.
Proof.
apply/matrixP => i j; rewrite mul_diag_mx !mxE; case: eqP => [->|_]; last by rewrite mulr0n mulr0.
by rewrite mulr1n -exprD addnn -mul2n exprM sqrrN expr1n expr1n.
Qed.
Lemma alt_sq n : alt n *m alt n = 1%:M.
Proof. by rewrite mulmx_block !mul0mx !mulmx0 !addr0 !add0r mulNmx mulmxN opprK altd_sq [RHS]scalar_mx_block. Qed.
Lemma alt_T n : (alt n)^T = alt n.
Proof. by rewrite tr_block_mx !trmx0 linearN /= tr_diag_mx. Qed.
Lemma diag_comm n (u v : 'rV[R]_n) : diag_mx u *m diag_mx v = diag_mx v *m diag_mx u.
Proof. exact: diag_mxC. Qed.
Lemma alt_T1 n e : alt n *m T1 n e = T1 n e *m alt n.
Proof. by rewrite !mulmx_block !mul0mx !mulmx0 !addr0 !add0r mulNmx mulmxN; congr block_mx; [|congr (- _)]; apply: diag_comm. Qed.
Lemma alt_T2 n e : alt n *m T2 n e = T2 n e *m alt n.
Proof. by rewrite !mulmx_block !mul0mx !mulmx0 !addr0 !add0r mulNmx mulmxN; congr block_mx; [|congr (- _)]; apply: diag_comm. Qed.
Lemma T1_T n e : (T1 n e)^T = T1 n e.
Proof. by rewrite tr_block_mx !trmx0 !tr_diag_mx. Qed.
Lemma T2_T n e : (T2 n e)^T = T2 n e.
Proof. by rewrite tr_block_mx !trmx0 !tr_diag_mx. Qed.
Lemma alt_conj p q (W : 'M[R]_(p, q)) i j : (altd p *m W *m altd q) i j = (-1) ^+ (i + j) * W i j.
Proof. by rewrite mul_mx_diag mul_diag_mx !mxE exprD; rewrite -mulrA (mulrC (W i j)) mulrA. Qed.
Lemma V21_parity n ns e : parity n ns e -> V21 n ns e = alt ns *m (V12 n ns e)^T *m alt n.
Proof.
move=> h; rewrite /V12 /V21 tr_block_mx !mulmx_block !mul0mx !mulmx0 !addr0 !add0r !mulNmx !mulmxN !opprK.
have ec (i : 'I_n) (s : 'I_ns) : (-1) ^+ (i + s) = (-1) ^+ (s + i) :> R by rewrite addnC.
congr block_mx; apply/matrixP => s i; have [h1 h3] := h i s (ltn_ord i) (ltn_ord s); rewrite ec in h1 h3.
- by rewrite alt_conj !mxE h1 mulrA.
- by rewrite [RHS]mxE alt_conj !mxE h3 mulNr mulrA.
- by rewrite [RHS]mxE alt_conj !mxE h3 mulNr mulrA.
- by rewrite alt_conj !mxE h1 mulrA.
Qed.
Lemma round_trip_parity n ns e : parity n ns e -> round_trip n ns e = T1 n e *m V12 n ns e *m T2 ns e *m (alt ns *m (V12 n ns e)^T *m alt n).
Proof. by move=> h; rewrite /round_trip V21_parity. Qed.

(** ** exchange *)
Definition exchanged (n ns : nat) (e e' : roundtrip) : Prop :=
  T1 ns e' = T2 ns e /\ T2 n e' = T1 n e /\ V12 ns n e' = (V12 n ns e)^T.
Lemma exchange_det n ns e e' : parity n ns e -> parity ns n e' -> exchanged n ns e e' ->
  \det (1%:M - round_trip ns n e') = \det (1%:M - round_trip n ns e) /\
  forall j, \tr (mxpow (round_trip ns n e') j.+1) = \tr (mxpow (round_trip n ns e) j.+1).
Proof.
move=> h h' [e1 [e2 e3]].
pose X := T1 n e *m V12 n ns e *m T2 ns e; pose Y := alt ns *m (V12 n ns e)^T *m alt n.
have eU : round_trip n ns e = X *m Y by rewrite round_trip_parity.
have eU' : (round_trip ns n e')^T = Y *m X.
  rewrite round_trip_parity // e1 e2 e3 trmxK !trmx_mul !trmxK !alt_T T1_T T2_T /X /Y.
  by rewrite !mulmxA.
split.
- by rewrite -[LHS]det_tr linearB /= trmx1 eU' eU det_swap.
- by move=> j; rewrite -[LHS]mxtrace_tr mxpow_tr eU' eU tr_swap.
Qed.

Lemma zE : (0 : R) = 0%Re. Proof. by []. Qed.
Lemma oE : (1 : R) = 1%Re. Proof. by []. Qed.
(** ** positive semidefinite matrices *)
Definition qf n (A : 'M[R]_n) (x : 'rV[R]_n) : R := (x *m A *m x^T) ord0 ord0.
Definition psd n (A : 'M[R]_n) : Prop := A^T = A /\ forall x, (0 <= qf A x)%Re.
Lemma sum_nonneg (I : Type) (r : seq I) (F : I -> R) : (forall i, (0 <= F i)%Re) -> (0 <= \sum_(i <- r) F i)%Re.
Proof. by move=> h; elim: r => [|i r IH]; [rewrite big_nil; apply: Rle_refl|rewrite big_cons; apply: Rplus_le_le_0_compat]. Qed.
Lemma sum_le (I : Type) (r : seq I) (F G : I -> R) : (forall i, (F i <= G i)%Re) -> (\sum_(i <- r) F i <= \sum_(i <- r) G i)%Re.
Proof. by move=> h; elim: r => [|i r IH]; [rewrite !big_nil; apply: Rle_refl|rewrite !big_cons; apply: Rplus_le_compat]. Qed.
Lemma prod_le (I : Type) (r : seq I) (F G : I -> R) : (forall i, (0 <= F i <= G i)%Re) -> (0 <= \prod_(i <- r) F i <= \prod_(i <- r) G i)%Re.
Proof.
move=> h; elim: r => [|i r [IH1 IH2]]; first by rewrite !big_nil; split; [apply: Rle_0_1|apply: Rle_refl].
rewrite !big_cons; have [h1 h2] := h i; split; first exact: Rmult_le_pos.
exact: Rmult_le_compat.
Qed.
Lemma sum_single n (F : 'I_n -> R) i : (forall j, (0 <= F j)%Re) -> (F i <= \sum_j F j)%Re.
Proof.
move=> h; rewrite (bigD1 i) //=; rewrite -[X in (X <= _)%Re]addr0; apply: Rplus_le_compat_l.
by rewrite -big_filter; apply: sum_nonneg.
Qed.
Lemma qf_gram p q (B : 'M[R]_(p, q)) x : qf (B *m B^T) x = \sum_j ((x *m B) ord0 j * (x *m B) ord0 j).
Proof.
rewrite /qf mulmxA -[x *m B *m B^T *m x^T]mulmxA -trmx_mul mxE.
by apply: eq_bigr => j _; rewrite !mxE.
Qed.
Lemma psd_gram p q (B : 'M[R]_(p, q)) : psd (B *m B^T).
Proof. by split; [rewrite trmx_mul trmxK|move=> x; rewrite qf_gram; apply: sum_nonneg => j; apply: Rle_0_sqr]. Qed.
Lemma tr_gram p q (B : 'M[R]_(p, q)) : \tr (B *m B^T) = \sum_i \sum_j (B i j * B i j).
Proof. by rewrite /mxtrace; apply: eq_bigr => i _; rewrite mxE; apply: eq_bigr => j _; rewrite !mxE. Qed.
Lemma tr_gram_nonneg p q (B : 'M[R]_(p, q)) : (0 <= \tr (B *m B^T))%Re.
Proof. by rewrite tr_gram; apply: sum_nonneg => i; apply: sum_nonneg => j; apply: Rle_0_sqr. Qed.
Lemma tr_gram_pos p q (B : 'M[R]_(p, q)) i j : B i j <> 0 -> (0 < \tr (B *m B^T))%Re.
Proof.
move=> h; rewrite tr_gram; apply: (Rlt_le_trans _ (B i j * B i j)); first exact: Rsqr_pos_lt.
apply: Rle_trans (@sum_single _ (fun i => \sum_j (B i j * B i j)) i _); last by move=> i'; apply: sum_nonneg => j'; apply: Rle_0_sqr.
by apply: (@sum_single _ (fun j => B i j * B i j)) => j'; apply: Rle_0_sqr.
Qed.
Lemma gram_pow p q (B : 'M[R]_(p, q)) j : (0 <= \tr (mxpow (B *m B^T) j))%Re.
Proof.
have sym i : (mxpow (B *m B^T) i)^T = mxpow (B *m B^T) i by rewrite mxpow_tr trmx_mul trmxK.
have padd a b : mxpow (B *m B^T) (a + b) = mxpow (B *m B^T) a *m mxpow (B *m B^T) b.
  by elim: a => [|a IH]; [rewrite /mxpow /= mul1mx|rewrite addSn !mxpowS IH mulmxA].
rewrite -(odd_double_half j) -addnn; case: (odd j); rewrite ?add1n ?add0n.
- rewrite -addSn padd mxpowSr -mulmxA; set P := mxpow _ _.
  have -> : P *m (B *m B^T *m P) = (P *m B) *m (P *m B)^T by rewrite trmx_mul sym !mulmxA.
  exact: tr_gram_nonneg.
- by rewrite padd -{2}sym; apply: tr_gram_nonneg.
Qed.
Lemma quad_disc a b c : (0 <= a)%Re -> (forall t, (0 <= a * t * t + 2 * t * b + c)%Re) -> (b * b <= a * c)%Re.
Proof.
move=> ha0 h; have h0 := h 0%Re; have hc : (0 <= c)%Re by lra.
case: (Rlt_le_dec 0 a) => ha.
  have := h (- b / a)%Re; have -> : (a * (- b / a) * (- b / a) + 2 * (- b / a) * b + c = (a * c - b * b) / a)%Re by field; lra.
  move=> k; apply: Rnot_lt_le => k'; have : ((a * c - b * b) / a < 0)%Re; last lra.
  have e : ((a * c - b * b) / a * a = a * c - b * b)%Re by field; lra.
  by move: ((a * c - b * b) / a)%Re k e => w k e; nra.
case: (Req_dec b 0) => [->|hb].
  by have -> : a = 0%Re; lra.
have := h (- (c + 1) / (2 * b))%Re.
have -> : (a * (- (c + 1) / (2 * b)) * (- (c + 1) / (2 * b)) + 2 * (- (c + 1) / (2 * b)) * b + c = a * ((c + 1) / (2 * b)) ^ 2 - 1)%Re by field.
move=> k; have := pow2_ge_0 ((c + 1) / (2 * b)); nra.
Qed.

Section Step.
Context (n : nat) (a : R) (b : 'rV[R]_n) (C : 'M[R]_n).
Let A : 'M[R]_(1 + n) := block_mx a%:M b b^T C.
Lemma qf_block (t : R) x : qf A (row_mx t%:M x) = (a * t * t + 2 * t * (b *m x^T) ord0 ord0 + qf C x)%Re.
Proof.
have e : (x *m b^T) ord0 ord0 = (b *m x^T) ord0 ord0.
  by rewrite -[x *m b^T]trmxK trmx_mul trmxK mxE.
rewrite /qf mul_row_block tr_row_mx mul_row_col !mulmxDl tr_scalar_mx -!scalar_mxM mul_mx_scalar !mul_scalar_mx -scalemxAl.
move: (x *m b^T) (b *m x^T) (x *m C *m x^T) e => u v w e; rewrite !mxE e eqxx mulr1n -!RplusE -!RmultE.
have r (p q : R) : (t * a * t + t * p + (t * p + q) = a * t * t + 2 * t * p + q)%Re by ring.
exact: r.
Qed.
Lemma qf_rank1 x : qf (b^T *m b) x = ((b *m x^T) ord0 ord0 * (b *m x^T) ord0 ord0)%Re.
Proof.
rewrite /qf mulmxA -mulmxA; have -> : x *m b^T = (b *m x^T)^T by rewrite trmx_mul trmxK.
by move: (b *m x^T) => u; rewrite mxE big_ord_recl big_ord0 addr0 !mxE RmultE; congr (u _ _ * u _ _); apply/val_inj.
Qed.
Lemma qf_lin (s : R) (D : 'M[R]_n) x : qf (C + s *: D) x = (qf C x + s * qf D x)%Re.
Proof. by rewrite /qf mulmxDr mulmxDl -scalemxAr -scalemxAl; move: (x *m C *m _) (x *m D *m _) => u v; rewrite !mxE. Qed.
Context (hA : psd A).
Lemma step_sym : C^T = C.
Proof. by have [] := hA; rewrite /A tr_block_mx => /eq_block_mx [_ _ _]. Qed.
Lemma step_a : (0 <= a)%Re.
Proof.
have [_ h] := hA; have := h (row_mx 1%:M 0); rewrite qf_block trmx0 mulmx0 /qf !mul0mx !mxE !zE !oE; lra.
Qed.
Lemma step_C x : (0 <= qf C x)%Re.
Proof.
have [_ h] := hA; have := h (row_mx 0%:M x); rewrite qf_block !zE; lra.
Qed.
Lemma step_b x : ((b *m x^T) ord0 ord0 * (b *m x^T) ord0 ord0 <= a * qf C x)%Re.
Proof. by apply: quad_disc; [exact: step_a|move=> t; have [_ h] := hA; have := h (row_mx t%:M x); rewrite qf_block]. Qed.
Lemma qf_delta (M : 'M[R]_n) i : qf M (delta_mx ord0 i) = M i i.
Proof.
rewrite /qf -rowE trmx_delta mxE (bigD1 i) //= !mxE !eqxx mulr1 big1 ?addr0 // => j hj.
by rewrite !mxE (negbTE hj) mulr0.
Qed.
Lemma step_diag i : (0 <= C i i)%Re.
Proof. by rewrite -qf_delta; apply: step_C. Qed.
Lemma step_bb i : (b ord0 i * b ord0 i <= a * C i i)%Re.
Proof. by have := step_b (delta_mx ord0 i); rewrite qf_delta trmx_delta -colE !mxE. Qed.
Lemma step_bsum : (\sum_i b ord0 i * b ord0 i <= a * \tr C)%Re.
Proof. by rewrite RmultE mulr_sumr; apply: sum_le => i; apply: step_bb. Qed.
(** the Schur complement *)
Lemma det_schur (p : R) (D : 'M[R]_n) : p <> 0 -> \det (block_mx p%:M b b^T D : 'M_(1 + n)) = p * \det (D - p^-1 *: (b^T *m b)).
Proof.
move=> /eqP hp; have -> : block_mx p%:M b b^T D = block_mx 1%:M 0 (p^-1 *: b^T) 1%:M *m block_mx p%:M b 0 (D - p^-1 *: (b^T *m b)).
  rewrite mulmx_block !mul0mx !mulmx0 !mul1mx !addr0; congr block_mx.
  - by rewrite mul_mx_scalar scalerA mulfV // scale1r.
  - by rewrite -scalemxAl addrC subrK.
by rewrite det_mulmx det_lblock det_ublock !det1 !mul1r det_scalar1.
Qed.
Lemma tr_rank1 : \tr (b^T *m b) = \sum_i b ord0 i * b ord0 i.
Proof. by rewrite /mxtrace; apply: eq_bigr => i _; rewrite mxE big_ord_recl big_ord0 addr0 !mxE. Qed.
End Step.

Lemma psd_split n (A : 'M[R]_(1 + n)) : psd A -> exists a b C, A = block_mx a%:M b b^T C.
Proof.
move=> [hs _]; exists (A ord0 ord0), (ursubmx A), (drsubmx A); rewrite -{1}(submxK A); congr block_mx.
- by apply/matrixP => i j; rewrite !mxE !ord1 eqxx mulr1n; congr (A _ _); apply/val_inj.
- by rewrite -{1}hs; apply/matrixP => i j; rewrite !mxE.
Qed.
Lemma diag_block n (a : R) (b : 'rV[R]_n) (C : 'M[R]_n) : (forall F : R -> R, \prod_(i < 1 + n) F ((block_mx a%:M b b^T C : 'M_(1 + n)) i i) = F a * \prod_i F (C i i)) /\
  \tr (block_mx a%:M b b^T C : 'M_(1 + n)) = a + \tr C.
Proof.
split.
- move=> F; rewrite big_split_ord big_ord_recl big_ord0 /= mulr1; congr (F _ * _); first by rewrite block_mxEul mxE eqxx mulr1n.
  by apply: eq_bigr => i _; rewrite block_mxEdr.
- by rewrite mxtrace_block mxtrace_scalar mulr1n.
Qed.

(** attraction: A small *)
Lemma psd_small n (A : 'M[R]_n) : psd A -> (\tr A < 1)%Re ->
  (0 <= \tr A)%Re /\ (1 - \tr A <= \det (1%:M - A))%Re /\ (\det (1%:M - A) <= \prod_i (1 - A i i))%Re /\ (forall i, (0 <= A i i <= \tr A)%Re).
Proof.
elim: n A => [|n IH] A hA ht.
  rewrite /mxtrace !big_ord0 !det_mx00 in ht *; rewrite !zE !oE; split; [lra|]; split; [lra|]; split; [lra|]; by case.
have [a [b [C eA]]] := @psd_split n A hA; move: hA ht; rewrite {}eA {A} => hA.
have [hd htr] := diag_block a b C; rewrite htr => ht.
have a0 := step_a hA; have C0 i := step_diag hA i; have trC0 : (0 <= \tr C)%Re by apply: sum_nonneg => i; apply: C0.
have bs := step_bsum hA.
move: ht; rewrite -!RplusE => ht; have ha1 : (a < 1)%Re by lra.
have n1a : (1 - a)%Re <> 0%Re by apply: Rgt_not_eq; lra.
have /eqP n1a' := n1a.
pose A' := C + (1 - a)^-1 *: (b^T *m b).
have ei : (1 - a)^-1 = (/ (1 - a))%Re by rewrite -RinvE.
have ip : (0 < / (1 - a))%Re by apply: Rinv_0_lt_compat; lra.
have hA' : psd A'.
  split; first by rewrite /A' linearD linearZ /= trmx_mul trmxK (step_sym hA).
  move=> x; rewrite /A' qf_lin qf_rank1 ei; apply: Rplus_le_le_0_compat; first exact: (step_C hA).
  by apply: Rmult_le_pos; [lra|apply: Rle_0_sqr].
have trA' : \tr A' = (\tr C + / (1 - a) * \sum_i b ord0 i * b ord0 i)%Re by rewrite /A' linearD linearZ /= tr_rank1 ei.
have hs : (0 <= \sum_i b ord0 i * b ord0 i)%Re by apply: sum_nonneg => i; apply: Rle_0_sqr.
move: (\sum_i b ord0 i * b ord0 i) bs hs trA' => sb bs hs trA'.
have ex : ((1 - a) * / (1 - a) = 1)%Re by apply: Rinv_r; lra.
have htr' : (\tr A' < 1)%Re.
  rewrite trA'; apply: (Rmult_lt_reg_l (1 - a)); first lra.
  have -> : ((1 - a) * (\tr C + / (1 - a) * sb) = (1 - a) * \tr C + sb)%Re by rewrite Rmult_plus_distr_l -Rmult_assoc ex; ring.
  nra.
have [t0 [lo [hi dg]]] := IH A' hA' htr'.
have -> : \det (1%:M - (block_mx a%:M b b^T C : 'M_(1 + n))) = ((1 - a) * \det (1%:M - A'))%Re.
  have -> : 1%:M - (block_mx a%:M b b^T C : 'M_(1 + n)) = block_mx (1 - a)%:M (- b) (- b)^T (1%:M - C).
    rewrite [X in X - _]scalar_mx_block opp_block_mx add_block_mx !add0r; congr block_mx; last by rewrite linearN.
    by rewrite raddfB /=.
  have ebb : (- b)^T *m (- b) = b^T *m b by rewrite [(- b)^T]linearN /= mulNmx mulmxN opprK.
  by rewrite det_schur // ebb /A' opprD addrA.
split; [lra|]; split; [|split].
- apply: Rle_trans (Rmult_le_compat_l (1 - a) _ _ _ lo); last lra.
  rewrite trA'; have -> : ((1 - a) * (1 - (\tr C + / (1 - a) * sb)) = (1 - a) * (1 - \tr C) - ((1 - a) * / (1 - a)) * sb)%Re by ring.
  rewrite ex; nra.
- rewrite (hd (fun x => 1 - x)%Re) -RmultE; apply: Rmult_le_compat_l; first lra.
  apply: Rle_trans hi _; apply: (proj2 (prod_le _ _)) => i; have [d1 d2] := dg i; rewrite -!RminusE ?oE; split; first lra.
  have -> : A' i i = (C i i + / (1 - a) * (b ord0 i * b ord0 i))%Re.
    rewrite /A' -ei mxE [X in _ + X]mxE [X in _ + _ * X]mxE; congr (_ + _ * _)%Re.
    by rewrite big_ord_recl big_ord0 addr0 !mxE.
  have aux (x y : R) : (0 <= y)%Re -> (1 - (x + y) <= 1 - x)%Re by lra.
  by apply: aux; apply: Rmult_le_pos; [lra|apply: Rle_0_sqr].
- move=> i; case: (split_ordP (i : 'I_(1 + n))) => j ->.
  + by rewrite (@block_mxEul _ 1 n 1 n) !ord1 mxE eqxx mulr1n; lra.
  + rewrite (@block_mxEdr _ 1 n 1 n); split; first exact: C0.
    apply: Rle_trans (@sum_single _ (fun i => C i i) j C0) _; rewrite -/(mxtrace C); lra.
Qed.
(** repulsion *)
Lemma psd_plus n (A : 'M[R]_n) : psd A -> (1 + \tr A <= \det (1%:M + A))%Re.
Proof.
elim: n A => [|n IH] A hA.
  by rewrite /mxtrace !big_ord0 !det_mx00 !zE !oE; lra.
have [a [b [C eA]]] := @psd_split n A hA; move: hA; rewrite {}eA {A} => hA.
have [hd ->] := diag_block a b C.
have a0 := step_a hA; have C0 i := step_diag hA i; have trC0 : (0 <= \tr C)%Re by apply: sum_nonneg => i; apply: C0.
have bs := step_bsum hA.
have n1a : (1 + a)%Re <> 0%Re by apply: Rgt_not_eq; lra.
have /eqP n1a' := n1a.
pose A' := C + (- (1 + a)^-1) *: (b^T *m b).
have ei : (1 + a)^-1 = (/ (1 + a))%Re by rewrite -RinvE.
have ip : (0 < / (1 + a))%Re by apply: Rinv_0_lt_compat; lra.
have ex : ((1 + a) * / (1 + a) = 1)%Re by apply: Rinv_r; lra.
have hA' : psd A'.
  split; first by rewrite /A' linearD linearZ /= trmx_mul trmxK (step_sym hA).
  move=> x; rewrite /A' qf_lin qf_rank1 ei -RoppE; have := step_b hA x; have := step_C hA x.
  move: (_ * _)%Re (qf C x) => w q hq hw.
  have : (/ (1 + a) * w <= / (1 + a) * ((1 + a) * q))%Re by apply: Rmult_le_compat_l; nra.
  by rewrite -Rmult_assoc (Rmult_comm _ (1 + a)%Re) ex; lra.
have trA' : \tr A' = (\tr C - / (1 + a) * \sum_i b ord0 i * b ord0 i)%Re by rewrite /A' linearD linearZ /= tr_rank1 ei mulNr.
move: (\sum_i b ord0 i * b ord0 i) bs trA' => sb bs trA'.
have lo := IH A' hA'.
have -> : \det (1%:M + (block_mx a%:M b b^T C : 'M_(1 + n))) = ((1 + a) * \det (1%:M + A'))%Re.
  have -> : 1%:M + (block_mx a%:M b b^T C : 'M_(1 + n)) = block_mx (1 + a)%:M b b^T (1%:M + C).
    rewrite [X in X + _]scalar_mx_block add_block_mx !add0r; congr block_mx.
    by rewrite raddfD /=.
  by rewrite det_schur // /A' scaleNr addrA.
rewrite -!RplusE; apply: Rle_trans (Rmult_le_compat_l (1 + a) _ _ _ lo); last lra.
rewrite trA'; have -> : ((1 + a) * (1 + (\tr C - / (1 + a) * sb)) = (1 + a) * (1 + \tr C) - ((1 + a) * / (1 + a)) * sb)%Re by ring.
rewrite ex; nra.
Qed.
