(** * Expansion of -ln det(1 - A) in traces of powers, for positive semidefinite A *)
From Coq Require Import Reals.
From Coq Require Import List Lia Lra.
From mathcomp Require Import all_ssreflect ssralg ssrnum fingroup perm matrix mxalgebra poly mxpoly.
From Verif Require Import Base RStruct Lin_Model Lin_Spec Bal_Proofs Lin_Proofs Trip_Proofs Lin_Proofs2 RT_Proofs4 RT_Proofs6 RT_Proofs8 RT_Props3 Exp_Proofs.
Set Implicit Arguments.
Unset Strict Implicit.
Import GRing.Theory Num.Theory.
Local Open Scope ring_scope.
Delimit Scope R_scope with Re.

(** ** det(1 - x A) is a smooth function of x *)
Lemma smooth_sum (I : Type) (r : seq I) (F : I -> R -> R) : (forall i, smooth (F i)) -> smooth (fun x => \sum_(i <- r) F i x).
Proof.
move=> h; elim: r => [|i r IH]; first by apply: (smooth_ext _ _ _ (smooth_const 0)) => x; rewrite big_nil.
by apply: (smooth_ext _ _ _ (smooth_plus _ _ (h i) IH)) => x; rewrite big_cons.
Qed.
Lemma smooth_prod (I : Type) (r : seq I) (F : I -> R -> R) : (forall i, smooth (F i)) -> smooth (fun x => \prod_(i <- r) F i x).
Proof.
move=> h; elim: r => [|i r IH]; first by apply: (smooth_ext _ _ _ (smooth_const 1)) => x; rewrite big_nil.
by apply: (smooth_ext _ _ _ (smooth_mult _ _ (h i) IH)) => x; rewrite big_cons.
Qed.
Lemma smooth_det n (A : 'M[R]_n) : smooth (fun x => \det (1%:M - x *: A)).
Proof.
apply: smooth_sum => s; apply: smooth_mult; first exact: smooth_const.
apply: smooth_prod => i; apply: (smooth_ext (fun x => (1%:M : 'M[R]_n) i (s i) + (- A i (s i)) * x)%Re).
  have r (a b d : R) : (a + - b * d = a + - (d * b))%Re by ring.
  move=> x; rewrite [RHS]mxE [X in _ = _ + X]mxE [X in _ = _ + - X]mxE; exact: r.
by apply: smooth_plus; [exact: smooth_const|apply: smooth_mult; [exact: smooth_const|exact: smooth_id]].
Qed.

(** ** quadratic forms *)
Definition nsq n (x : 'rV[R]_n) : R := \sum_i x ord0 i * x ord0 i.
Lemma nsqE n (x : 'rV[R]_n) : nsq x = (x *m x^T) ord0 ord0.
Proof. by rewrite mxE; apply: eq_bigr => i _; rewrite mxE. Qed.
Lemma nsq_nonneg n (x : 'rV[R]_n) : (0 <= nsq x)%Re.
Proof. by apply: sum_nonneg => i; apply: Rle_0_sqr. Qed.
Lemma nsq_qf n (x : 'rV[R]_n) : nsq x = qf 1%:M x.
Proof. by rewrite /qf mulmx1 nsqE. Qed.
Lemma cauchy n (x y : 'rV[R]_n) : ((x *m y^T) ord0 ord0 * (x *m y^T) ord0 ord0 <= nsq x * nsq y)%Re.
Proof.
apply: quad_disc; first exact: nsq_nonneg.
move=> t; have := nsq_nonneg (t *: x + y).
have -> // : nsq (t *: x + y) = (nsq x * t * t + 2 * t * (x *m y^T) ord0 ord0 + nsq y)%Re.
have e : (y *m x^T) ord0 ord0 = (x *m y^T) ord0 ord0 by rewrite -[y *m x^T]trmxK trmx_mul trmxK mxE.
rewrite !nsqE linearD linearZ /= mulmxDl !mulmxDr -!scalemxAl -!scalemxAr.
move: (y *m x^T) (x *m y^T) (x *m x^T) (y *m y^T) e => a b c d e; rewrite !mxE e.
have r (p q r : R) : (t * (t * p) + t * q + (t * q + r) = p * t * t + 2 * t * q + r)%Re by ring.
exact: r.
Qed.
Lemma qf_tr p q (B : 'M[R]_(p, q)) x : (qf (B *m B^T) x <= \tr (B *m B^T) * nsq x)%Re.
Proof.
rewrite qf_gram tr_gram exchange_big /= RmultE mulr_suml; apply: sum_le => j.
have := cauchy x (col j B)^T; have -> : (x *m ((col j B)^T)^T) ord0 ord0 = (x *m B) ord0 j by rewrite trmxK [LHS]mxE [RHS]mxE; apply: eq_bigr => i _; rewrite mxE.
have -> : nsq (col j B)^T = \sum_i B i j * B i j by rewrite /nsq; apply: eq_bigr => i _; rewrite !mxE.
by rewrite Rmult_comm.
Qed.
(** every power of B B^T is of the form G G^T *)
Lemma gram_pow_ex p q (B : 'M[R]_(p, q)) j : exists r (G : 'M[R]_(p, r)), mxpow (B *m B^T) j = G *m G^T.
Proof.
have sym i : (mxpow (B *m B^T) i)^T = mxpow (B *m B^T) i by rewrite mxpow_tr trmx_mul trmxK.
have padd a b : mxpow (B *m B^T) (a + b) = mxpow (B *m B^T) a *m mxpow (B *m B^T) b.
  by elim: a => [|a IH]; [rewrite /mxpow /= mul1mx|rewrite addSn !mxpowS IH mulmxA].
rewrite -(odd_double_half j) -addnn; case: (odd j); rewrite ?add1n ?add0n.
- exists q, (mxpow (B *m B^T) j./2 *m B); rewrite -addSn padd mxpowSr trmx_mul sym !mulmxA.
  by [].
- by exists p, (mxpow (B *m B^T) j./2); rewrite padd sym.
Qed.
(** traces against quadratic forms *)
Lemma tr_qf p q (G : 'M[R]_(p, q)) (S : 'M[R]_p) : \tr (G *m G^T *m S) = \sum_j qf S (col j G)^T.
Proof.
rewrite -mulmxA mxtrace_mulC /mxtrace; apply: eq_bigr => j _; rewrite /qf trmxK.
have -> : (col j G)^T *m S *m col j G = row j (G^T *m S) *m col j G by rewrite row_mul tr_col.
by rewrite [LHS]mxE [RHS]mxE; apply: eq_bigr => i _; rewrite !mxE.
Qed.
Lemma tr_nsq p q (G : 'M[R]_(p, q)) : \tr (G *m G^T) = \sum_j nsq (col j G)^T.
Proof. by rewrite -[G *m G^T]mulmx1 tr_qf; apply: eq_bigr => j _; rewrite -nsq_qf. Qed.
Lemma sum_scal (I : Type) (r : seq I) (c : R) (F : I -> R) : \sum_(i <- r) (c * F i)%Re = (c * \sum_(i <- r) F i)%Re.
Proof. by rewrite RmultE mulr_sumr. Qed.

Section Expand.
Context (p q : nat) (B : 'M[R]_(p, q)).
Let A := B *m B^T.
Let t := \tr A.
Context (ht : (t < 1)%Re).
Lemma t0 : (0 <= t)%Re. Proof. exact: tr_gram_nonneg. Qed.
Lemma A_sym : A^T = A. Proof. by rewrite trmx_mul trmxK. Qed.
(** traces of powers decrease by the factor t *)
Lemma tr_pow_le j : (0 <= \tr (mxpow A j.+1) <= t * \tr (mxpow A j))%Re.
Proof.
split; first exact: gram_pow.
have [r [G e]] := gram_pow_ex B j; rewrite mxpowSr -/A e tr_qf tr_nsq -sum_scal.
by apply: sum_le => i; apply: qf_tr.
Qed.
Section At.
Context (x : R) (hx : (0 <= x <= 1)%Re).
Let M := 1%:M - x *: A.
Let Q := invmx M.
Lemma xt : (0 < 1 - x * t)%Re.
Proof. have := t0; nra. Qed.
Lemma qf_M y : qf M y = (nsq y - x * qf A y)%Re.
Proof. by rewrite /M -scaleNr qf_lin -nsq_qf -RoppE; ring. Qed.
Lemma qf_M_ge y : ((1 - x * t) * nsq y <= qf M y)%Re.
Proof.
rewrite qf_M; have := qf_tr B y; rewrite -/A -/t => h; have := Rmult_le_compat_l x _ _ (proj1 hx) h; lra.
Qed.
Lemma psd_scaled s : (0 <= s)%Re -> psd (s *: A).
Proof.
move=> hs; split; first by rewrite linearZ /= A_sym.
move=> y; have -> : qf (s *: A) y = (s * qf A y)%Re by rewrite -[s *: A]add0r qf_lin /qf mulmx0 mul0mx mxE; exact: Rplus_0_l.
by apply: Rmult_le_pos => //; have [_ h] := psd_gram B; apply: h.
Qed.
Lemma tr_scaled s : \tr (s *: A) = (s * t)%Re.
Proof. by rewrite linearZ. Qed.
Lemma det_M : (0 < \det M)%Re.
Proof.
have h : (\tr (x *: A) < 1)%Re by rewrite tr_scaled; have := xt; lra.
by have [_ [h1 _]] := psd_small (psd_scaled (proj1 hx)) h; move: h1; rewrite tr_scaled -/M; have := xt; lra.
Qed.
Lemma M_unit : M \in unitmx.
Proof. by rewrite unitmxE unitfE; apply/eqP => h; have := det_M; rewrite h; exact: Rlt_irrefl. Qed.
Lemma M_sym : M^T = M. Proof. by rewrite /M linearB /= trmx1 linearZ /= A_sym. Qed.
Lemma Q_sym : Q^T = Q. Proof. by rewrite /Q trmx_inv M_sym. Qed.
Lemma MA : M *m A = A *m M. Proof. by rewrite /M mulmxBl mulmxBr mul1mx mulmx1 -scalemxAl -scalemxAr. Qed.
Lemma QA : Q *m A = A *m Q.
Proof. by rewrite -[Q *m A]mulmx1 -(mulmxV M_unit) mulmxA -[Q *m A *m M]mulmxA -MA [Q *m (M *m A)]mulmxA mulVmx ?M_unit // mul1mx. Qed.
Lemma qf_Q y : (0 <= qf Q y <= nsq y / (1 - x * t))%Re.
Proof.
pose z := y *m Q; have e1 : y = z *m M by rewrite /z mulmxKV // M_unit.
have e2 : qf Q y = qf M z by rewrite /qf {2}e1 trmx_mul M_sym /z mulmxA.
have e3 : qf Q y = (z *m y^T) ord0 ord0 by [].
have h1 := qf_M_ge z; have h2 := cauchy z y; have h3 := nsq_nonneg z; have h4 := nsq_nonneg y; have h5 := xt.
rewrite -e3 in h2; rewrite -e2 in h1; move: (qf Q y) (nsq y) (nsq z) h1 h2 h3 h4 => w a b h1 h2 h3 h4.
have w0 : (0 <= w)%Re by apply: Rle_trans _ h1; apply: Rmult_le_pos; lra.
split=> //; apply: (Rmult_le_reg_r (1 - x * t)) => //; have -> : (a / (1 - x * t) * (1 - x * t) = a)%Re by field; lra.
case: (Rle_lt_or_eq_dec 0 w w0) => [wp|<-]; last by rewrite Rmult_0_l.
apply: (Rmult_le_reg_r w) => //; nra.
Qed.
Lemma tr_Q j : (0 <= \tr (mxpow A j *m Q) <= \tr (mxpow A j) / (1 - x * t))%Re.
Proof.
have [r [G e]] := gram_pow_ex B j; rewrite -/A in e; rewrite e tr_qf tr_nsq; split.
  by apply: sum_nonneg => i; have [] := qf_Q (col i G)^T.
rewrite /Rdiv Rmult_comm -sum_scal; apply: sum_le => i; have [_ h] := qf_Q (col i G)^T.
by rewrite Rmult_comm.
Qed.
Let tau := \tr (A *m Q).
(** the remainder *)
Lemma tau_po N : tau = (po (fun j => \tr (mxpow A j.+1)) N x + x ^ N * \tr (mxpow A N.+1 *m Q))%Re.
Proof.
have eQ : Q = 1%:M + x *: (A *m Q).
  by rewrite scalemxAl; apply/eqP; rewrite -subr_eq -{1}[Q]mul1mx -mulmxBl -/M mulmxV ?M_unit.
elim: N => [|N IH]; first by rewrite /= /mxpow /= mulmx1 -/tau Rmult_1_l Rplus_0_l.
have e : \tr (mxpow A N.+1 *m Q) = (\tr (mxpow A N.+1) + x * \tr (mxpow A N.+2 *m Q))%Re.
  by rewrite [mxpow A N.+2]mxpowSr -mulmxA {1}eQ mulmxDr mulmx1 -scalemxAr mxtraceD mxtraceZ.
have r (a b d g : R) : (a + b * (d + x * g) = a + d * b + x * b * g)%Re by ring.
by rewrite IH e /=; exact: r.
Qed.
Lemma tau_bounds N : let a j := \tr (mxpow A j.+1) in (po a N x <= tau <= po a N x + \tr (mxpow A N.+1) / (1 - t) * x ^ N)%Re.
Proof.
move=> a; rewrite (tau_po N) -/a; have [h1 h2] := tr_Q N.+1; have h0 := gram_pow B N.+1; rewrite -/A in h0.
have xN : (0 <= x ^ N)%Re by apply: pow_le; lra.
have le : (\tr (mxpow A N.+1) / (1 - x * t) <= \tr (mxpow A N.+1) / (1 - t))%Re.
  apply: Rmult_le_compat_l => //; apply: Rinv_le_contravar; first lra.
  have := t0; nra.
split; first by have := Rmult_le_pos _ _ xN h1; lra.
have := Rmult_le_compat_l _ _ _ xN (Rle_trans _ _ _ h2 le); lra.
Qed.
(** A Q is positive semidefinite *)
Lemma psd_AQ : psd (A *m Q).
Proof.
split; first by rewrite trmx_mul Q_sym A_sym QA.
move=> y; pose z := y *m Q; have e1 : y = z *m M by rewrite /z mulmxKV // M_unit.
have -> : qf (A *m Q) y = (z *m A *m (M *m z^T)) ord0 ord0.
  by rewrite /qf -QA [y *m _]mulmxA -/z {1}e1 trmx_mul M_sym.
have -> : z *m A *m (M *m z^T) = z *m A *m z^T - x *: ((z *m A) *m (z *m A)^T).
  by rewrite [(z *m A)^T]trmx_mul A_sym /M mulmxBl mul1mx mulmxBr -scalemxAl -scalemxAr.
have e2 : nsq (z *m A) = qf (B^T *m B^T^T) (z *m B) by rewrite qf_gram /nsq /A mulmxA.
have e3 : nsq (z *m B) = qf A z by rewrite /A qf_gram.
have e4 : \tr (B^T *m B^T^T) = t by rewrite trmxK mxtrace_mulC.
have := qf_tr B^T (z *m B); rewrite -e2 e3 e4 nsqE => h.
have h0 : (0 <= qf A z)%Re by have [_ h0] := psd_gram B; apply: h0.
move: h h0; rewrite /qf; move: (z *m A *m z^T) ((z *m A) *m (z *m A)^T) => u v h h0.
have -> : (u - x *: v) ord0 ord0 = (u ord0 ord0 - x * v ord0 ord0)%Re by rewrite !mxE.
move: (u _ _) (v _ _) h h0 => a b h h0; have := xt; nra.
Qed.
Lemma step_bounds : exists eps, (0 < eps)%Re /\ forall h, (0 <= h < eps)%Re ->
  (\det M * (1 - h * tau) <= \det (1%:M - (x + h)%Re *: A) <= \det M * exp (- (h * tau)))%Re.
Proof.
have [_ hpsd] := psd_AQ; have [hs _] := psd_AQ.
have tau0 : (0 <= tau)%Re by rewrite /tau; have [] := tr_Q 1; rewrite /mxpow /= mulmx1.
exists (/ (tau + 1))%Re; split; first by apply: Rinv_0_lt_compat; lra.
move=> h [h0 h1]; have ht1 : (h * tau < 1)%Re.
  have : (h * (tau + 1) < 1)%Re by apply: (Rmult_lt_reg_r (/ (tau + 1))); [apply: Rinv_0_lt_compat; lra|rewrite Rmult_assoc Rinv_r; lra].
  lra.
have ph : psd (h *: (A *m Q)).
  split; first by rewrite linearZ /= hs.
  move=> y; have -> : qf (h *: (A *m Q)) y = (h * qf (A *m Q) y)%Re by rewrite -[h *: _]add0r qf_lin /qf mulmx0 mul0mx mxE; exact: Rplus_0_l.
  exact: Rmult_le_pos.
have th : \tr (h *: (A *m Q)) = (h * tau)%Re by rewrite linearZ.
have ed : \det (1%:M - (x + h)%Re *: A) = (\det M * \det (1%:M - h *: (A *m Q)))%Re.
  rewrite RmultE -det_mulmx; congr (\det _); rewrite mulmxBr mulmx1 -scalemxAr mulmxA MA -mulmxA mulmxV ?M_unit // mulmx1 /M.
  by rewrite scalerDl opprD addrA.
have dp := det_M; have ht2 : (\tr (h *: (A *m Q)) < 1)%Re by rewrite th.
have [p0 [p1 [p2 p3]]] := psd_small ph ht2; rewrite th in p1; rewrite ed.
split; first by apply: Rmult_le_compat_l; [lra|].
apply: Rmult_le_compat_l; first lra.
have hb i : (0 <= (h *: (A *m Q)) i i <= 1)%Re by have [q1 q2] := p3 i; exact: (conj q1 (Rlt_le _ _ (Rle_lt_trans _ _ _ q2 ht2))).
have [_ hx'] := prod_exp (index_enum _) hb; rewrite -th; exact: Rle_trans p2 hx'.
Qed.
End At.

Lemma Po_partial N : Po (fun j => \tr (mxpow A j.+1)) N 1 = rt_partial A N.
Proof.
elim: N => [|N IH]; first by rewrite /rt_partial big_geq.
by rewrite /rt_partial big_nat_recr //= -/(rt_partial A N) -IH pow1 /Rdiv !Rmult_1_l.
Qed.
Lemma expansion N : (rt_partial A N <= - ln (\det (1%:M - A)) <= rt_partial A N + \tr (mxpow A N.+1) / (1 - t) / INR N.+1)%Re.
Proof.
have e1 : 1%:M - A = 1%:M - 1%Re *: A by rewrite scale1r.
rewrite e1 -Po_partial; apply: (log_bounds (fun x => \det (1%:M - x *: A)) (fun x => \tr (A *m invmx (1%:M - x *: A)))).
- exact: smooth_det.
- by rewrite scale0r subr0 det1.
- by move=> x hx; apply: det_M.
- by move=> x hx; have [eps [h1 h2]] := step_bounds hx; exists eps.
- by move=> x hx; apply: tau_bounds.
Qed.
End Expand.
