(** * Determinants of the round-trip matrices at low frequency *)
From Coq Require Import Reals.
From Coq Require Import List Lia Lra.
From mathcomp Require Import all_ssreflect ssralg fingroup perm matrix mxalgebra poly mxpoly.
From Verif Require Import Base RStruct Bessel_Model Scat_Model Scat_Spec Scat_Proofs7 Scat_Proofs9 Trans_Model Trans_Spec Lin_Model Lin_Spec Bal_Proofs Lin_Proofs Trip_Proofs Lin_Proofs2
  RT_Model RT_Spec RT_Proofs2 RT_Proofs3.
Set Implicit Arguments.
Unset Strict Implicit.
Import GRing.Theory.
Local Open Scope ring_scope.
Delimit Scope R_scope with Re.

(** ** limits of determinants *)
Lemma lim0_bigsum (I : Type) (r : seq I) (F : I -> R -> R) (G : I -> R) :
  (forall i, lim0 (F i) (G i)) -> lim0 (fun k => \sum_(i <- r) F i k) (\sum_(i <- r) G i).
Proof.
move=> h; elim: r => [|i r IH].
  by apply: (@lim0_ext (fun=> 0)); [move=> k _; rewrite big_nil|rewrite big_nil; apply: lim0_const].
apply: (@lim0_ext (fun k => F i k + \sum_(j <- r) F j k)); first by move=> k _; rewrite big_cons.
by rewrite big_cons; apply: lim0_plus.
Qed.
Lemma lim0_bigprod (I : Type) (r : seq I) (F : I -> R -> R) (G : I -> R) :
  (forall i, lim0 (F i) (G i)) -> lim0 (fun k => \prod_(i <- r) F i k) (\prod_(i <- r) G i).
Proof.
move=> h; elim: r => [|i r IH].
  by apply: (@lim0_ext (fun=> 1)); [move=> k _; rewrite big_nil|rewrite big_nil; apply: lim0_const].
apply: (@lim0_ext (fun k => F i k * \prod_(j <- r) F j k)); first by move=> k _; rewrite big_cons.
by rewrite big_cons; apply: lim0_mult.
Qed.
Lemma lim0_det n (f : R -> 'M[R]_n) (g : 'M[R]_n) : (forall i j, lim0 (fun k => f k i j) (g i j)) -> lim0 (fun k => \det (f k)) (\det g).
Proof.
move=> h; rewrite /determinant; apply: lim0_bigsum => s.
by apply: lim0_mult; [apply: lim0_const|apply: lim0_bigprod => i; apply: h].
Qed.
Lemma lim0_tr n (f : R -> 'M[R]_n) (g : 'M[R]_n) : (forall i j, lim0 (fun k => f k i j) (g i j)) -> lim0 (fun k => \tr (f k)) (\tr g).
Proof. by move=> h; rewrite /mxtrace; apply: lim0_bigsum. Qed.
Lemma lim0_zm n z (f : R -> 'M[R]_n) (g : 'M[R]_n) : (forall i j, lim0 (fun k => f k i j) (g i j)) ->
  lim0 (fun k => \det (z%:M - f k)) (\det (z%:M - g)).
Proof.
move=> h; apply: lim0_det => i j; apply: (@lim0_ext (fun k => Rminus (z%:M i j) (f k i j))); first by move=> k _; rewrite !mxE.
by rewrite !mxE; apply: lim0_minus; [apply: lim0_const|apply: h].
Qed.

(** ** similar matrices *)
Lemma similar_zm n z (A B : 'M[R]_n) : similar A B -> similar (z%:M - A) (z%:M - B).
Proof.
move=> [P [Q [pq qp ->]]]; exists P, Q; split=> //.
by rewrite mulmxBr mulmxBl; congr (_ - _); rewrite scalar_mxC -mulmxA pq mulmx1.
Qed.
Lemma similar_refl n (A : 'M[R]_n) : similar A A.
Proof. by exists 1%:M, 1%:M; rewrite !mul1mx !mulmx1. Qed.
Lemma similar_trans n (A B C : 'M[R]_n) : similar A B -> similar B C -> similar A C.
Proof.
move=> [P [Q [pq qp ->]]] [S [T [st ts ->]]]; exists (S *m P), (Q *m T); split.
- by rewrite mulmxA -(mulmxA S) pq mulmx1.
- by rewrite mulmxA -(mulmxA Q) ts mulmx1.
- by rewrite !mulmxA.
Qed.
Lemma similar_sym n (A B : 'M[R]_n) : similar A B -> similar B A.
Proof. by move=> [P [Q [pq qp ->]]]; exists Q, P; split=> //; rewrite !mulmxA qp mul1mx -mulmxA qp mulmx1. Qed.

(** four blocks of a pair of polarizations *)
Definition super n (q : mat * mat * mat * mat) : 'M[R]_(n + n) := block_mx (mx n (EE q)) (mx n (EM q)) (mx n (ME q)) (mx n (MM q)).
Section Conj.
Context (n : nat) (x y : nat -> R) (xy : forall i, x i * y i = 1).
Definition dg (v : nat -> R) : 'M[R]_n := diag_mx (\row_(i < n) v i).
Lemma dg_inv (u v : nat -> R) : (forall i, u i * v i = 1) -> dg u *m dg v = 1%:M.
Proof.
move=> h; apply/matrixP => i j; rewrite mul_diag_mx !mxE; case: eqP => [->|_]; last by rewrite mulr0n mulr0.
by rewrite mulr1n h.
Qed.
Lemma dg_conj (M M' : mat) : (forall i j, (i < n)%N -> (j < n)%N -> M' i j = x i * M i j * y j) -> mx n M' = dg x *m mx n M *m dg y.
Proof. by move=> h; apply/matrixP => i j; rewrite mul_mx_diag mul_diag_mx !mxE h. Qed.
Lemma one_similar (M M' : mat) : (forall i j, (i < n)%N -> (j < n)%N -> M' i j = x i * M i j * y j) -> similar (mx n M) (mx n M').
Proof.
move=> h; exists (dg x), (dg y); split; [exact: dg_inv|apply: dg_inv => i; rewrite mulrC|exact: dg_conj] => //.
Qed.
Lemma super_similar (q q' : mat * mat * mat * mat) :
  (forall i j, (i < n)%N -> (j < n)%N -> [/\ EE q' i j = x i * EE q i j * y j, EM q' i j = x i * EM q i j * y j, ME q' i j = x i * ME q i j * y j & MM q' i j = x i * MM q i j * y j]) ->
  similar (super n q) (super n q').
Proof.
move=> h; exists (block_mx (dg x) 0 0 (dg x)), (block_mx (dg y) 0 0 (dg y)); split.
- by rewrite mulmx_block dg_inv // !mul0mx !mulmx0 !addr0 add0r [RHS]scalar_mx_block.
- by rewrite mulmx_block dg_inv ?mul0mx ?mulmx0 ?addr0 ?add0r; [rewrite [RHS]scalar_mx_block|move=> i; rewrite mulrC].
- rewrite !mulmx_block !mul0mx !mulmx0 !addr0 !add0r /super.
  by congr block_mx; apply: dg_conj => i j hi hj; have [] := h i j hi hj.
Qed.
End Conj.

(** ** the matrix built by the code *)
Lemma same_round_trip n ns E E' : same_coefs n ns E E' -> round_trip n ns E = round_trip n ns E'.
Proof.
move=> [ha [hb hv]]; rewrite /round_trip.
have -> : T1 n E = T1 n E'.
  by rewrite /T1; congr block_mx; congr diag_mx; apply/rowP => i; rewrite !mxE; have [] := ha i (ltP (ltn_ord i)).
have -> : T2 ns E = T2 ns E'.
  by rewrite /T2; congr block_mx; congr diag_mx; apply/rowP => i; rewrite !mxE; have [] := hb i (ltP (ltn_ord i)).
have -> : V12 n ns E = V12 n ns E'.
  by rewrite /V12; congr block_mx; apply/matrixP => i s; rewrite !mxE; have [h0 [h1 [h2 h3]]] := hv i s (ltP (ltn_ord i)) (ltP (ltn_ord s)).
have -> // : V21 n ns E = V21 n ns E'.
by rewrite /V21; congr block_mx; apply/matrixP => s i; rewrite !mxE; have [h0 [h1 [h2 h3]]] := hv i s (ltP (ltn_ord i)) (ltP (ltn_ord s)).
Qed.

Section Run.
Context (mieb : list R -> nat -> Z -> res (list (list R) * list (list R))) (c : config) (m : Z) (k : R) (A B : coefs) (e u : R -> R).
Context (EA : mieA mieb c [:: k] = Val A) (EB : mieB mieb c [:: k] = Val B) (hmed : has (c_med c) e u).
Context (hL : (0 < c_L c)%Re) (hk : (0 < k)%Re) (hn : (0 < n1 c m)%N) (hs : n1 c m = 1%N \/ (0 < n2 c m)%N).
Let U := round_trip (n1 c m) (n2 c m) (rt_with mieb c m k).
Lemma rt_run : exists M g, [/\ rt_matrix mieb trans_bessels c m [:: k] = Val M, @is_arr 1 (n1 c m + n1 c m) (n1 c m + n1 c m) M (fun=> g), similar U g & forall i, g i i = U i i].
Proof.
have [E [eE hE]] := elements_val mieb c m k A B e u EA EB hmed hL hk.
rewrite /rt_matrix /rt_blocks eE /= scale_ok //=.
have [M [g [eM hM hg]]] := supermatrix_round_trip 1 (n1 c m) (n2 c m) E.
have [s d] := hg 0%N isT.
exists M, (g 0%N); split.
- by move: eM; rewrite /supermatrix /block_arrays /shape3_eqb /= !Nat.eqb_refl /= => ->.
- by case: hM => hd hr hc h; split=> // -[|//] _; apply: h.
- by rewrite /U -(same_round_trip hE).
- by move=> i; rewrite /U -(same_round_trip hE).
Qed.
Lemma rt_lndet_run conv : (conv < 1)%Re -> exists N, forall fuel, (N <= fuel)%N ->
  rt_lndet mieb trans_bessels c fuel conv m [:: k] = Some (Val [:: ln_abs_det (1%:M - U)]).
Proof.
move=> hc; have [M [g [eM hM s _]]] := rt_run; have [N hN] := balanced_slogdet_total hc hM.
exists N => fuel hf; rewrite /rt_lndet eM.
case: (balanced_slogdet_spec fuel conv hM) => [h|->]; first by have := hN fuel hf; rewrite h.
by rewrite /= /ln_abs_det (similar_det (similar_1m s)).
Qed.
End Run.
Lemma rt_super c m k : round_trip (n1 c m) (n2 c m) (rt_at c m k) = super (n1 c m) (rblocks c m k).
Proof.
have := blocks_round_trip (n1 c m) (n2 c m) (rt_at c m k); move=> <-; rewrite /rblocks /super /EE /EM /ME /MM /=.
have h : forall i j s, exp (log_skalierung (rt_at c m k) i j s) = 1%Re.
  by move=> i j s; rewrite /log_skalierung /rt_at /rt_with /= !Rplus_0_r exp_0.
by congr block_mx; apply/matrixP => i j; rewrite !mxE; apply: sumn_ext => s _; rewrite h.
Qed.
