(** * Proofs: linear algebra *)
From Coq Require Import Reals Lra Lia.
From mathcomp Require Import all_ssreflect ssralg matrix mxalgebra poly mxpoly.
From Verif Require Import Base RStruct Lin_Model Lin_Spec Bal_Proofs.
Set Implicit Arguments.
Unset Strict Implicit.
Import GRing.Theory.
Local Open Scope ring_scope.

(** ** bridges *)
Lemma sumnE n f : sumn n f = \sum_(i < n) f i.
Proof. by elim: n => [|n IH] /=; rewrite ?big_ord0 // big_ord_recr /= IH. Qed.

Lemma skipE a i : skip a i = bump a i.
Proof.
rewrite /skip /bump; case: (Nat.ltb_spec i a) => h.
- have -> : (a <= i)%N = false by apply/negP => /leP; lia.
  by rewrite add0n.
- have -> : (a <= i)%N by apply/leP.
  by rewrite add1n.
Qed.

Lemma minorE n A (a b : 'I_n.+1) : mx n (minor A a b) = row' a (col' b (mx n.+1 A)).
Proof. by apply/matrixP => i j; rewrite !mxE /minor !skipE. Qed.

Lemma m1E : (-1)%R = -1 :> R.
Proof. by []. Qed.

Lemma mdetE n A : mdet n A = \det (mx n A).
Proof.
elim: n A => [|n IH] A; first by rewrite det_mx00.
rewrite (expand_det_row _ ord0).
rewrite -[LHS]/(sumn n.+1 (fun j => (-1) ^ j * A O j * mdet n (minor A 0 j))%R).
rewrite sumnE; apply: eq_bigr => j _.
rewrite IH /cofactor -minorE mxE add0n RpowE m1E.
by rewrite ?RmultE -mulrA mulrCA.
Qed.

Lemma mmulE p q r A B : rmx p r (mmul q A B) = rmx p q A *m rmx q r B.
Proof.
by apply/matrixP => i j; rewrite !mxE /mmul sumnE; apply: eq_bigr => k _; rewrite !mxE.
Qed.
Lemma mtraceE n A : mtrace n A = \tr (mx n A).
Proof. by rewrite /mtrace sumnE; apply: eq_bigr => i _; rewrite mxE. Qed.
Lemma eyeE n : mx n eye = 1%:M.
Proof.
apply/matrixP => i j; rewrite !mxE /eye.
case: (Nat.eqb_spec i j) => [/val_inj ->|h]; first by rewrite eqxx.
by case: eqP => // e; case: h; rewrite e.
Qed.
Lemma msubE p q A B : rmx p q (msub A B) = rmx p q A - rmx p q B.
Proof. by apply/matrixP => i j; rewrite !mxE. Qed.
Lemma maddE p q A B : rmx p q (madd A B) = rmx p q A + rmx p q B.
Proof. by apply/matrixP => i j; rewrite !mxE. Qed.
Lemma moppE p q A : rmx p q (mopp A) = - rmx p q A.
Proof. by apply/matrixP => i j; rewrite !mxE. Qed.

Lemma ReqbE x y : Reqb x y = (x == y).
Proof. by case: Reqb_spec => h; case: eqP. Qed.

Lemma slogdetE n A : slogdet n A = ln_abs_det (mx n A).
Proof. by rewrite /slogdet /logabs /ln_abs_det mdetE ReqbE. Qed.

Lemma minv_ok n A B : minv n A = Ok B -> mx n A \in unitmx /\ mx n B = invmx (mx n A).
Proof.
rewrite /minv ReqbE mdetE; case: ifP => // u [<-].
have u' : mx n A \in unitmx by rewrite unitmxE unitfE; move: u => /negbT.
split => //; rewrite /invmx u'; apply/matrixP => i j; rewrite !mxE /cofactor.
case: n A u u' i j => [|n] A u u' i j; first by case: i.
rewrite -[(n.+1 - 1)%coq_nat]/(n - 0)%coq_nat Nat.sub_0_r mdetE minorE RpowE RdivE; last by move: u => /negbT.
by rewrite m1E RmultE addnC mulrC.
Qed.
Lemma minv_err n A e : minv n A = Err e -> e = LinAlgError /\ mx n A \notin unitmx.
Proof. by rewrite /minv ReqbE mdetE unitmxE unitfE; case: ifP => // u [<-]; split => //; rewrite negbK; exact: u. Qed.
Lemma minv_unit n A : mx n A \in unitmx -> exists B, minv n A = Ok B /\ mx n B = invmx (mx n A).
Proof.
move=> u; case e: (minv n A) => [B|x]; first by exists B; have [_ ->] := minv_ok e.
by have [_ /negP] := minv_err e.
Qed.

(** ** similarity *)
Lemma conj_det (K : comRingType) n (A : 'M[K]_n) (x y : 'I_n -> K) : (forall i, x i * y i = 1) ->
  \det (\matrix_(i, j) (x i * A i j * y j)) = \det A.
Proof.
move=> h.
have -> : (\matrix_(i, j) (x i * A i j * y j)) = diag_mx (\row_i x i) *m A *m diag_mx (\row_i y i).
  by apply/matrixP => i j; rewrite mul_mx_diag mul_diag_mx !mxE.
rewrite !det_mulmx !det_diag mulrAC -big_split /= (eq_bigr (fun=> 1)) ?big1_eq ?mul1r //.
by move=> i _; rewrite !mxE h.
Qed.

Lemma similar_refl n (A : 'M[R]_n) : similar A A.
Proof. by exists 1%:M, 1%:M; rewrite !mul1mx mulmx1. Qed.

Lemma similar_pow n (A B : 'M[R]_n) k : similar A B -> similar (mxpow A k) (mxpow B k).
Proof.
move=> [P [Q [pq qp ->]]]; exists P, Q; split=> //.
elim: k => [|k IH]; first by rewrite /mxpow /= mulmx1.
rewrite /mxpow /= -/(mxpow _ _) IH -/(mxpow A k) !mulmxA.
by rewrite -(mulmxA (P *m A)) qp mulmx1.
Qed.
Lemma similar_tr n (A B : 'M[R]_n) : similar A B -> \tr B = \tr A.
Proof. by move=> [P [Q [pq qp ->]]]; rewrite mxtrace_mulC mulmxA qp mul1mx. Qed.
Lemma similar_det n (A B : 'M[R]_n) : similar A B -> \det B = \det A.
Proof.
move=> [P [Q [pq qp ->]]]; rewrite !det_mulmx mulrAC -det_mulmx pq det1 mul1r //.
Qed.
Lemma similar_1m n (A B : 'M[R]_n) : similar A B -> similar (1%:M - A) (1%:M - B).
Proof.
move=> [P [Q [pq qp ->]]]; exists P, Q; split=> //.
by rewrite mulmxBr mulmxBl mulmx1 pq.
Qed.
Lemma similar_char n (A B : 'M[R]_n) : similar A B -> char_poly B = char_poly A.
Proof.
move=> [P [Q [pq qp ->]]]; rewrite /char_poly /char_poly_mx.
set P' := map_mx polyC P; set Q' := map_mx polyC Q.
have pq' : P' *m Q' = 1%:M by rewrite -map_mxM pq map_mx1.
have -> : 'X%:M - map_mx polyC (P *m A *m Q) = P' *m ('X%:M - map_mx polyC A) *m Q'.
  rewrite mulmxBr mulmxBl !map_mxM; congr (_ - _).
  by rewrite scalar_mxC -mulmxA pq' mulmx1.
by rewrite !det_mulmx mulrAC -det_mulmx pq' det1 mul1r.
Qed.

Lemma powz2_neq0 z : powerRZ 2 z != 0.
Proof. apply/eqP; apply: powerRZ_NOR; lra. Qed.
Lemma powz2_inv z : powerRZ 2 (- z) = (powerRZ 2 z)^-1.
Proof. by rewrite powerRZ_neg' RinvE // powz2_neq0. Qed.

Lemma pow2_similar_similar n (A B : 'M[R]_n) : pow2_similar A B -> similar A B.
Proof.
move=> [z h]; exists (diag_mx (\row_i powerRZ 2 (- z i))), (diag_mx (\row_i powerRZ 2 (z i))); split.
- apply/matrixP => i j; rewrite mul_diag_mx !mxE; case: eqP => // [->|_]; last by rewrite mulr0n mulr0.
  by rewrite !mulr1n powz2_inv mulVf ?powz2_neq0.
- apply/matrixP => i j; rewrite mul_diag_mx !mxE; case: eqP => // [->|_]; last by rewrite mulr0n mulr0.
  by rewrite !mulr1n powz2_inv mulfV ?powz2_neq0.
- apply/matrixP => i j; rewrite mul_mx_diag mul_diag_mx !mxE h -!RmultE /=; ring.
Qed.

Lemma dsim_pow2 n A B : dsim A B -> pow2_similar (mx n A) (mx n B).
Proof.
move=> [z h]; exists (fun i : 'I_n => z i) => i j; rewrite !mxE h.
by rewrite powz2_inv -RinvE // powz2_neq0.
Qed.

(** ** C14 *)
Lemma balance_pow2_similar fuel conv n A B : balance fuel conv n A = Some B -> pow2_similar (mx n A) (mx n B).
Proof. by move=> /balance_dsim /dsim_pow2. Qed.

Lemma pow2_similar_diag n (A B : 'M[R]_n) : pow2_similar A B ->
  (forall i, B i i = A i i) /\ (forall i j, (B i j == 0) = (A i j == 0)).
Proof.
move=> [z h]; split.
- by move=> i; rewrite h -mulrA powz2_inv mulfV ?mulr1 ?powz2_neq0.
- by move=> i j; rewrite h !mulf_eq0 !(negbTE (powz2_neq0 _)) !orbF.
Qed.

(** ** oseq *)
Lemma oseq_map_some A B (f : A -> option B) (g : A -> B) (l : list A) :
  (forall x, List.In x l -> f x = Some (g x)) -> oseq (List.map f l) = Some (List.map g l).
Proof.
elim: l => [|a l IH] //= h; rewrite (h a (or_introl erefl)) IH //.
by move=> x hx; apply: h; right.
Qed.
Lemma oseq_map_inv A B (f : A -> option B) (l : list A) r : oseq (List.map f l) = Some r ->
  List.Forall2 (fun x y => f x = Some y) l r.
Proof.
elim: l r => [|a l IH] r /=; first by case=> <-.
case e: (f a) => [y|] //; case e': (oseq _) => [ys|] // [<-].
by constructor; [|apply: IH].
Qed.
Lemma oseq_map_exists A B (f : nat -> A -> option B) (l : list A) :
  (forall x, exists N y, forall fuel, (N <= fuel)%coq_nat -> f fuel x = Some y) ->
  exists N r, forall fuel, (N <= fuel)%coq_nat -> oseq (List.map (f fuel) l) = Some r.
Proof.
move=> h; elim: l => [|a l [N [r IH]]]; first by exists 0%N, nil.
have [N' [y hy]] := h a.
exists (Nat.max N N'), (y :: r) => fuel hf /=.
by rewrite hy; [rewrite IH //|]; lia.
Qed.

(** ** C18: block assembly *)
Lemma ltbE a b : Nat.ltb a b = (a < b)%N.
Proof. by apply/idP/idP => [/Nat.ltb_spec0 /ltP|/ltP /Nat.ltb_spec0]. Qed.
Lemma eqbE a b : Nat.eqb a b = (a == b)%N.
Proof. by apply/idP/idP => [/Nat.eqb_spec ->|/eqP ->] //; rewrite Nat.eqb_refl. Qed.

Lemma append_cols_ok d p q1 q2 A B fa fb : @is_arr d p q1 A fa -> @is_arr d p q2 B fb ->
  exists M, append_cols A B = Ok M /\ @is_arr d p (q1 + q2) M (fun k => row_mx (fa k) (fb k)).
Proof.
move=> [d1 rA cA hA] [d2 rB cB hB]; rewrite /append_cols d1 d2 rA rB !Nat.eqb_refl /=.
eexists; split; first by reflexivity.
split=> //=; first by rewrite cA cB.
move=> k hk; apply/matrixP => i j; rewrite -(hA k hk) -(hB k hk) !mxE cA ltbE.
case: splitP => j' e; first by rewrite mxE e.
rewrite mxE e; congr (m3 B k i _).
by rewrite -[RHS](Nat.add_sub (j' : nat) q1) Nat.add_comm.
Qed.
Lemma append_rows_ok d p1 p2 q A B fa fb : @is_arr d p1 q A fa -> @is_arr d p2 q B fb ->
  exists M, append_rows A B = Ok M /\ @is_arr d (p1 + p2) q M (fun k => col_mx (fa k) (fb k)).
Proof.
move=> [d1 rA cA hA] [d2 rB cB hB]; rewrite /append_rows d1 d2 cA cB !Nat.eqb_refl /=.
eexists; split; first by reflexivity.
split=> //=; first by rewrite rA rB.
move=> k hk; apply/matrixP => i j; rewrite -(hA k hk) -(hB k hk) !mxE rA ltbE.
case: splitP => i' e; first by rewrite mxE e.
rewrite mxE e; congr (m3 B k _ j).
by rewrite -[RHS](Nat.add_sub (i' : nat) p1) Nat.add_comm.
Qed.

Lemma supermatrix_ok d p1 p2 q1 q2 A B C D fa fb fc fd :
  @is_arr d p1 q1 A fa -> @is_arr d p1 q2 B fb -> @is_arr d p2 q1 C fc -> @is_arr d p2 q2 D fd ->
  exists M, supermatrix (A, B, C, D) = Ok M /\
    @is_arr d (p1 + p2) (q1 + q2) M (fun k => block_mx (fa k) (fb k) (fc k) (fd k)).
Proof.
move=> hA hB hC hD; rewrite /supermatrix.
have [z1 [-> h1]] := append_cols_ok hA hB; have [z2 [-> h2]] := append_cols_ok hC hD => /=.
exact: append_rows_ok h1 h2.
Qed.

Lemma shape_refl d p q A B fa fb : @is_arr d p q A fa -> @is_arr d p q B fb -> shape3_eqb A B.
Proof. by move=> [d1 r1 c1 _] [d2 r2 c2 _]; rewrite /shape3_eqb d1 d2 r1 r2 c1 c2 !Nat.eqb_refl. Qed.

Lemma matrix_append_super A B C D : shape3_eqb A B -> shape3_eqb B C -> shape3_eqb C D ->
  matrix_append [:: A; B; C; D] = supermatrix (A, B, C, D).
Proof. by rewrite /matrix_append => -> -> ->. Qed.

Lemma matrix_append_err l : (size l != 4)%N -> matrix_append l = Err AssertionError.
Proof. by case: l => [|a [|b [|c [|d [|e l]]]]]. Qed.
Lemma matrix_append_shape A B C D : ~~ (shape3_eqb A B && shape3_eqb B C && shape3_eqb C D) ->
  matrix_append [:: A; B; C; D] = Err AssertionError.
Proof. by rewrite /matrix_append => /negbTE ->. Qed.

(** ** C17: log-determinants *)
Lemma balance_ln_abs_det fuel conv n A B : balance fuel conv n A = Some B ->
  slogdet n B = ln_abs_det (mx n A).
Proof.
move=> /balance_pow2_similar /pow2_similar_similar h.
by rewrite slogdetE /ln_abs_det (similar_det h).
Qed.

Lemma dets_of d n A (f : nat -> 'M[R]_n) Bs fuel conv : (forall k, (k < d)%N -> mx n (A k) = f k) ->
  List.Forall2 (fun i B => balance fuel conv n (msub eye (A i)) = Some B) (List.seq 0 d) Bs ->
  List.map (slogdet n) Bs = List.map (fun k => ln_abs_det (1%:M - f k)) (List.seq 0 d).
Proof.
move=> hf.
have : forall i, List.In i (List.seq 0 d) -> (i < d)%N by move=> i /List.in_seq hi; apply/ltP; lia.
elim: (List.seq 0 d) Bs => [|i l IH] Bs hl h; inversion h; subst => //=.
rewrite (balance_ln_abs_det H1) (IH l') //; last by move=> k hk; apply: hl; right.
by rewrite /mx msubE -/(mx n eye) eyeE -/(mx n _) hf //; apply: hl; left.
Qed.

Lemma balanced_slogdet_spec fuel conv d n M f : @is_arr d n n M f ->
  balanced_slogdet fuel conv M = None \/
  balanced_slogdet fuel conv M = Some (Ok (List.map (fun k => ln_abs_det (1%:M - f k)) (List.seq 0 d))).
Proof.
move=> [hd hr hc hM]; rewrite /balanced_slogdet hd hr hc Nat.eqb_refl.
case e: (oseq _) => [Bs|]; last by left.
by right; rewrite (dets_of hM (oseq_map_inv e)).
Qed.
Lemma balanced_slogdet_total conv d n M f : Rlt conv 1 -> @is_arr d n n M f ->
  exists N, forall fuel, (N <= fuel)%N -> balanced_slogdet fuel conv M <> None.
Proof.
move=> hconv [hd hr hc hM]; rewrite /balanced_slogdet hd hr hc Nat.eqb_refl.
have [|N [r h]] := @oseq_map_exists _ _ (fun fuel i => balance fuel conv n (msub eye (m3 M i))) (List.seq 0 d).
  by move=> i; apply: balance_terminates.
by exists N => fuel /leP hf; rewrite h.
Qed.

Lemma sln_det_3d_spec fuel conv d n A B C D fa fb fc fd :
  @is_arr d n n A fa -> @is_arr d n n B fb -> @is_arr d n n C fc -> @is_arr d n n D fd ->
  sln_det_3d fuel conv A B C D = None \/
  sln_det_3d fuel conv A B C D =
    Some (Ok (List.map (fun k => ln_abs_det (1%:M - block_mx (fa k) (fb k) (fc k) (fd k))) (List.seq 0 d))).
Proof.
move=> hA hB hC hD; rewrite /sln_det_3d (matrix_append_super (shape_refl hA hB) (shape_refl hB hC) (shape_refl hC hD)).
rewrite (shape_refl hA hB) (shape_refl hB hC) (shape_refl hC hD) !andbT.
have [M [-> [hd hr hc hM]]] := supermatrix_ok hA hB hC hD.
rewrite hr hc Nat.eqb_refl; have [-> _ _ _] := hA.
case e: (oseq _) => [Bs|]; last by left.
by right; rewrite (dets_of hM (oseq_map_inv e)).
Qed.
Lemma sln_det_3d_total conv d n A B C D fa fb fc fd : Rlt conv 1 ->
  @is_arr d n n A fa -> @is_arr d n n B fb -> @is_arr d n n C fc -> @is_arr d n n D fd ->
  exists N, forall fuel, (N <= fuel)%N -> sln_det_3d fuel conv A B C D <> None.
Proof.
move=> hconv hA hB hC hD; rewrite /sln_det_3d (matrix_append_super (shape_refl hA hB) (shape_refl hB hC) (shape_refl hC hD)).
rewrite (shape_refl hA hB) (shape_refl hB hC) (shape_refl hC hD) !andbT.
have [M [-> [hd hr hc hM]]] := supermatrix_ok hA hB hC hD.
rewrite hr hc Nat.eqb_refl; have [-> _ _ _] := hA.
have [|N [r h]] := @oseq_map_exists _ _ (fun fuel i => balance fuel conv (n + n) (msub eye (m3 M i))) (List.seq 0 d).
  by move=> i; apply: balance_terminates.
by exists N => fuel /leP hf; rewrite h.
Qed.
Lemma sln_det_3d_shape fuel conv A B C D : ~~ (shape3_eqb A B && shape3_eqb B C && shape3_eqb C D) ->
  sln_det_3d fuel conv A B C D = Some (Err ValueError).
Proof. by rewrite /sln_det_3d => /negbTE ->. Qed.

Lemma blockdiag_spec fuel conv n A B fa fb : (n <> 1)%N -> @is_arr2 n n A fa -> @is_arr2 n n B fb ->
  sln_det_blockdiagonal fuel conv A B = None \/
  sln_det_blockdiagonal fuel conv A B =
    Some (Ok (xadd (ln_abs_det (1%:M - fb)) (ln_abs_det (1%:M - fa)))).
Proof.
move=> hn [rA cA hA] [rB cB hB]; rewrite /sln_det_blockdiagonal rA cA rB cB !Nat.eqb_refl /=.
have -> : Nat.eqb n 1 = false by rewrite eqbE; apply/eqP.
case eB: (balance _ _ _ _) => [b|] /=; last by left.
case eA: (balance _ _ _ _) => [a|] /=; last by left.
right; rewrite (balance_ln_abs_det eA) (balance_ln_abs_det eB).
by rewrite /mx !msubE -/(mx n eye) eyeE hA hB.
Qed.
Lemma blockdiag_total conv n A B fa fb : Rlt conv 1 -> @is_arr2 n n A fa -> @is_arr2 n n B fb ->
  exists N, forall fuel, (N <= fuel)%N -> sln_det_blockdiagonal fuel conv A B <> None.
Proof.
move=> hc [rA cA hA] [rB cB hB]; rewrite /sln_det_blockdiagonal rA cA rB cB !Nat.eqb_refl /=.
have [Na [a ha]] := balance_terminates conv n (msub eye (m2 A)) hc.
have [Nb [b hb]] := balance_terminates conv n (msub eye (m2 B)) hc.
exists (Nat.max Na Nb) => fuel /leP hf; case: (_ && _) => //.
by rewrite ha ?hb //; lia.
Qed.
Lemma blockdiag_1x1 fuel conv A B a b : @is_arr2 1 1 A a%:M -> @is_arr2 1 1 B b%:M ->
  sln_det_blockdiagonal fuel conv A B = Some (Ok (nplog ((1 - a) * (1 - b)))).
Proof.
move=> [rA cA hA] [rB cB hB]; rewrite /sln_det_blockdiagonal rA cA rB cB /=.
have /matrixP /(_ ord0 ord0) := hA; rewrite !mxE /= => ->.
by have /matrixP /(_ ord0 ord0) := hB; rewrite !mxE /= => ->.
Qed.
Lemma blockdiag_shape fuel conv A B : r2 A != r2 B \/ c2 A != c2 B ->
  sln_det_blockdiagonal fuel conv A B = Some (Err ValueError).
Proof. by rewrite /sln_det_blockdiagonal !eqbE => -[/negbTE ->|/negbTE ->] //; rewrite andbF. Qed.
