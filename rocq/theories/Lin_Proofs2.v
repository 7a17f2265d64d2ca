(** * Proofs: blockwise inverse, traces, round-trip expansion, scaling *)
From Coq Require Import Reals Lra Lia.
From mathcomp Require Import all_ssreflect ssralg matrix mxalgebra poly mxpoly.
From Verif Require Import Base RStruct Lin_Model Lin_Spec Bal_Proofs Lin_Proofs Trip_Proofs.
Set Implicit Arguments.
Unset Strict Implicit.
Import GRing.Theory.
Local Open Scope ring_scope.

(** ** C19 *)
Lemma is_arr_ext d p q M f g : (forall k, (k < d)%N -> f k = g k) -> @is_arr d p q M f -> @is_arr d p q M g.
Proof. by move=> e [hd hr hc h]; split=> // k hk; rewrite h // e. Qed.

Lemma dot_ok d p q r A B fa fb : @is_arr d p q A fa -> @is_arr d q r B fb ->
  exists M, dot_3d A B = Ok M /\ @is_arr d p r M (fun k => fa k *m fb k).
Proof.
move=> [d1 rA cA hA] [d2 rB cB hB]; rewrite /dot_3d d1 d2 cA rB !Nat.eqb_refl /=.
eexists; split; first by reflexivity.
by split=> //= k hk; rewrite mmulE hA // hB.
Qed.
Lemma sub_ok d p q A B fa fb : @is_arr d p q A fa -> @is_arr d p q B fb ->
  exists M, arr_sub A B = Ok M /\ @is_arr d p q M (fun k => fa k - fb k).
Proof.
move=> hA hB; rewrite /arr_sub (shape_refl hA hB); case: hA hB => [d1 rA cA hA] [d2 rB cB hB].
eexists; split; first by reflexivity.
by split=> //= k hk; rewrite msubE hA // hB.
Qed.
Lemma add_ok d p q A B fa fb : @is_arr d p q A fa -> @is_arr d p q B fb ->
  exists M, arr_add A B = Ok M /\ @is_arr d p q M (fun k => fa k + fb k).
Proof.
move=> hA hB; rewrite /arr_add (shape_refl hA hB); case: hA hB => [d1 rA cA hA] [d2 rB cB hB].
eexists; split; first by reflexivity.
by split=> //= k hk; rewrite maddE hA // hB.
Qed.
Lemma opp_ok d p q A fa : @is_arr d p q A fa -> @is_arr d p q (arr_opp A) (fun k => - fa k).
Proof. by move=> [d1 rA cA hA]; split=> //= k hk; rewrite moppE hA. Qed.

Lemma inv_loop_ok n A is_ out : (forall i, List.In i is_ -> mx n (A i) \in unitmx) ->
  exists out', inv_loop n A is_ out = Ok out' /\
    forall k, (List.In k is_ -> mx n (out' k) = invmx (mx n (A k))) /\ (~ List.In k is_ -> out' k = out k).
Proof.
elim: is_ out => [|i l IH] out hu /=; first by exists out; split.
have [B [-> hB]] := minv_unit (hu i (or_introl erefl)) => /=.
have [o [e ho]] := IH (fun k => if Nat.eqb k i then B else out k) (fun j hj => hu j (or_intror hj)).
exists o; split=> // k; have [h1 h2] := ho k; split.
- move=> [ik|hk]; last exact: h1.
  subst k; case: (List.in_dec Nat.eq_dec i l) => hil; first exact: h1.
  by rewrite h2 // Nat.eqb_refl hB.
- move=> hn; rewrite h2; last by move=> hk; apply: hn; right.
  by case: (Nat.eqb_spec k i) => // e'; case: hn; left.
Qed.
Lemma inv_loop_err n A is_ out : (exists i, List.In i is_ /\ mx n (A i) \notin unitmx) ->
  inv_loop n A is_ out = Err LinAlgError.
Proof.
elim: is_ out => [|i l IH] out [j [hj hu]] //=.
case e: (minv n (A i)) => [B|x] /=; last by have [->] := minv_err e.
apply: IH; exists j; split=> //; case: hj => // ij; subst j.
by have [u _] := minv_ok e; rewrite u in hu.
Qed.

Lemma inv_ok d n g A fa : @is_arr d n n A fa -> (forall k, (k < d)%N -> fa k \in unitmx) ->
  exists M, inv_3d_matrix g A = Ok M /\ @is_arr d n n M (fun k => invmx (fa k)).
Proof.
move=> [d1 rA cA hA] hu; rewrite /inv_3d_matrix rA cA d1 Nat.eqb_refl.
have [|o [-> ho]] := @inv_loop_ok n (m3 A) (List.seq 0 d) g.
  by move=> i /List.in_seq hi; rewrite /mx hA ?hu //; apply/ltP; lia.
eexists; split; first by reflexivity.
split=> //= k hk; have [h _] := ho k; rewrite -hA // -/(mx n (o k)) h //.
by apply/List.in_seq; move: hk => /ltP; lia.
Qed.
Lemma inv_err d n g A fa k : @is_arr d n n A fa -> (k < d)%N -> fa k \notin unitmx ->
  inv_3d_matrix g A = Err LinAlgError.
Proof.
move=> [d1 rA cA hA] hk hu; rewrite /inv_3d_matrix rA cA d1 Nat.eqb_refl inv_loop_err //.
by exists k; split; [apply/List.in_seq; move: hk => /ltP; lia|rewrite /mx hA].
Qed.

Lemma evenE n : Nat.even n = ~~ odd n.
Proof. by elim/ltn_ind: n => -[|[|n]] IH //=; rewrite IH // negbK. Qed.
Lemma even_nn n : Nat.even (n + n) = true.
Proof. by rewrite evenE addnn odd_double. Qed.
Lemma div2E n : Nat.div2 (n + n) = n.
Proof. by elim: n => // n IH; rewrite addnS /= IH. Qed.

Section BlockInverse.
Context (d n : nat) (M : arr3) (f : nat -> 'M[R]_(n + n)) (hM : is_arr d M f).

Lemma block_ul : is_arr d (block M 0 n 0 n) (fun k => ulsubmx (f k)).
Proof. by case: hM => [hd hr hc h]; split=> //= k hk; rewrite -h //; apply/matrixP => i j; rewrite !mxE. Qed.
Lemma block_ur : is_arr d (block M 0 n n n) (fun k => ursubmx (f k)).
Proof. by case: hM => [hd hr hc h]; split=> //= k hk; rewrite -h //; apply/matrixP => i j; rewrite !mxE. Qed.
Lemma block_dl : is_arr d (block M n n 0 n) (fun k => dlsubmx (f k)).
Proof. by case: hM => [hd hr hc h]; split=> //= k hk; rewrite -h //; apply/matrixP => i j; rewrite !mxE. Qed.
Lemma block_dr : is_arr d (block M n n n n) (fun k => drsubmx (f k)).
Proof. by case: hM => [hd hr hc h]; split=> //= k hk; rewrite -h //; apply/matrixP => i j; rewrite !mxE. Qed.

Definition schur k : 'M[R]_n := drsubmx (f k) - dlsubmx (f k) *m invmx (ulsubmx (f k)) *m ursubmx (f k).

Lemma block_inverse (A B C D : 'M[R]_n) (S := D - C *m invmx A *m B) : A \in unitmx -> S \in unitmx ->
  let I := block_mx (invmx A + invmx A *m B *m invmx S *m (C *m invmx A)) (- (invmx A *m B *m invmx S))
             (- (invmx S *m (C *m invmx A))) (invmx S) in
  block_mx A B C D *m I = 1%:M.
Proof.
move=> uA uS /=; rewrite mulmx_block [RHS]scalar_mx_block.
rewrite !mulmxDr !mulmxN !mulmxA mulmxV // !mul1mx.
have -> : 1%:M + B *m invmx S *m C *m invmx A - B *m invmx S *m C *m invmx A = 1%:M by rewrite addrK.
have -> : - (B *m invmx S) + B *m invmx S = 0 by rewrite addNr.
have e : D = S + C *m invmx A *m B by rewrite /S subrK.
have e1 : D *m invmx S = 1%:M + C *m invmx A *m B *m invmx S.
  by rewrite {1}e mulmxDl mulmxV.
rewrite e1 !mulmxDl !mul1mx; congr block_mx; first by rewrite subrr.
by rewrite addrCA addNr addr0.
Qed.

Lemma inv_block_ok g : (forall k, (k < d)%N -> ulsubmx (f k) \in unitmx) ->
  (forall k, (k < d)%N -> schur k \in unitmx) ->
  exists I, inv_3d_blockmatrix g M = Ok I /\
    exists h, is_arr d I h /\ forall k, (k < d)%N -> f k *m h k = 1%:M /\ h k *m f k = 1%:M.
Proof.
move=> u1 u2; case: (hM) => [hd hr hc h]; rewrite /inv_3d_blockmatrix hr hc Nat.eqb_refl even_nn /= div2E.
have [iA [-> hiA]] := inv_ok g block_ul u1 => /=.
have [t1 [-> ht1]] := dot_ok block_dl hiA => /=.
have [t2 [-> ht2]] := dot_ok ht1 block_ur => /=.
have [sc [-> hsc]] := sub_ok block_dr ht2 => /=.
have [isc [-> hisc]] := inv_ok g hsc u2 => /=.
have [fak2 [-> hf2]] := dot_ok hiA block_ur => /=.
have [v1 [-> hv1]] := dot_ok hf2 hisc => /=.
have [w1 [-> hw1]] := dot_ok hv1 ht1 => /=.
have [i11 [-> h11]] := add_ok hiA hw1 => /=.
have [v2 [-> hv2]] := dot_ok hisc ht1 => /=.
have [z1 [-> hz1]] := append_cols_ok h11 (opp_ok hv1) => /=.
have [z2 [-> hz2]] := append_cols_ok (opp_ok hv2) hisc => /=.
have [I [-> hI]] := append_rows_ok hz1 hz2 => /=.
exists I; split=> //; eexists; split; first exact: hI.
move=> k hk; rewrite -/(block_mx _ _ _ _).
have e : f k *m (block_mx (invmx (ulsubmx (f k)) + invmx (ulsubmx (f k)) *m ursubmx (f k) *m invmx (schur k) *m (dlsubmx (f k) *m invmx (ulsubmx (f k))))
   (- (invmx (ulsubmx (f k)) *m ursubmx (f k) *m invmx (schur k)))
   (- (invmx (schur k) *m (dlsubmx (f k) *m invmx (ulsubmx (f k))))) (invmx (schur k))) = 1%:M.
  by rewrite -{1}(submxK (f k)); apply: block_inverse; [exact: u1|exact: u2].
by split; [exact: e|exact: mulmx1C e].
Qed.

Lemma inv_block_singular g k : (k < d)%N -> ulsubmx (f k) \notin unitmx ->
  inv_3d_blockmatrix g M = Err LinAlgError.
Proof.
move=> hk u; case: (hM) => [hd hr hc h]; rewrite /inv_3d_blockmatrix hr hc Nat.eqb_refl even_nn /= div2E.
by rewrite (inv_err g block_ul hk u).
Qed.
End BlockInverse.

Lemma inv_block_shape g M : odd (r3 M) \/ r3 M != c3 M -> inv_3d_blockmatrix g M = Err ValueError.
Proof.
rewrite /inv_3d_blockmatrix evenE negbK eqbE.
by move=> [->|/negbTE ->] //=; rewrite orbT.
Qed.

(** ** C20 *)
Lemma trace_dot_ok d n g M1 M2 (f1 f2 : nat -> 'M[R]_(n + n)) : is_arr d M1 f1 -> is_arr d M2 f2 ->
  (forall k, (k < d)%N -> ulsubmx (1%:M - f1 k) \in unitmx) ->
  (forall k, (k < d)%N -> schur (fun k => 1%:M - f1 k) k \in unitmx) ->
  trace_dot_3d g M1 M2 = Ok (List.map (fun k => \tr (invmx (1%:M - f1 k) *m f2 k)) (List.seq 0 d)).
Proof.
move=> [d1 rA cA hA] [d2 rB cB hB] u1 u2; rewrite /trace_dot_3d rA cA Nat.eqb_refl.
have h1 : is_arr d (Arr3 (d3 M1) (n + n) (n + n) (fun k => msub eye (m3 M1 k))) (fun k => 1%:M - f1 k).
  by split=> //= k hk; rewrite msubE hA // -/(mx (n + n) eye) eyeE.
have [I [-> [h [[hd hr hc hI] hinv]]]] := inv_block_ok h1 g u1 u2 => /=.
rewrite hd hr hc d2 rB cB !Nat.eqb_refl /=; congr Ok.
apply: List.map_ext_in => k /List.in_seq hk.
have hk' : (k < d)%N by apply/ltP; lia.
rewrite mtraceE /mx mmulE hI // hB //; have [e _] := hinv k hk'.
have uk : 1%:M - f1 k \in unitmx by have [] := mulmx1_unit e.
have -> // : h k = invmx (1%:M - f1 k).
by apply: (can_inj (mulKmx uk)); rewrite e mulmxV.
Qed.

Lemma trace_linear n (A B C : 'M[R]_n) (a b : R) : \tr (A *m (a *: B + b *: C)) = a * \tr (A *m B) + b * \tr (A *m C).
Proof. by rewrite mulmxDr -!scalemxAr raddfD /= !mxtraceZ. Qed.

(** ** C21 *)
Lemma pwE r A j : mx r (pw r A j) = mxpow (mx r A) j.+1.
Proof.
elim: j => [|j IH]; first by rewrite /pw /mxpow /= mulmx1.
by rewrite -[pw r A j.+1]/(mmul r A (pw r A j)) /mx mmulE -/(mx r A) -/(mx r (pw r A j)) IH.
Qed.
Lemma trpE r A j : trp r A j = \tr (mxpow (mx r A) j.+1).
Proof. by rewrite /trp mtraceE pwE. Qed.
Lemma partE r A N : part r A N = rt_partial (mx r A) N.
Proof.
rewrite /part /rt_partial sumnE big_add1 /= big_mkord.
by apply: eq_bigr => j _; rewrite trpE.
Qed.

Lemma map_seq_ext T d (f g : nat -> T) : (forall k, (k < d)%N -> f k = g k) ->
  List.map f (List.seq 0 d) = List.map g (List.seq 0 d).
Proof. by move=> h; apply: List.map_ext_in => k /List.in_seq hk; apply: h; apply/ltP; lia. Qed.

Lemma roundtrips_int fuel precision d n M f z : @is_arr d n n M f -> Z.le 1 z ->
  arbitrary_roundtrips fuel precision M (OInt z) =
  Some (Ok (Z.to_nat z, List.map (fun k => - rt_partial (f k) (Z.to_nat z)) (List.seq 0 d))).
Proof.
move=> [hd hr hc h] hz; rewrite int_order // hr hd; congr (Some (Ok (_, _))).
by apply: map_seq_ext => k hk; rewrite partE /mx h.
Qed.

Lemma roundtrips_auto fuel precision d n M f N l : @is_arr d n n M f ->
  arbitrary_roundtrips fuel precision M OAuto = Some (Ok (N, l)) ->
  exists terms, [/\ (0 < terms)%N, N = terms.+1,
    l = List.map (fun k => - rt_partial (f k) terms) (List.seq 0 d),
    terms = 1%N -> Rle 1 precision &
    (1 < terms)%N -> (0 < d)%N -> (forall k, (k < d)%N -> rt_partial (f k) terms <> 0) ->
    forall k, (k < d)%N ->
      Rle (Rabs (Rdiv (\tr (mxpow (f k) terms)) (INR terms))) (Rmult precision (Rabs (rt_partial (f k) terms)))].
Proof.
move=> [hd hr hc h] /auto_result; rewrite hd hr => -[q [-> [-> [h2 h3]]]]; exists q.+1; split=> //.
- by apply: map_seq_ext => k hk; rewrite partE /mx h.
- by move=> [e]; apply: h2.
move=> hq hd' hne k hk.
have -> : \tr (mxpow (f k) q.+1) = trp n (m3 M k) q by rewrite trpE /mx h.
have -> : rt_partial (f k) q.+1 = part n (m3 M k) q.+1 by rewrite partE /mx h.
apply: h3; [by move=> e; rewrite e in hq|by apply/ltP| |by apply/ltP].
by move=> j /ltP hj; rewrite partE /mx h //; exact: hne.
Qed.

(** ** C13 *)
Lemma exp_add (x y : R) : exp (Rplus x y) = exp x * exp y.
Proof. exact: exp_plus. Qed.
Lemma exp_neq0 (x : R) : exp x != 0.
Proof. by apply/eqP => h; have := exp_pos x; rewrite h; apply: Rlt_irrefl. Qed.

(** the scaling of one frequency is a similarity by diag(exp(kap * i)), the same in every block *)
Section Scaling.
Context (n ns : nat) (kap : R).
Definition scal (i : nat) : R := exp (Rmult kap (INR i)).
Definition Dm : 'M[R]_n := diag_mx (\row_(i < n) scal i).
Definition Di : 'M[R]_n := diag_mx (\row_(i < n) (scal i)^-1).
Lemma DmDi : Dm *m Di = 1%:M.
Proof.
apply/matrixP => i j; rewrite mul_diag_mx !mxE; case: eqP => // [->|_]; last by rewrite mulr0n mulr0.
by rewrite !mulr1n mulfV // exp_neq0.
Qed.
Lemma DiDm : Di *m Dm = 1%:M.
Proof. exact: mulmx1C DmDi. Qed.
Lemma D4 : block_mx Dm 0 0 Dm *m block_mx Di 0 0 Di = 1%:M.
Proof. by rewrite mulmx_block DmDi !mul0mx !mulmx0 !addr0 add0r [RHS]scalar_mx_block. Qed.
Lemma D4' : block_mx Di 0 0 Di *m block_mx Dm 0 0 Dm = 1%:M.
Proof. exact: mulmx1C D4. Qed.
Lemma conjE (X : 'M[R]_n) i j : (Dm *m X *m Di) i j = scal i * X i j * (scal j)^-1.
Proof. by rewrite mul_mx_diag mul_diag_mx !mxE. Qed.
Lemma conj4 (A B C D : 'M[R]_n) :
  block_mx Dm 0 0 Dm *m block_mx A B C D *m block_mx Di 0 0 Di =
  block_mx (Dm *m A *m Di) (Dm *m B *m Di) (Dm *m C *m Di) (Dm *m D *m Di).
Proof. by rewrite !mulmx_block !mul0mx !mulmx0 !addr0 !add0r. Qed.
End Scaling.

Lemma exp_scale kap (i j : nat) x :
  exp (Rplus (Rmult kap (Rminus (INR i) (INR j))) x) = scal kap i * exp x * (scal kap j)^-1.
Proof.
rewrite /scal -RinvE ?exp_neq0 // -exp_Ropp mulrAC -!exp_add.
by congr exp; ring.
Qed.

Lemma blocks_round_trip n ns e :
  let: (A, B, C, D) := blocks ns (fun i j s => exp (log_skalierung e i j s)) e in
  block_mx (mx n A) (mx n B) (mx n C) (mx n D) = round_trip n ns e.
Proof.
rewrite /round_trip /T1 /V12 /T2 /V21 !mulmx_block !mul0mx !mulmx0 !addr0 !add0r.
congr block_mx; apply/matrixP => i j; rewrite !mxE sumnE -big_split /=; apply: eq_bigr => s _.
all: rewrite !mul_mx_diag !mul_diag_mx !mxE /log_skalierung !exp_add -!RmultE -!RplusE; ring.
Qed.

Lemma blocks_scaled n ns skal skal' e kap :
  (forall i j s, skal' i j s = scal kap i * skal i j s * (scal kap j)^-1) ->
  let: (A, B, C, D) := blocks ns skal e in
  let: (A', B', C', D') := blocks ns skal' e in
  block_mx (mx n A') (mx n B') (mx n C') (mx n D') =
  block_mx (Dm n kap) 0 0 (Dm n kap) *m block_mx (mx n A) (mx n B) (mx n C) (mx n D) *m block_mx (Di n kap) 0 0 (Di n kap).
Proof.
move=> h; rewrite /blocks conj4; congr block_mx; apply/matrixP => i j; rewrite conjE !mxE !sumnE.
all: rewrite mulr_sumr mulr_suml; apply: eq_bigr => s _; rewrite h -!RmultE; ring.
Qed.

Lemma block_arrays_arr nk n ns e :
  let: (A, B, C, D) := block_arrays nk n ns e in
  let: skal := dynamic_scaling n ns (fun k => log_skalierung (e k)) in
  [/\ is_arr nk A (fun k => let: (a, _, _, _) := blocks ns (skal k) (e k) in mx n a),
      is_arr nk B (fun k => let: (_, b, _, _) := blocks ns (skal k) (e k) in mx n b),
      is_arr nk C (fun k => let: (_, _, c, _) := blocks ns (skal k) (e k) in mx n c) &
      is_arr nk D (fun k => let: (_, _, _, d) := blocks ns (skal k) (e k) in mx n d)].
Proof. by []. Qed.

Lemma scaled_round_trip n ns (e : nat -> roundtrip) k :
  exists kap, let: (A, B, C, D) := blocks ns (dynamic_scaling n ns (fun k => log_skalierung (e k)) k) (e k) in
  block_mx (mx n A) (mx n B) (mx n C) (mx n D) =
  block_mx (Dm n kap) 0 0 (Dm n kap) *m round_trip n ns (e k) *m block_mx (Di n kap) 0 0 (Di n kap).
Proof.
have [kap hk] := single_k_form n ns (log_skalierung (e k)); exists kap.
have h : forall i j s, dynamic_scaling n ns (fun k => log_skalierung (e k)) k i j s =
  scal kap i * exp (log_skalierung (e k) i j s) * (scal kap j)^-1.
  by move=> i j s; rewrite /dynamic_scaling hk exp_scale.
have := @blocks_scaled n ns _ _ (e k) kap h; have := blocks_round_trip n ns (e k).
by rewrite /blocks => <- ->.
Qed.

Definition same_diag m (A B : 'M[R]_m) : Prop := forall i, A i i = B i i.

Lemma scaled_similar n ns (e : nat -> roundtrip) k :
  let: (A, B, C, D) := blocks ns (dynamic_scaling n ns (fun k => log_skalierung (e k)) k) (e k) in
  let: X := block_mx (mx n A) (mx n B) (mx n C) (mx n D) in
  similar (round_trip n ns (e k)) X /\ (forall i, X i i = round_trip n ns (e k) i i).
Proof.
have [kap] := scaled_round_trip n ns e k; rewrite /blocks => ->; split.
  by exists (block_mx (Dm n kap) 0 0 (Dm n kap)), (block_mx (Di n kap) 0 0 (Di n kap)); rewrite D4 D4'.
move=> i; rewrite -(submxK (round_trip n ns (e k))) conj4.
have cd : forall X : 'M[R]_n, forall j, (Dm n kap *m X *m Di n kap) j j = X j j.
  by move=> X j; rewrite conjE mulrC mulrA mulVf ?mul1r // exp_neq0.
case: (split_ordP i) => j ->; first by rewrite !block_mxEul cd.
by rewrite !block_mxEdr cd.
Qed.

Lemma supermatrix_round_trip nk n ns e :
  exists M g, [/\ supermatrix (block_arrays nk n ns e) = Ok M, @is_arr nk (n + n) (n + n) M g &
    forall k, (k < nk)%N -> similar (round_trip n ns (e k)) (g k) /\ (forall i, g k i i = round_trip n ns (e k) i i)].
Proof.
have := @block_arrays_arr nk n ns e; rewrite /block_arrays => -[hA hB hC hD].
have [M [eM hM]] := supermatrix_ok hA hB hC hD.
by exists M; eexists; split; [exact: eM|exact: hM|move=> k hk; exact: scaled_similar].
Qed.

Lemma lndet_round_trip nk n ns e conv : Rlt conv 1 ->
  exists N, forall fuel, (N <= fuel)%N ->
  let: (A, B, C, D) := block_arrays nk n ns e in
  exists M, matrix_append [:: A; B; C; D] = Ok M /\
  balanced_slogdet fuel conv M =
    Some (Ok (List.map (fun k => ln_abs_det (1%:M - round_trip n ns (e k))) (List.seq 0 nk))).
Proof.
move=> hc; have [M [g [eM hM hg]]] := supermatrix_round_trip nk n ns e.
have [N hN] := balanced_slogdet_total hc hM.
exists N => fuel hf; rewrite /block_arrays; exists M; split.
  by rewrite matrix_append_super // /shape3_eqb /= !Nat.eqb_refl.
case: (balanced_slogdet_spec fuel conv hM) => [h|->]; first by have := hN fuel hf; rewrite h.
congr (Some (Ok _)); apply: map_seq_ext => k hk; have [s _] := hg k hk.
by rewrite /ln_abs_det (similar_det (similar_1m s)).
Qed.

(** shapes that single_k_scale accepts *)
Lemma scale_ok nk n ns e : (0 < n)%N -> n = 1%N \/ (0 < ns)%N -> blockmatrices nk n ns e = Ok (block_arrays nk n ns e).
Proof.
move=> hn hs; rewrite /blockmatrices /scale_shape.
case: Nat.eqb_spec => // _; case: Nat.eqb_spec => //= n1; case: Nat.eqb_spec => [n0|_]; first by rewrite n0 in hn.
by case: Nat.eqb_spec => // s0; case: hs => [//|]; rewrite s0.
Qed.
