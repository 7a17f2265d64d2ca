(** * Properties C13-C15, C17-C21 and C54: linear algebra of geometry.py, matrix_balancing.pyx *)
From Coq Require Import Reals Lra Lia.
From mathcomp Require Import all_ssreflect ssralg matrix mxalgebra poly mxpoly.
From Verif Require Import Base RStruct Lin_Model Lin_Spec Bal_Proofs Lin_Proofs Trip_Proofs Lin_Proofs2 Force_Proofs.
Set Implicit Arguments.
Unset Strict Implicit.
Import GRing.Theory.
Local Open Scope ring_scope.
Delimit Scope R_scope with Re.

(** ** C13 *)

(** The array built from the scaled blocks is, for every frequency, similar to the round-trip
    operator T1 V12 T2 V21 in both polarizations; powers have the same trace, det(1-M), the
    characteristic polynomial and the diagonal are the same. *)
Theorem C13_scaled_round_trip : forall nk n ns (e : nat -> roundtrip), (0 < n)%N -> n = 1%N \/ (0 < ns)%N ->
  exists Ms M g, [/\ blockmatrices nk n ns e = Ok Ms, supermatrix Ms = Ok M, @is_arr nk (n + n) (n + n) M g &
    forall k, (k < nk)%N -> let: U := round_trip n ns (e k) in
      [/\ similar U (g k),
          forall p, \tr (mxpow (g k) p) = \tr (mxpow U p),
          \det (1%:M - g k) = \det (1%:M - U),
          char_poly (g k) = char_poly U &
          forall i, g k i i = U i i]].
Proof.
move=> nk n ns e hn hs; have [M [g [eM hM hg]]] := supermatrix_round_trip nk n ns e.
exists (block_arrays nk n ns e), M, g; split=> //; first exact: scale_ok.
move=> k hk; have [s d] := hg k hk; split=> //.
- by move=> p; apply: similar_tr; apply: similar_pow.
- exact: similar_det (similar_1m s).
- exact: similar_char s.
Qed.
Print Assumptions C13_scaled_round_trip.

(** single_k_scale adds a multiple of l1 - l2 to the logarithms, the same multiple for all lss *)
Theorem C13_single_k_scale : forall n ns (M : arr_log), exists kap, forall i j s,
  single_k_scale n ns M i j s = (kap * (INR i - INR j) + M i j s)%Re.
Proof. exact single_k_form. Qed.
Print Assumptions C13_single_k_scale.

(** and dynamic_scaling exponentiates that, frequency by frequency *)
Theorem C13_dynamic_scaling : forall n ns (M : nat -> arr_log) k, exists kap, forall i j s,
  dynamic_scaling n ns M k i j s = exp (kap * (INR i - INR j) + M k i j s)%Re.
Proof.
move=> n ns M k; have [kap h] := single_k_form n ns (M k); exists kap => i j s.
by rewrite /dynamic_scaling h.
Qed.
Print Assumptions C13_dynamic_scaling.

(** end to end: balanced_slogdet(matrix_append(blockmatrices)) is ln |det(1 - T1 V12 T2 V21)| *)
Theorem C13_lndet_of_round_trip : forall nk n ns (e : nat -> roundtrip) conv, (conv < 1)%Re -> (0 < n)%N -> n = 1%N \/ (0 < ns)%N ->
  exists N, forall fuel, (N <= fuel)%N ->
  exists A B C D M, blockmatrices nk n ns e = Ok (A, B, C, D) /\ matrix_append [:: A; B; C; D] = Ok M /\
  balanced_slogdet fuel conv M =
    Some (Ok (List.map (fun k => ln_abs_det (1%:M - round_trip n ns (e k))) (List.seq 0 nk))).
Proof.
move=> nk n ns e conv hc hn hs; have [N h] := lndet_round_trip nk n ns e hc.
exists N => fuel hf; have := h fuel hf; rewrite /block_arrays => -[M [eM hM]].
by do 4 eexists; exists M; split; [rewrite scale_ok|split; [exact: eM|]].
Qed.
Print Assumptions C13_lndet_of_round_trip.

(** without orders on one side the scaling step raises, except for a single order of the first sphere *)
Theorem C13_no_orders : forall nk n ns (e : nat -> roundtrip), (0 < nk)%N ->
  (n = 0%N -> blockmatrices nk n ns e = Err IndexError) /\ ((1 < n)%N -> ns = 0%N -> blockmatrices nk n ns e = Err ValueError).
Proof.
move=> nk n ns e hk; rewrite /blockmatrices /scale_shape; case: Nat.eqb_spec => [k0|_]; first by rewrite k0 in hk.
by split=> [->//|]; case: n => [//|[//|n]] _ ->.
Qed.
Print Assumptions C13_no_orders.

(** the scaling is not trivial *)
Example C13_ex_scaling : exists M, single_k_scale 2 1 M 1%N 0%N 0%N <> M 1%N 0%N 0%N.
Proof.
exists (fun _ j _ => (3 * INR j)%Re); rewrite /single_k_scale /=.
case: Rltb_spec; rewrite /Rmax; case: Rle_dec => /=; try lra; move=> _ _.
by rewrite Rabs_left; lra.
Qed.

(** ** C14 *)
Theorem C14_balance_similar : forall fuel conv n (A B : mat), balance fuel conv n A = Some B ->
  [/\ pow2_similar (mx n A) (mx n B), \det (mx n B) = \det (mx n A), char_poly (mx n B) = char_poly (mx n A),
      forall i, mx n B i i = mx n A i i & forall i j, (mx n B i j == 0) = (mx n A i j == 0)].
Proof.
move=> fuel conv n A B h; have p := balance_pow2_similar h; have s := pow2_similar_similar p.
have [d z] := pow2_similar_diag p; split=> //; [exact: similar_det s|exact: similar_char s].
Qed.
Print Assumptions C14_balance_similar.

(** the argument object is overwritten with the result and returned; other objects stay as they were *)
Theorem C14_argument_overwritten : forall fuel conv n (h : mheap) (a : nat) h' a',
  balance_obj fuel conv n h a = Some (h', a') ->
  [/\ a' = a, balance fuel conv n (h a) = Some (h' a) & forall b, b <> a -> h' b = h b].
Proof.
move=> fuel conv n h a h' a'; rewrite /balance_obj; case e: (balance _ _ _ _) => [B|] // [<- <-].
split=> //; first by rewrite Nat.eqb_refl.
by move=> b hb; case: (Nat.eqb_spec b a).
Qed.
Print Assumptions C14_argument_overwritten.

(** a matrix that is really changed *)
Definition lopsided : mat := fun i j => match i, j with 0%N, 1%N => 16 | 1%N, 0%N => 1 | _, _ => 0 end%Re.
Lemma lopsided_off : offcol 2 lopsided 0 = 1%Re /\ offrow 2 lopsided 0 = 256%Re.
Proof. by have [-> [-> _]] := off2 lopsided; rewrite /lopsided; split; lra. Qed.
Example C14_ex : exists fuel B, balance fuel 0.9 2 lopsided = Some B /\ mx 2 B <> mx 2 lopsided.
Proof.
have [N [B h]] := balance_terminates 0.9 2 lopsided ltac:(lra).
exists N, B; split; first by apply: h; lia.
move=> e.
have st := balance_stop N 0.9 2 lopsided B 0 (h N ltac:(lia)) ltac:(lia).
have hB : forall i j, (i < 2)%N -> (j < 2)%N -> B i j = lopsided i j.
  by move=> i j hi hj; have /matrixP /(_ (Ordinal hi) (Ordinal hj)) := e; rewrite !mxE.
have [o1 [o2 _]] := off2 B; move: o1 o2; rewrite !hB // => o1 o2.
have p4 : 4%Re = powerRZ 2 2 by rewrite /powerRZ /=; lra.
case: st => [[]|]; rewrite ?o1 ?o2 /lopsided; try lra.
by move=> /(_ 4%Re (ex_intro _ 2%Z p4)); lra.
Qed.

(** ** C15 *)
Theorem C15_terminates : forall conv n (A : mat), (conv < 1)%Re ->
  exists N B, forall fuel, (N <= fuel)%N -> balance fuel conv n A = Some B.
Proof.
move=> conv n A hc; have [N [B h]] := balance_terminates conv n A hc.
by exists N, B => fuel /leP; apply: h.
Qed.
Print Assumptions C15_terminates.

(** squared norms of column and row i without the diagonal element *)
Definition col_norm2 n (A : 'M[R]_n) (i : 'I_n) : R := \sum_(j < n | j != i) A j i ^+ 2.
Definition row_norm2 n (A : 'M[R]_n) (i : 'I_n) : R := \sum_(j < n | j != i) A i j ^+ 2.
Lemma offcolE n A (i : 'I_n) : offcol n A i = col_norm2 (mx n A) i.
Proof.
rewrite /offcol /col_norm2 sumnE [RHS]big_mkcond; apply: eq_bigr => j _; rewrite mxE eqbE.
by rewrite -val_eqE; case: (_ == _) => //; rewrite Rabs_sq RpowE.
Qed.
Lemma offrowE n A (i : 'I_n) : offrow n A i = row_norm2 (mx n A) i.
Proof.
rewrite /offrow /row_norm2 sumnE [RHS]big_mkcond; apply: eq_bigr => j _; rewrite mxE eqbE.
by rewrite -val_eqE; case: (_ == _) => //; rewrite Rabs_sq RpowE.
Qed.

(** In the result every row/column pair is numerically zero or cannot be improved by more than the
    factor conv with any power of two; balancing again changes nothing. *)
Theorem C15_stopping_condition : forall fuel conv n (A B : mat), balance fuel conv n A = Some B ->
  balance fuel conv n B = Some B /\
  forall i : 'I_n, let c := col_norm2 (mx n B) i in let r := row_norm2 (mx n B) i in
    (r <= 1e-320)%Re \/ (c <= 1e-320)%Re \/
    forall z : Z, (conv * (c + r) <= c * powerRZ 4 z + r / powerRZ 4 z)%Re.
Proof.
move=> fuel conv n A B h; split; first exact: balance_again h.
move=> i c r; rewrite /c /r -offcolE -offrowE.
have [[h1|h1]|h1] := balance_stop fuel conv n A B i h ltac:(by apply/ltP; exact: ltn_ord); [by left|by right; left|].
right; right=> z; have := h1 (powerRZ 2 z) (ex_intro _ z erefl).
by rewrite pow4_z.
Qed.
Print Assumptions C15_stopping_condition.

(** conv > 1: no two-by-two matrix with two non-negligible off-diagonal elements is ever finished *)
Theorem C15_conv_above_one_never_returns : forall conv (A : mat) fuel, (1 < conv)%Re ->
  (1e-320 < A 0%N 1%N ^ 2)%Re -> (1e-320 < A 1%N 0%N ^ 2)%Re -> balance fuel conv 2 A = None.
Proof. by move=> conv A fuel hc h1 h2; apply: balance_diverges. Qed.
Print Assumptions C15_conv_above_one_never_returns.
Example C15_ex : (1 < 1.5)%Re /\ (1e-320 < lopsided 0%N 1%N ^ 2)%Re /\ (1e-320 < lopsided 1%N 0%N ^ 2)%Re.
Proof. rewrite /lopsided; split; [lra|split; lra]. Qed.

(** ** C17 *)
Theorem C17_balanced_slogdet : forall fuel conv d n M (f : nat -> 'M[R]_n), is_arr d M f ->
  balanced_slogdet fuel conv M = None \/
  balanced_slogdet fuel conv M = Some (Ok (List.map (fun k => ln_abs_det (1%:M - f k)) (List.seq 0 d))).
Proof. exact balanced_slogdet_spec. Qed.
Print Assumptions C17_balanced_slogdet.
Theorem C17_balanced_slogdet_returns : forall conv d n M (f : nat -> 'M[R]_n), (conv < 1)%Re -> is_arr d M f ->
  exists N, forall fuel, (N <= fuel)%N -> balanced_slogdet fuel conv M <> None.
Proof. exact balanced_slogdet_total. Qed.
Print Assumptions C17_balanced_slogdet_returns.
Theorem C17_balanced_slogdet_not_square : forall fuel conv M, r3 M <> c3 M ->
  balanced_slogdet fuel conv M = Some (Err AssertionError).
Proof. by move=> fuel conv M h; rewrite /balanced_slogdet; case: Nat.eqb_spec. Qed.
Print Assumptions C17_balanced_slogdet_not_square.

Theorem C17_sln_det_3d : forall fuel conv d n A B C D (fa fb fc fd : nat -> 'M[R]_n),
  is_arr d A fa -> is_arr d B fb -> is_arr d C fc -> is_arr d D fd ->
  sln_det_3d fuel conv A B C D = None \/
  sln_det_3d fuel conv A B C D =
    Some (Ok (List.map (fun k => ln_abs_det (1%:M - block_mx (fa k) (fb k) (fc k) (fd k))) (List.seq 0 d))).
Proof. exact sln_det_3d_spec. Qed.
Print Assumptions C17_sln_det_3d.
Theorem C17_sln_det_3d_returns : forall conv d n A B C D (fa fb fc fd : nat -> 'M[R]_n), (conv < 1)%Re ->
  is_arr d A fa -> is_arr d B fb -> is_arr d C fc -> is_arr d D fd ->
  exists N, forall fuel, (N <= fuel)%N -> sln_det_3d fuel conv A B C D <> None.
Proof. exact sln_det_3d_total. Qed.
Print Assumptions C17_sln_det_3d_returns.
Theorem C17_sln_det_3d_shape : forall fuel conv A B C D,
  ~ ([/\ d3 A = d3 B, r3 A = r3 B & c3 A = c3 B] /\ [/\ d3 B = d3 C, r3 B = r3 C & c3 B = c3 C] /\
     [/\ d3 C = d3 D, r3 C = r3 D & c3 C = c3 D]) ->
  sln_det_3d fuel conv A B C D = Some (Err ValueError).
Proof.
move=> fuel conv A B C D h; apply: sln_det_3d_shape; apply/negP; rewrite /shape3_eqb !eqbE => hs; apply: h.
by move: hs => /andP [/andP [/andP [/andP [/eqP -> /eqP ->] /eqP ->] /andP [/andP [/eqP -> /eqP ->] /eqP ->]] /andP [/andP [/eqP -> /eqP ->] /eqP ->]].
Qed.
Print Assumptions C17_sln_det_3d_shape.

Theorem C17_blockdiagonal : forall fuel conv n A B (fa fb : 'M[R]_n), (n <> 1)%N -> is_arr2 A fa -> is_arr2 B fb ->
  sln_det_blockdiagonal fuel conv A B = None \/
  sln_det_blockdiagonal fuel conv A B =
    Some (Ok (xadd (ln_abs_det (1%:M - fb)) (ln_abs_det (1%:M - fa)))).
Proof. exact blockdiag_spec. Qed.
Print Assumptions C17_blockdiagonal.
Theorem C17_blockdiagonal_returns : forall conv n A B (fa fb : 'M[R]_n), (conv < 1)%Re -> is_arr2 A fa -> is_arr2 B fb ->
  exists N, forall fuel, (N <= fuel)%N -> sln_det_blockdiagonal fuel conv A B <> None.
Proof. exact blockdiag_total. Qed.
Print Assumptions C17_blockdiagonal_returns.
Theorem C17_blockdiagonal_shape : forall fuel conv A B, r2 A <> r2 B \/ c2 A <> c2 B ->
  sln_det_blockdiagonal fuel conv A B = Some (Err ValueError).
Proof. by move=> fuel conv A B [/eqP h|/eqP h]; apply: blockdiag_shape; [left|right]. Qed.
Print Assumptions C17_blockdiagonal_shape.

Lemma scal1 (a : R) : 1%:M - a%:M = (1 - a)%:M :> 'M[R]_1.
Proof. by rewrite raddfB. Qed.
(** 1x1 blocks: the specified value as long as (1-a)(1-b) > 0 ... *)
Theorem C17_blockdiagonal_1x1 : forall fuel conv A B (a b : R), @is_arr2 1 1 A a%:M -> @is_arr2 1 1 B b%:M ->
  (0 < (1 - a) * (1 - b))%Re ->
  sln_det_blockdiagonal fuel conv A B = Some (Ok (xadd (ln_abs_det (1%:M - b%:M : 'M[R]_1)) (ln_abs_det (1%:M - a%:M : 'M[R]_1)))).
Proof.
move=> fuel conv A B a b hA hB h; rewrite (blockdiag_1x1 fuel conv hA hB) !scal1 /ln_abs_det !det_scalar1 /nplog.
have ha : (1 - a)%Re <> 0%Re by move=> e; rewrite e in h; lra.
have hb : (1 - b)%Re <> 0%Re by move=> e; rewrite e in h; lra.
case: eqP => [//|_]; case: eqP => [//|_] /=.
case: Reqb_spec => h0; first by rewrite [X in (0 < X)%Re]h0 in h; lra.
case: Rltb_spec => h1; first by have := Rlt_trans _ _ _ h h1; lra.
congr (Some (Ok (Fin _))); rewrite -RplusE -ln_mult; [|exact: Rabs_pos_lt|exact: Rabs_pos_lt].
by rewrite -Rabs_mult Rabs_pos_eq; [congr ln; rewrite Rmult_comm|rewrite Rmult_comm; left].
Qed.
Print Assumptions C17_blockdiagonal_1x1.
(** ... but NaN instead of ln|1-a| + ln|1-b| whenever the product is negative *)
Theorem C17_blockdiagonal_1x1_refuted : forall fuel conv A B (a b : R), @is_arr2 1 1 A a%:M -> @is_arr2 1 1 B b%:M ->
  ((1 - a) * (1 - b) < 0)%Re -> sln_det_blockdiagonal fuel conv A B = Some (Ok NaN).
Proof.
move=> fuel conv A B a b hA hB h; rewrite (blockdiag_1x1 fuel conv hA hB) /nplog.
case: Reqb_spec => h0; first by rewrite [X in (X < 0)%Re]h0 in h; lra.
by case: Rltb_spec.
Qed.
Print Assumptions C17_blockdiagonal_1x1_refuted.

Definition const2 (x : R) : arr2 := Arr2 1 1 (fun _ _ => x).
Lemma const2_arr x : @is_arr2 1 1 (const2 x) x%:M.
Proof. by split=> //; apply/matrixP => i j; rewrite !mxE !ord1. Qed.
Example C17_ex_1x1 : exists a b, @is_arr2 1 1 (const2 a) a%:M /\ @is_arr2 1 1 (const2 b) b%:M /\ ((1 - a) * (1 - b) < 0)%Re.
Proof. by exists 2%Re, 0%Re; split; [exact: const2_arr|split; [exact: const2_arr|lra]]. Qed.
(** every function of the indices is a stack *)
Example C17_ex_stack : forall d n m, is_arr d (Arr3 d n n m) (fun k => mx n (m k)).
Proof. by []. Qed.

(** ** C18 *)
Theorem C18_matrix_append : forall d p q A B C D (fa fb fc fd : nat -> 'M[R]_(p, q)),
  is_arr d A fa -> is_arr d B fb -> is_arr d C fc -> is_arr d D fd ->
  exists M, [/\ matrix_append [:: A; B; C; D] = Ok M, supermatrix (A, B, C, D) = Ok M &
    is_arr d M (fun k => block_mx (fa k) (fb k) (fc k) (fd k))].
Proof.
move=> d p q A B C D fa fb fc fd hA hB hC hD.
rewrite (matrix_append_super (shape_refl hA hB) (shape_refl hB hC) (shape_refl hC hD)).
by have [M [e h]] := supermatrix_ok hA hB hC hD; exists M.
Qed.
Print Assumptions C18_matrix_append.
(** entry by entry *)
Theorem C18_entries : forall A B C D M, matrix_append [:: A; B; C; D] = Ok M ->
  let n := r3 A in let q := c3 A in
  [/\ d3 M = d3 A, r3 M = (n + n)%N, c3 M = (q + q)%N &
  forall k i j, (i < n)%N -> (j < q)%N ->
  [/\ m3 M k i j = m3 A k i j, m3 M k i (q + j)%N = m3 B k i j,
      m3 M k (n + i)%N j = m3 C k i j & m3 M k (n + i)%N (q + j)%N = m3 D k i j]].
Proof.
move=> A B C D M /append_entries [h1 [h2 [h3 h4]]] n q; split=> // k i j /ltP hi /ltP hj.
by have [e1 [e2 [e3 e4]]] := h4 k i j hi hj.
Qed.
Print Assumptions C18_entries.
Theorem C18_wrong_length : forall l, size l <> 4%N -> matrix_append l = Err AssertionError.
Proof. by move=> l /eqP; apply: matrix_append_err. Qed.
Print Assumptions C18_wrong_length.
Theorem C18_wrong_shape : forall A B C D,
  ~ ([/\ d3 A = d3 B, r3 A = r3 B & c3 A = c3 B] /\ [/\ d3 B = d3 C, r3 B = r3 C & c3 B = c3 C] /\
     [/\ d3 C = d3 D, r3 C = r3 D & c3 C = c3 D]) ->
  matrix_append [:: A; B; C; D] = Err AssertionError.
Proof.
move=> A B C D h; apply: matrix_append_shape; apply/negP; rewrite /shape3_eqb !eqbE => hs; apply: h.
by move: hs => /andP [/andP [/andP [/andP [/eqP -> /eqP ->] /eqP ->] /andP [/andP [/eqP -> /eqP ->] /eqP ->]] /andP [/andP [/eqP -> /eqP ->] /eqP ->]].
Qed.
Print Assumptions C18_wrong_shape.
Example C18_ex : exists A B C D, is_arr 2 A (fun k => (INR k)%:M : 'M[R]_1) /\ is_arr 2 B (fun k => (INR k.+1)%:M : 'M[R]_1) /\
  is_arr 2 C (fun k => (INR k.+2)%:M : 'M[R]_1) /\ is_arr 2 D (fun k => (INR k.+3)%:M : 'M[R]_1).
Proof.
exists (Arr3 2 1 1 (fun k _ _ => INR k)), (Arr3 2 1 1 (fun k _ _ => INR k.+1)), (Arr3 2 1 1 (fun k _ _ => INR k.+2)), (Arr3 2 1 1 (fun k _ _ => INR k.+3)).
by do ![split=> //] => k hk; apply/matrixP => i j; rewrite !mxE !ord1.
Qed.

(** ** C19 *)
Theorem C19_block_inverse : forall d n g M (f : nat -> 'M[R]_(n + n)), is_arr d M f ->
  (forall k, (k < d)%N -> ulsubmx (f k) \in unitmx) ->
  (forall k, (k < d)%N -> drsubmx (f k) - dlsubmx (f k) *m invmx (ulsubmx (f k)) *m ursubmx (f k) \in unitmx) ->
  exists I h, [/\ inv_3d_blockmatrix g M = Ok I, is_arr d I h &
    forall k, (k < d)%N -> f k *m h k = 1%:M /\ h k *m f k = 1%:M].
Proof.
move=> d n g M f hM u1 u2; have [I [e [h [h1 h2]]]] := inv_block_ok hM g u1 u2.
by exists I, h.
Qed.
Print Assumptions C19_block_inverse.
Theorem C19_shape : forall g M, odd (r3 M) \/ r3 M <> c3 M -> inv_3d_blockmatrix g M = Err ValueError.
Proof. by move=> g M [h|/eqP h]; apply: inv_block_shape; [left|right]. Qed.
Print Assumptions C19_shape.
Theorem C19_singular_block : forall d n g M (f : nat -> 'M[R]_(n + n)) k, is_arr d M f -> (k < d)%N ->
  ulsubmx (f k) \notin unitmx -> inv_3d_blockmatrix g M = Err LinAlgError.
Proof. by move=> d n g M f k hM; apply: inv_block_singular. Qed.
Print Assumptions C19_singular_block.

(** an invertible matrix (of any size) that is rejected *)
Theorem C19_invertible_rejected : forall n g, exists M (f : nat -> 'M[R]_(n.+1 + n.+1)),
  [/\ is_arr 1 M f, f 0%N \in unitmx & inv_3d_blockmatrix g M = Err LinAlgError].
Proof.
move=> n g.
pose X : 'M[R]_(n.+1 + n.+1) := block_mx 0 1%:M 1%:M 0.
pose M := Arr3 1 (n.+1 + n.+1) (n.+1 + n.+1) (fun _ i j => X (inord i) (inord j)).
have hM : is_arr 1 M (fun=> X).
  by split=> //= k _; apply/matrixP => i j; rewrite mxE !inord_val.
exists M, (fun=> X); split=> //.
- have e : X *m X = 1%:M by rewrite mulmx_block !mul0mx !mulmx0 !mul1mx !addr0 add0r [RHS]scalar_mx_block.
  by have [] := mulmx1_unit e.
- by apply: (inv_block_singular hM g (k := 0%N)) => //; rewrite block_mxKul unitmxE unitfE det0 eqxx.
Qed.
Print Assumptions C19_invertible_rejected.
Example C19_ex : exists M (f : nat -> 'M[R]_(1 + 1)), [/\ is_arr 1 M f, ulsubmx (f 0%N) \in unitmx &
  drsubmx (f 0%N) - dlsubmx (f 0%N) *m invmx (ulsubmx (f 0%N)) *m ursubmx (f 0%N) \in unitmx].
Proof.
pose M := Arr3 1 2 2 (fun _ => eye); exists M, (fun=> 1%:M); split.
- by split=> // k _; exact: (eyeE (1 + 1)).
- by rewrite [X in ulsubmx X]scalar_mx_block block_mxKul unitmx1.
- by rewrite [1%:M]scalar_mx_block block_mxKul block_mxKur block_mxKdl block_mxKdr mul0mx mul0mx subr0 unitmx1.
Qed.

(** ** C20 *)
Theorem C20_trace_dot : forall d n g M1 M2 (f1 f2 : nat -> 'M[R]_(n + n)), is_arr d M1 f1 -> is_arr d M2 f2 ->
  (forall k, (k < d)%N -> ulsubmx (1%:M - f1 k) \in unitmx) ->
  (forall k, (k < d)%N -> drsubmx (1%:M - f1 k) - dlsubmx (1%:M - f1 k) *m invmx (ulsubmx (1%:M - f1 k)) *m ursubmx (1%:M - f1 k) \in unitmx) ->
  trace_dot_3d g M1 M2 = Ok (List.map (fun k => \tr (invmx (1%:M - f1 k) *m f2 k)) (List.seq 0 d)).
Proof. by move=> d n g M1 M2 f1 f2 h1 h2 u1 u2; apply: trace_dot_ok. Qed.
Print Assumptions C20_trace_dot.
Theorem C20_linear : forall d n g M1 M2 M2' M3 (f1 f2 f2' : nat -> 'M[R]_(n + n)) (a b : R),
  is_arr d M1 f1 -> is_arr d M2 f2 -> is_arr d M2' f2' -> is_arr d M3 (fun k => a *: f2 k + b *: f2' k) ->
  (forall k, (k < d)%N -> ulsubmx (1%:M - f1 k) \in unitmx) ->
  (forall k, (k < d)%N -> drsubmx (1%:M - f1 k) - dlsubmx (1%:M - f1 k) *m invmx (ulsubmx (1%:M - f1 k)) *m ursubmx (1%:M - f1 k) \in unitmx) ->
  exists t t' : nat -> R, [/\ trace_dot_3d g M1 M2 = Ok (List.map t (List.seq 0 d)),
    trace_dot_3d g M1 M2' = Ok (List.map t' (List.seq 0 d)) &
    trace_dot_3d g M1 M3 = Ok (List.map (fun k => a * t k + b * t' k) (List.seq 0 d))].
Proof.
move=> d n g M1 M2 M2' M3 f1 f2 f2' a b h1 h2 h2' h3 u1 u2.
exists (fun k => \tr (invmx (1%:M - f1 k) *m f2 k)), (fun k => \tr (invmx (1%:M - f1 k) *m f2' k)).
rewrite (trace_dot_ok g h1 h2 u1 u2) (trace_dot_ok g h1 h2' u1 u2) (trace_dot_ok g h1 h3 u1 u2).
by split=> //; congr Ok; apply: map_seq_ext => k hk; rewrite trace_linear.
Qed.
Print Assumptions C20_linear.
Example C20_ex : exists M (f : nat -> 'M[R]_(1 + 1)), [/\ is_arr 1 M f, ulsubmx (1%:M - f 0%N) \in unitmx &
  drsubmx (1%:M - f 0%N) - dlsubmx (1%:M - f 0%N) *m invmx (ulsubmx (1%:M - f 0%N)) *m ursubmx (1%:M - f 0%N) \in unitmx].
Proof.
exists (Arr3 1 2 2 (fun _ _ _ => 0%Re)), (fun=> 0); split.
- by split=> // k _; apply/matrixP => i j; rewrite !mxE.
- by rewrite subr0 [X in ulsubmx X]scalar_mx_block block_mxKul unitmx1.
- by rewrite subr0 [1%:M]scalar_mx_block block_mxKul block_mxKur block_mxKdl block_mxKdr mul0mx mul0mx subr0 unitmx1.
Qed.

(** ** C21 *)
Theorem C21_int_order : forall fuel precision d n M (f : nat -> 'M[R]_n) z, is_arr d M f -> Z.le 1 z ->
  arbitrary_roundtrips fuel precision M (OInt z) =
  Some (Ok (Z.to_nat z, List.map (fun k => - rt_partial (f k) (Z.to_nat z)) (List.seq 0 d))).
Proof. exact roundtrips_int. Qed.
Print Assumptions C21_int_order.
(** order 0, negative orders and anything that is neither an int nor "automatic" raise *)
Theorem C21_bad_order : forall fuel precision M z, Z.lt z 1 ->
  arbitrary_roundtrips fuel precision M (OInt z) = Some (Err UnboundLocalError) /\
  arbitrary_roundtrips fuel precision M OOther = Some (Err UnboundLocalError).
Proof. by move=> fuel precision M z h; split=> //; apply: int_order_bad. Qed.
Print Assumptions C21_bad_order.
(** automatic mode: the sum of the first [terms] terms; the last one is below precision relative to
    the sum, for every frequency (unless precision >= 1, where one term is taken).  The number
    recorded in roundTrip_dct is terms + 1: *)
Theorem C21_automatic_records_one_too_many_refuted : forall fuel precision d n M (f : nat -> 'M[R]_n) N l, is_arr d M f ->
  arbitrary_roundtrips fuel precision M OAuto = Some (Ok (N, l)) ->
  exists terms, [/\ (0 < terms)%N, N = terms.+1,
    l = List.map (fun k => - rt_partial (f k) terms) (List.seq 0 d),
    terms = 1%N -> (1 <= precision)%Re &
    (1 < terms)%N -> (0 < d)%N -> (forall k, (k < d)%N -> rt_partial (f k) terms <> 0) ->
    forall k, (k < d)%N ->
      (Rabs (\tr (mxpow (f k) terms) / INR terms) <= precision * Rabs (rt_partial (f k) terms))%Re].
Proof. exact roundtrips_auto. Qed.
Print Assumptions C21_automatic_records_one_too_many_refuted.
(** automatic mode returns for positive precision when the traces are bounded and non-negative and
    the first ones positive; it never returns for a negative precision *)
Theorem C21_automatic_returns : forall d n M (f : nat -> 'M[R]_n) (t B precision : R), is_arr d M f -> (0 < d)%N ->
  (0 < t)%Re -> (0 < precision)%Re ->
  (forall k, (k < d)%N -> (t <= \tr (f k))%Re) ->
  (forall k j, (k < d)%N -> (0 < j)%N -> (0 <= \tr (mxpow (f k) j) <= B)%Re) ->
  exists N, forall fuel, (N <= fuel)%N -> exists r, arbitrary_roundtrips fuel precision M OAuto = Some (Ok r).
Proof.
move=> d n M f t B precision [hd hr hc h] d0 ht hp h1 h2.
have tr1 : forall j k, (k < d3 M)%coq_nat -> trp (r3 M) (m3 M k) j = \tr (mxpow (f k) j.+1).
  by move=> j k /ltP hk; rewrite hd in hk; rewrite hr trpE /mx h.
have [||||N hN] := @auto_terminates M t B ht _ _ _ _ precision hp.
- by rewrite hd; apply/ltP.
- move=> k hk; rewrite tr1 // /mxpow /= mulmx1; apply: h1; rewrite -hd; exact/ltP.
- by move=> k j hk; rewrite tr1 //; have [] := h2 k j.+1 ltac:(by rewrite -hd; apply/ltP) erefl.
- by move=> k j hk; rewrite tr1 //; have [] := h2 k j.+1 ltac:(by rewrite -hd; apply/ltP) erefl.
by exists N => fuel /leP hf; have [m [l ->]] := hN fuel hf; exists (m, l).
Qed.
Print Assumptions C21_automatic_returns.
Theorem C21_negative_precision_never_returns : forall d n M (f : nat -> 'M[R]_n) (t precision : R) fuel, is_arr d M f -> (0 < d)%N ->
  (0 < t)%Re -> (precision < 0)%Re ->
  (forall k, (k < d)%N -> (t <= \tr (f k))%Re) ->
  (forall k j, (k < d)%N -> (0 < j)%N -> (0 <= \tr (mxpow (f k) j))%Re) ->
  arbitrary_roundtrips fuel precision M OAuto = None.
Proof.
move=> d n M f t precision fuel [hd hr hc h] d0 ht hp h1 h2.
have tr1 : forall j k, (k < d3 M)%coq_nat -> trp (r3 M) (m3 M k) j = \tr (mxpow (f k) j.+1).
  by move=> j k /ltP hk; rewrite hd in hk; rewrite hr trpE /mx h.
apply: (@auto_never M t ht) => //.
- by rewrite hd; apply/ltP.
- move=> k hk; rewrite tr1 // /mxpow /= mulmx1; apply: h1; rewrite -hd; exact/ltP.
- by move=> k j hk; rewrite tr1 //; apply: h2 => //; rewrite -hd; apply/ltP.
Qed.
Print Assumptions C21_negative_precision_never_returns.

(** the one by one matrix 1/2 *)
Lemma half_pow j : \tr (mxpow ((1 / 2)%Re%:M : 'M[R]_1) j) = ((1 / 2) ^ j)%Re.
Proof.
have -> : mxpow ((1 / 2)%Re%:M : 'M[R]_1) j = ((1 / 2) ^ j)%Re%:M.
  elim: j => [|j IH]; first by rewrite /mxpow /=; congr (_%:M).
  by rewrite /mxpow /= -/(mxpow _ _) IH -scalar_mxM.
by rewrite mxtrace_scalar.
Qed.
Example C21_ex : exists M, let f := fun _ : nat => ((1 / 2)%Re%:M : 'M[R]_1) in
  [/\ is_arr 1 M f, forall k, (k < 1)%N -> (1 / 2 <= \tr (f k))%Re &
  forall k j, (k < 1)%N -> (0 < j)%N -> (0 <= \tr (mxpow (f k) j) <= 1)%Re].
Proof.
exists (Arr3 1 1 1 (fun _ _ _ => (1 / 2)%Re)); split.
- by split=> // k _; apply/matrixP => i j; rewrite !mxE !ord1.
- by move=> k _; rewrite mxtrace_scalar; right.
- move=> k j _ _; rewrite half_pow; split; first by apply: pow_le; lra.
  by rewrite -[X in (_ <= X)%Re](pow1 j); apply: pow_incr; lra.
Qed.

(** ** C54: the matrices of the force evaluation *)

(** for m > 0 the two diagonal blocks of blockmatrices with forceFlag are the L-derivatives of the
    blocks (at fixed Mie coefficients and scale factors) *)
Theorem C54_diagonal_blocks : forall m ns skal e v d L i j, derivs_at v L d -> m <> 0%N ->
  nonzero (w0 v L) -> nonzero (w1 v L) -> nonzero (w2 v L) -> nonzero (w3 v L) ->
  derivable_pt_lim (fun x => EE (blocks ns skal (at_L e v x)) i j) L (EE (blocks_force m ns skal (at_L e v L) d) i j) /\
  derivable_pt_lim (fun x => MM (blocks ns skal (at_L e v x)) i j) L (MM (blocks_force m ns skal (at_L e v L) d) i j).
Proof. by move=> m ns skal e v d L i j hd hm; apply: force_diag. Qed.
Print Assumptions C54_diagonal_blocks.
(** for m = 0, where the mixing coefficients vanish, all four are *)
Theorem C54_m0 : forall ns skal e v d L i j, derivs_at v L d ->
  nonzero (w0 v L) -> nonzero (w1 v L) -> (forall x i s, w2 v x i s = IZR 0) -> (forall x i s, w3 v x i s = IZR 0) ->
  let F := blocks_force 0 ns skal (at_L e v L) d in
  [/\ derivable_pt_lim (fun x => EE (blocks ns skal (at_L e v x)) i j) L (EE F i j),
      derivable_pt_lim (fun x => EM (blocks ns skal (at_L e v x)) i j) L (EM F i j),
      derivable_pt_lim (fun x => ME (blocks ns skal (at_L e v x)) i j) L (ME F i j) &
      derivable_pt_lim (fun x => MM (blocks ns skal (at_L e v x)) i j) L (MM F i j)].
Proof.
move=> ns skal e v d L i j hd n0 n1 z2 z3.
by have [h1 [h2 [h3 h4]]] := force_m0 0 ns skal e v d L hd i j erefl n0 n1 z2 z3.
Qed.
Print Assumptions C54_m0.
(** for m > 0 the off-diagonal blocks are not: one product of translation coefficients is left
    undifferentiated *)
Theorem C54_offdiagonal_error_refuted : forall m ns skal e v d L i j, derivs_at v L d -> m <> 0%N ->
  nonzero (w0 v L) -> nonzero (w3 v L) ->
  exists gEM gME,
  [/\ derivable_pt_lim (fun x => EM (blocks ns skal (at_L e v x)) i j) L gEM,
  derivable_pt_lim (fun x => ME (blocks ns skal (at_L e v x)) i j) L gME,
  (EM (blocks_force m ns skal (at_L e v L) d) i j - gEM)%Re =
    sumn ns (fun s => skal i j s * aTE e i * bTM e s *
       (w2 v L i s * w1 v L j s - (V7 d i s * w1 v L j s + w2 v L i s * V6 d j s)))%Re &
  (ME (blocks_force m ns skal (at_L e v L) d) i j - gME)%Re =
    sumn ns (fun s => skal i j s * aTM e i * bTE e s *
       (w2 v L i s * w1 v L j s - (V7 d i s * w1 v L j s + w2 v L i s * V6 d j s)))%Re].
Proof.
move=> m ns skal e v d L i j hd hm n0 n3.
by have [gEM [gME [h1 [h2 [h3 h4]]]]] := force_offdiag m ns skal e v d L hd i j hm n0 n3; exists gEM, gME.
Qed.
Print Assumptions C54_offdiagonal_error_refuted.
(** a case in which the code's EM entry is not the derivative *)
Definition ones : roundtrip := {| aTE := fun=> 1%Re; aTM := fun=> 1%Re; Lin_Model.a2 := fun=> 0%Re;
  bTE := fun=> 1%Re; bTM := fun=> 1%Re; b2 := fun=> 0%Re; V0 := fun _ _ => 1%Re; V1 := fun _ _ => 1%Re;
  V2 := fun _ _ => 1%Re; V3 := fun _ _ => 1%Re; V4 := fun _ _ => 0%Re |}.
Definition ones_fun : vfuns := {| w0 := fun _ _ _ => 1%Re; w1 := fun _ _ _ => 1%Re; w2 := fun _ _ _ => 1%Re; w3 := fun _ _ _ => 1%Re |}.
Definition zero_d : vderiv := {| V5 := fun _ _ => 0%Re; V6 := fun _ _ => 0%Re; V7 := fun _ _ => 0%Re; V8 := fun _ _ => 0%Re |}.
Theorem C54_example_refuted : exists m ns skal e v d L, [/\ derivs_at v L d, m <> 0%N &
  ~ derivable_pt_lim (fun x => EM (blocks ns skal (at_L e v x)) 0%N 0%N) L (EM (blocks_force m ns skal (at_L e v L) d) 0%N 0%N)].
Proof.
exists 1%N, 1%N, (fun _ _ _ => 1%Re), ones, ones_fun, zero_d, 1%Re.
have hd : derivs_at ones_fun 1%Re zero_d.
  by split; [|split; [|split]] => i s; exact: derivable_pt_lim_const.
split=> // h.
have nz : nonzero (fun _ _ => 1%Re) by move=> i s; lra.
have [gEM [gME [h1 [_ [h3 _]]]]] := force_offdiag 1 1 (fun _ _ _ => 1%Re) ones ones_fun zero_d 1%Re hd 0%N 0%N ltac:(by []) nz nz.
have e := uniqueness_limite _ _ _ _ h h1.
by move: h3; rewrite e /=; lra.
Qed.
Print Assumptions C54_example_refuted.
