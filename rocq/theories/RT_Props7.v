(** * Property C62 at zero frequency: the static interaction decays with the sixth power of the distance *)
From Coq Require Import Reals.
From Coq Require Import List Lia Lra ZArith.
From mathcomp Require Import all_ssreflect ssralg fingroup perm matrix mxalgebra poly mxpoly.
From Verif Require Import Base RStruct Mat_Model Mat_Spec Bessel_Model Scat_Model Scat_Spec Scat_Proofs Scat_Proofs9 Scat_Proofs10 Scat_Props2 Trans_Model Trans_Spec
  Lin_Model Lin_Spec Bal_Proofs Lin_Proofs Trip_Proofs Lin_Proofs2 RT_Model RT_Spec RT_Spec2 RT_Proofs2 RT_Proofs3 RT_Proofs4 RT_Proofs5 RT_Proofs6 RT_Proofs12 RT_Proofs14 RT_Props RT_Props2 RT_Props3 RT_Props5.
Set Implicit Arguments.
Unset Strict Implicit.
Import GRing.Theory.
Local Open Scope ring_scope.
Delimit Scope R_scope with Re.

Lemma minus1 (a b : R) : (a + -1 * b = a + - b)%Re.
Proof. by ring. Qed.
Lemma det_far n (S : R -> 'M[R]_n) : (forall i j, below (fun L => (1 <= L)%Re) G6 (fun L => S L i j)) -> near (fun L => (1 <= L)%Re) G6 (fun L => \det (1%:M - S L)) 1.
Proof.
move=> h; have := @near_det _ _ G6_01 _ (fun L => 1%:M - S L) 1%:M; rewrite det1; apply=> i j.
apply: (@near_ext _ _ (fun L => 1%:M i j + -1 * S L i j)%Re); first by move=> L; rewrite !mxE -RplusE -RoppE; exact: minus1.
have aux (a : R) : (a = a + -1 * 0)%Re by ring.
rewrite [X in near _ _ _ X]aux; apply: (near_plus (near_const (fun L => (1 <= L)%Re) G6 _)); apply: (near_mult G6_01 (near_const (fun L => (1 <= L)%Re) G6 _)).
by apply: (@below_ext _ _ _ (fun L => S L i j)) => // L _; exact (esym (Rminus_0_r _)).
Qed.

(** the limit of the determinant differs from one by at most C / L^6, and so does the number of the code from zero *)
Theorem C62_static_decay : forall c m1 m2 ra rb e b m, two_spheres c m1 m2 ra rb e b -> static_sphere m1 -> static_sphere m2 -> c_ext c = true -> some_orders c m -> mu_val b 0 = 1%Re ->
  exists C, (0 < C)%Re /\ forall L, (1 <= L)%Re -> exists d0, [/\ limit0 (fun k => \det (1%:M - trip mie_bessels (at_distance c L) m k)) d0, (Rabs (d0 - 1) <= C / L ^ 6)%Re &
    (C / L ^ 6 <= 1 / 2)%Re -> (0 < d0)%Re /\ forall conv, (conv < 1)%Re -> exists v N, (forall fuel, (N <= fuel)%N ->
      single_m_k0 trans_bessels (at_distance c L) fuel conv m = Some (Val (Fin v))) /\ (Rabs v <= 2 * (C / L ^ 6))%Re].
Proof.
move=> c m1 m2 ra rb e b m HC S1 S2 hx ho hmu; have [p1 p2] := orders_pos ho.
have hs : (n1 c m <= 1)%coq_nat \/ (0 < n2 c m)%coq_nat by right; apply/ltP.
have [ate [atm [aln [bte [btm [bln [_ [_ [_ [_ [[eA eB] _ _ _ _]]]]]]]]]]] := ext_limit HC S1 S2 hx (proj1 ho) hs.
pose o := (lmin m - 1)%coq_nat; pose row (v w : list R) (i : nat) : R := (at_ v (o + i)%coq_nat * exp (at_ w (o + i)%coq_nat))%Re.
pose S L := mx (n1 c m) (sblock (at_distance c L) ra rb m 1 (row ate aln) (row bte bln)).
pose P L := mx (n1 c m) (sblock (at_distance c L) ra rb m 1 (row atm aln) (row btm bln)).
have far (v w v' w' : list R) i j : below (fun L => (1 <= L)%Re) G6 (fun L => mx (n1 c m) (sblock (at_distance c L) ra rb m 1 (row v w) (row v' w')) i j).
  by apply: below_ext (sblock_far c ra rb m (row v w) (row v' w') i j) => L _; rewrite mxE.
have [C [hC h]] : near (fun L => (1 <= L)%Re) G6 (fun L => \det (1%:M - S L) * \det (1%:M - P L)) 1.
  rewrite -[X in near _ _ _ X]mulr1.
  by apply: (near_mult G6_01); apply: det_far => i j; exact: far.
exists (C + 1)%Re; split; first by lra.
move=> L hL; exists (\det (1%:M - S L) * \det (1%:M - P L)).
have HC' : two_spheres (at_distance c L) m1 m2 ra rb e b by move: HC => [h1 [h2 [h3 [h4 [h5 _]]]]]; rewrite /two_spheres /=; do 5 split=> //; lra.
have lim : limit0 (fun k => \det (1%:M - trip mie_bessels (at_distance c L) m k)) (\det (1%:M - S L) * \det (1%:M - P L)).
  have [a1 [a2 [a3 [b1 [b2 [b3 [_ [_ [_ [_ [[eA' eB'] _ _ hz _]]]]]]]]]]] := ext_limit HC' S1 S2 hx (proj1 ho) hs.
  move: hz eA' eB'; rewrite /= eA eB => hz [e1 e2 e3] [e4 e5 e6]; move: hz; rewrite -e1 -e2 -e3 -e4 -e5 -e6 => hz.
  by move: (hz 1); rewrite hmu sqrt_1.
have bd : (Rabs (\det (1%:M - S L) * \det (1%:M - P L) - 1) <= (C + 1) / L ^ 6)%Re.
  by apply: Rle_trans (h L hL) _; apply: G6_div.
split=> // small; have [d1 d2] := ln_near (conj (Rle_trans _ _ _ (Rabs_pos _) bd) small) bd.
split=> // conv hc; have ho' : some_orders (at_distance c L) m by [].
have [d [hd1 hd2]] := C57_lndet HC' S1 S2 hx ho' hmu hc.
have ed := limit0_unique _ _ _ hd1 lim; move: hd2; rewrite ed => /(_ d1) [[N hN] _].
by exists (ln (\det (1%:M - S L) * \det (1%:M - P L))), N; split=> //; apply: Rle_trans d2 _.
Qed.
Print Assumptions C62_static_decay.

(** ** C57: frequencies that start with zero: the static blocks come first, in the diagonal blocks of their polarization,
    and the other frequencies follow unchanged *)
Theorem C57_leading_zero : forall mieb transb c m ks A B C D te tm, rt_blocks mieb transb c m ks = Val (A, B, C, D) -> blockmatrices_k0 transb c m = Val (te, tm) ->
  exists A' B' C' D', [/\ rt_blocks_all mieb transb c m (0%Re :: ks) = Val (A', B', C', D'),
    [/\ d3 A' = (d3 A).+1, d3 B' = (d3 B).+1, d3 C' = (d3 C).+1 & d3 D' = (d3 D).+1],
    [/\ m3 A' 0 = m2 te, m3 D' 0 = m2 tm & forall i j, m3 B' 0 i j = IZR 0 /\ m3 C' 0 i j = IZR 0] &
    forall q, [/\ m3 A' q.+1 = m3 A q, m3 B' q.+1 = m3 B q, m3 C' q.+1 = m3 C q & m3 D' q.+1 = m3 D q]].
Proof.
move=> mieb transb c m ks A B C D te tm h h0; do 4 eexists.
by rewrite /rt_blocks_all; case: Reqb_spec => //= _; rewrite h /= h0.
Qed.
Print Assumptions C57_leading_zero.
