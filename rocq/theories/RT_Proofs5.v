(** * The zero-frequency matrices and the low-frequency limit *)
From Coq Require Import Reals.
From Coq Require Import List Lia Lra ZArith.
From mathcomp Require Import all_ssreflect ssralg fingroup perm matrix mxalgebra poly mxpoly.
From Verif Require Import Base RStruct Mat_Spec Bessel_Model Scat_Model Scat_Spec Scat_Proofs Scat_Proofs7 Scat_Proofs9 Trans_Model Trans_Spec Lin_Model Lin_Spec Bal_Proofs Lin_Proofs Trip_Proofs Lin_Proofs2
  RT_Model RT_Spec RT_Proofs2 RT_Proofs3 RT_Proofs4.
Set Implicit Arguments.
Unset Strict Implicit.
Import GRing.Theory.
Local Open Scope ring_scope.
Delimit Scope R_scope with Re.

Lemma det_ud n z (A B C D : 'M[R]_n) : B = 0 -> C = 0 -> \det (z%:M - block_mx A B C D) = \det (z%:M - A) * \det (z%:M - D).
Proof.
move=> -> ->; rewrite [z%:M in LHS]scalar_mx_block opp_block_mx add_block_mx !oppr0 !addr0 det_ublock //.
Qed.
Lemma lim0_super n (q : R -> mat * mat * mat * mat) (q0 : mat * mat * mat * mat) :
  (forall i j, (i < n)%coq_nat -> (j < n)%coq_nat -> [/\ lim0 (fun k => EE (q k) i j) (EE q0 i j), lim0 (fun k => EM (q k) i j) (EM q0 i j),
     lim0 (fun k => ME (q k) i j) (ME q0 i j) & lim0 (fun k => MM (q k) i j) (MM q0 i j)]) ->
  forall i j, lim0 (fun k => super n (q k) i j) (super n q0 i j).
Proof.
move=> h i j; rewrite /super; case: (split_ordP i) => a ->; case: (split_ordP j) => b ->.
all: have [h1 h2 h3 h4] := h a b (ltP (ltn_ord a)) (ltP (ltn_ord b)).
- by rewrite block_mxEul mxE; apply: lim0_ext h1 => k _; rewrite block_mxEul mxE.
- by rewrite block_mxEur mxE; apply: lim0_ext h2 => k _; rewrite block_mxEur mxE.
- by rewrite block_mxEdl mxE; apply: lim0_ext h3 => k _; rewrite block_mxEdl mxE.
- by rewrite block_mxEdr mxE; apply: lim0_ext h4 => k _; rewrite block_mxEdr mxE.
Qed.

Section Ext.
Context (c : config) (m1 m2 : material) (ra rb : R) (e : list Mat_Model.osc) (b : Mat_Model.bprops) (HC : two_spheres c m1 m2 ra rb e b).
Context (S1 : static_sphere m1) (S2 : static_sphere m2) (Hext : c_ext c = true) (m : Z) (Hm : (0 <= m)%Z).
Context (hs : (n1 c m <= 1)%coq_nat \/ (0 < n2 c m)%coq_nat).
Let n := n1 c m.
Let U k := round_trip (n1 c m) (n2 c m) (rt_at c m k).
Let o := (lmin m - 1)%coq_nat.
Let row (v w : list R) (i : nat) : R := (at_ v (o + i)%coq_nat * exp (at_ w (o + i)%coq_nat))%Re.
Lemma ext_limit : exists ate atm aln bte btm bln A0 B0 TE0 TM0, let q := sqrt (mu_val b 0) in
  let S q := mx n (sblock c ra rb m q (row ate aln) (row bte bln)) in let P q := mx n (sblock c ra rb m q (row atm aln) (row btm bln)) in
  [/\ [/\ mie_k0 m1 (c_med c) 0 (c_lmax c) ra = Val (ate, atm, aln) & mie_k0 m2 (c_med c) 0 (c_lssmax c) rb = Val (bte, btm, bln)],
      [/\ blockmatrices_k0 trans_bessels c m = Val (A0, B0), @is_arr2 n n A0 TE0 & @is_arr2 n n B0 TM0], similar (S 1) TE0 /\ similar (P 1) TM0,
      forall z, lim0 (fun k => \det (z%:M - U k)) (\det (z%:M - S q) * \det (z%:M - P q)) & lim0 (fun k => \tr (U k)) (\tr (S q) + \tr (P q))].
Proof.
have [ate [atm [aln [bte [btm [bln [A0 [B0 [kap [Ea [Eb [RA [RB [E0 h0]]]]]]]]]]]]]] := k0_blocks c m1 m2 ra rb e b HC S1 S2 Hext m hs.
exists ate, atm, aln, bte, btm, bln, (Arr2 n n A0), (Arr2 n n B0), (mx n A0), (mx n B0).
have [Y [_ [_ [_ [_ _]]]]] := arg_facts c m1 m2 ra rb e b HC.
move=> q S P.
pose y k := (k * ra * refr (eps_spec e) (mu_val b) k)%Re.
pose Q k : mat * mat * mat * mat := let r := rescaled ra e b m in let B := rblocks c m k in
  (r (fst (fst (fst B))) k, r (snd (fst (fst B))) k, r (snd (fst B)) k, r (snd B) k).
pose V k := super n (Q k).
have VS k : (0 < k)%Re -> similar (U k) (V k).
  move=> hk; have py := proj1 Y k hk; rewrite -/(y k) in py.
  have yn i : (y k ^ i <> 0)%Re by apply: pow_nonzero; lra.
  rewrite /U rt_super; apply: (@super_similar n (fun i => / (y k ^ (lmin m + i)%coq_nat))%Re (fun i => y k ^ (lmin m + i)%coq_nat)%Re).
    by move=> i; apply: Rinv_l; apply: yn.
  by move=> i j _ _; rewrite /Q /rescaled /EE /EM /ME /MM /=; split; rewrite -/(y k) /Rdiv -!RmultE; ring.
have VL i j : lim0 (fun k => V k i j) (block_mx (S q) 0 0 (P q) i j).
  pose q0 : mat * mat * mat * mat := (sblock c ra rb m q (row ate aln) (row bte bln), fun _ _ => 0%Re, fun _ _ => 0%Re, sblock c ra rb m q (row atm aln) (row btm bln)).
  have -> : block_mx (S q) 0 0 (P q) = super n q0 by rewrite /super /q0 /=; congr block_mx; apply/matrixP => a d; rewrite !mxE.
  apply: lim0_super => a d ha hd.
  by have [h1 [h2 [h3 h4]]] := block_limits c m1 m2 ra rb e b HC Hext m Hm ate atm aln bte btm bln RA RB a d ha hd; split.
split=> //.
- have xy i : exp (kap * INR i)%Re * exp (- (kap * INR i))%Re = 1 by rewrite -exp_add Rplus_opp_r exp_0.
  have cj i j x : (exp (kap * (INR i - INR j)) * x)%Re = exp (kap * INR i)%Re * x * exp (- (kap * INR j))%Re.
    by rewrite mulrAC -exp_add; congr (_ * _); congr exp; ring.
  by split; apply: (one_similar xy) => i j hi hj; have [h1 h2] := h0 i j (ltP hi) (ltP hj); rewrite -cj.
- move=> z; rewrite RmultE -(@det_ud n z _ 0 0 _ erefl erefl).
  apply: (@lim0_ext (fun k => \det (z%:M - V k))); last by apply: lim0_zm => i j; apply: VL.
  by move=> k hk; have h := VS k hk; rewrite (similar_det (similar_zm z h)).
- rewrite RplusE; have -> : \tr (S q) + \tr (P q) = \tr (block_mx (S q) 0 0 (P q)) by rewrite mxtrace_block.
  apply: (@lim0_ext (fun k => \tr (V k))); last by apply: lim0_tr => i j; apply: VL.
  by move=> k hk; have h := VS k hk; rewrite (similar_tr h).
Qed.
End Ext.
