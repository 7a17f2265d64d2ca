(** * Mie coefficients with the computed Bessel functions *)
From Coq Require Import Reals.
From Coquelicot Require Import Coquelicot.
From Coq Require Import Bool ZArith List Lia Lra Sorted.
From Verif Require Import Base Mat_Model Bessel_Model Bessel_Spec Bessel_Proofs Bessel_Proofs2 Bessel_Proofs3 Bessel_Proofs4 Bessel_Proofs5 Bessel_Proofs6 Scat_Model Scat_Spec Scat_Proofs Scat_Proofs2 Scat_Proofs3 Scat_Proofs4.
Import ListNotations.
Open Scope R_scope.

Definition tidy (x : list R) : Prop := StronglySorted Rle x \/ one_sided x.
Lemma nth_skipn {X} (x : list X) n k d : nth k (skipn n x) d = nth (n + k) x d.
Proof. revert x. induction n as [|n IH]; intros x; [reflexivity|]. destruct x; [now destruct k|]. apply IH. Qed.
Lemma mie_cells x l0 lmax : x <> [] -> pos_all x -> (l0 <= lmax)%nat ->
  exists iv kv, mie_bessels x l0 (Z.of_nat lmax) = Ok (iv, kv) /\ forall j q, (j <= lmax - l0)%nat -> (q < length x)%nat ->
    cell iv j q = nth q (nth (l0 + j) (lni_all x lmax) []) 0 /\ cell kv j q = ln (sph_k (l0 + j) (nth q x 0)).
Proof.
  intros Hx Hp Hl. eexists; eexists. split.
  - unfold mie_bessels. replace (Z.of_nat lmax <? Z.of_nat l0)%Z with false by (symmetry; apply Z.ltb_ge; lia). rewrite lniknu_spec by assumption. cbn [bind fst snd]. reflexivity.
  - intros j q Hj Hq. unfold cell. rewrite !nth_skipn. split; [reflexivity|]. rewrite nth_map_seq by lia. unfold lnk_col. now rewrite (nth_map_in _ x q 0 0).
Qed.
Lemma F2_nth (P : R -> R -> Prop) x y : Forall2 P x y -> forall i, (i < length x)%nat -> P (nth i x 0) (nth i y 0).
Proof. intros F. induction F as [|a b x y Hab F IH]; intros i Hi; [inversion Hi|]. destruct i; [assumption|]. apply IH. cbn in Hi. lia. Qed.
(** deviation of the computed logarithms *)
Lemma lni_err x lmax l q : x <> [] -> pos_all x -> tidy x -> (l <= lmax)%nat -> (q < length x)%nat ->
  let d := nth q (nth l (lni_all x lmax) []) 0 - ln (sph_i l (nth q x 0)) in
  ((l <= 1)%nat -> Rabs d <= 1e-3) /\ ((2 <= l)%nat -> 0 < d < ln 2).
Proof.
  intros Hx Hp Ht Hl Hq d. destruct (i01_accurate x Hp Ht) as [A0 A1].
  assert (T : 0 < nth q x 0) by (apply Hp, nth_In; assumption).
  assert (PW : forall t n, 0 < t -> t < 1e-3 -> t ^ n <= 1).
  { intros t n H1 H2. rewrite <- (pow1 n). apply pow_incr. lra. }
  destruct l as [|[|l]].
  - split; [intros _|lia]. assert (B := F2_nth _ _ _ A0 q Hq). unfold d, lni_all. cbn [firstn nth]. destruct B as [B1 B2].
    destruct (Rle_lt_dec 1e-3 (nth q x 0)) as [H|H].
    + rewrite (B1 H), Rminus_eq_0, Rabs_R0. lra.
    + generalize (B2 H) (PW _ 6%nat T H). lra.
  - split; [intros _|lia]. assert (B := F2_nth _ _ _ A1 q Hq). unfold d, lni_all. destruct lmax as [|lmax]; [lia|]. cbn [firstn nth]. destruct B as [B1 B2].
    destruct (Rle_lt_dec 1e-3 (nth q x 0)) as [H|H].
    + rewrite (B1 H), Rminus_eq_0, Rabs_R0. lra.
    + assert (Q : nth q x 0 ^ 4 <= 1e-3 * 1) by (change (nth q x 0 ^ 4) with (nth q x 0 * nth q x 0 ^ 3); apply Rmult_le_compat; [lra|apply pow_le; lra|lra|apply PW; assumption]).
      generalize (B2 H). lra.
  - split; [lia|intros _]. unfold d, lni_all. rewrite firstn_all2 by (cbn [length]; rewrite map_length, seq_length; lia). cbn [nth].
    rewrite (nth_map_in _ _ l [] 0%nat) by (rewrite seq_length; lia). rewrite seq_nth by lia. unfold lni_col. rewrite (nth_map_in _ x q 0 0) by assumption.
    destruct (nmax_even x) as [K ->]. split; [apply (err_even (nth q x 0) T K (S (S l)))|]. apply (err_ln2 (nth q x 0) T (S (S l))).
    replace (2 * K + 2)%nat with (S (2 * K + 1)) by lia. now apply cfrac_pos.
Qed.
Lemma exp_ge_1p u : 1 + u <= exp u.
Proof. destruct (Req_dec u 0) as [->|H]; [rewrite exp_0; lra|]. left. now apply exp_ineq1. Qed.
Lemma exp_mono a b : a <= b -> exp a <= exp b.
Proof. intros [H| ->]; [left; now apply exp_increasing|right; reflexivity]. Qed.
(** the computed logarithmic derivative stays positive *)
Lemma dI_computed_pos x lmax l q : x <> [] -> pos_all x -> tidy x -> (S l <= lmax)%nat -> (q < length x)%nat ->
  0 < dI (S l) (nth q x 0) (nth q (nth l (lni_all x lmax) []) 0) (nth q (nth (S l) (lni_all x lmax) []) 0).
Proof.
  intros Hx Hp Ht Hl Hq. assert (T : 0 < nth q x 0) by (apply Hp, nth_In; assumption). set (t := nth q x 0) in *.
  destruct (lni_err x lmax l q Hx Hp Ht ltac:(lia) Hq) as [A1 A2]. destruct (lni_err x lmax (S l) q Hx Hp Ht Hl Hq) as [B1 B2]. fold t in A1, A2, B1, B2.
  set (a := nth q (nth l (lni_all x lmax) []) 0) in *. set (b := nth q (nth (S l) (lni_all x lmax) []) 0) in *.
  set (da := a - ln (sph_i l t)) in *. set (db := b - ln (sph_i (S l) t)) in *.
  assert (E : exp (a - b) = sph_i l t / sph_i (S l) t * exp (da - db)).
  { rewrite <- exp_ln_diff by (now apply sph_i_pos). rewrite <- exp_plus. f_equal. unfold da, db. ring. }
  assert (R1 : 2 * INR l + 3 < t * (sph_i l t / sph_i (S l) t)).
  { generalize (sph_i_lower l t T). intros H. apply (Rmult_lt_compat_l t) in H; [|assumption]. replace (t * ((2 * INR l + 3) / t)) with (2 * INR l + 3) in H by (field; lra). exact H. }
  unfold dI. rewrite E.
  assert (LN2 : exp (- ln 2) = / 2) by (rewrite exp_Ropp, exp_ln; lra).
  assert (D : (INR l + 1) / (2 * INR l + 3) <= exp (da - db)).
  { destruct l as [|[|l]].
    - assert (H := A1 ltac:(lia)). assert (H' := B1 ltac:(lia)). apply Rabs_le_between in H. apply Rabs_le_between in H'.
      apply Rle_trans with (1 + (da - db)); [|apply exp_ge_1p]. cbn [INR]. lra.
    - assert (H := A1 ltac:(lia)). assert (H' := B2 ltac:(lia)). apply Rabs_le_between in H.
      apply Rle_trans with (exp (- 1e-3) * exp (- ln 2)).
      + rewrite LN2. generalize (exp_ge_1p (- 1e-3)). cbn [INR]. lra.
      + rewrite <- exp_plus. apply exp_mono. lra.
    - assert (H := A2 ltac:(lia)). assert (H' := B2 ltac:(lia)).
      apply Rle_trans with (/ 2).
      + generalize (pos_INR (S (S l))). intros P. apply Rmult_le_reg_r with (2 * INR (S (S l)) + 3); [lra|]. unfold Rdiv. rewrite Rmult_assoc, Rinv_l by lra. lra.
      + rewrite <- LN2. apply exp_mono. lra. }
  generalize (pos_INR l). intros P. rewrite S_INR.
  assert (P2 : 0 < (INR l + 1) / (2 * INR l + 3)) by (apply Rdiv_lt_0_compat; lra).
  assert (M : (2 * INR l + 3) * ((INR l + 1) / (2 * INR l + 3)) < t * (sph_i l t / sph_i (S l) t) * exp (da - db)).
  { apply Rlt_le_trans with (t * (sph_i l t / sph_i (S l) t) * ((INR l + 1) / (2 * INR l + 3))); [now apply Rmult_lt_compat_r|]. apply Rmult_le_compat_l; [lra|assumption]. }
  replace ((2 * INR l + 3) * ((INR l + 1) / (2 * INR l + 3))) with (INR l + 1) in M by (field; lra). lra.
Qed.

Section Actual.
  Context (ks : list R) (l0 lmax : nat) (r : R).
  Context (Hks : forall k, In k ks -> 0 < k) (Hne : ks <> []) (Hl : (l0 <= lmax)%nat) (Hr : 0 < r).
  Let nk := length ks.
  Let nl := (lmax - l0)%nat.
  Lemma nlE : Z.to_nat (Z.of_nat lmax - Z.of_nat l0) = nl.
  Proof. unfold nl. lia. Qed.
  Lemma xs_pos_all e u : (forall k, 0 < k -> 0 < e k /\ 0 < u k) -> pos_all (xs (refr e u) r ks).
  Proof.
    intros H t Ht. apply in_map_iff in Ht. destruct Ht as [k [<- Hk]]. specialize (Hks k Hk). destruct (H k Hks).
    apply Rmult_lt_0_compat; [now apply Rmult_lt_0_compat|now apply refr_pos].
  Qed.
  Lemma xs_ne n : xs n r ks <> [].
  Proof. unfold xs. destruct ks; [contradiction|discriminate]. Qed.
  Lemma actual_cells e u : (forall k, 0 < k -> 0 < e k /\ 0 < u k) ->
    exists iv kv, mie_bessels (xs (refr e u) r ks) l0 (Z.of_nat lmax) = Ok (iv, kv) /\
      forall j q, (j < nl)%nat -> (q < nk)%nat -> let x := nth q ks 0 * r * refr e u (nth q ks 0) in
        (tidy (xs (refr e u) r ks) -> 0 < dI (l0 + 1 + j) x (cell iv j q) (cell iv (S j) q)) /\
        dK (l0 + 1 + j) x (cell kv j q) (cell kv (S j) q) = DK (l0 + j) x /\ 0 < x.
  Proof.
    intros HP. assert (P := xs_pos_all e u HP). destruct (mie_cells _ l0 lmax (xs_ne (refr e u)) P Hl) as [iv [kv [E C]]].
    exists iv, kv. split; [exact E|]. intros j q Hj Hq x. unfold nl, nk in *.
    destruct (C j q) as [A B]; [lia|now rewrite xs_length|]. destruct (C (S j) q) as [A' B']; [lia|now rewrite xs_length|].
    assert (X : nth q (xs (refr e u) r ks) 0 = x) by (apply xs_nth; exact Hq).
    rewrite A, B, A', B', X. replace (l0 + 1 + j)%nat with (S (l0 + j)) by lia. replace (l0 + S j)%nat with (S (l0 + j)) by lia. split; [|split].
    - intros Ht. rewrite <- X. apply dI_computed_pos; try assumption; [apply xs_ne|lia|now rewrite xs_length].
    - reflexivity.
    - rewrite <- X. apply P. apply nth_In. now rewrite xs_length.
  Qed.
  (** well-defined denominators *)
  Theorem mie_defined m1 m2 e1 u1 e2 u2 : has m1 e1 u1 -> has m2 e2 u2 -> tidy (xs (refr e1 u1) r ks) ->
    exists c, mie mie_bessels ks l0 (Z.of_nat lmax) r m1 m2 = Val c /\
      forall j q, (j < nl)%nat -> (q < nk)%nat -> let k := nth q ks 0 in let s := sgn (l0 + 1 + j) * PI * 0.5 in
        exists di de ke, 0 < di /\ ke < 0 /\ 0 < u2 k * di - u1 k * ke /\ 0 < e2 k * di - e1 k * ke /\
          te_at c j q = (u2 k * di - u1 k * de) / (u2 k * di - u1 k * ke) * s /\ tm_at c j q = (e2 k * di - e1 k * de) / (e2 k * di - e1 k * ke) * s.
  Proof.
    intros H1 H2 Ht. destruct (actual_cells e1 u1 ltac:(apply H1)) as [ivi [kvi [Bi Ci]]]. destruct (actual_cells e2 u2 ltac:(apply H2)) as [ive [kve [Be Ce]]].
    destruct (mie_lossy_run mie_bessels ks l0 (Z.of_nat lmax) r Hks m1 m2 e1 u1 e2 u2 _ _ _ _ H1 H2 Be Bi) as [c [E C]]. exists c. split; [exact E|].
    rewrite nlE in C. intros j q Hj Hq k s. destruct (C j q Hj Hq) as [A [B _]]. destruct (Ci j q Hj Hq) as [I1 _]. destruct (Ce j q Hj Hq) as [_ [J2 J3]].
    assert (Hk : 0 < k) by (apply Hks, nth_In; exact Hq). destruct H1 as [_ [H1 _]]. destruct (H1 k Hk). destruct H2 as [_ [H2 _]]. destruct (H2 k Hk).
    cbv zeta in *. fold k in A, B, I1, J2, J3. unfold ratio_ext in A, B.
    assert (N1 := I1 Ht). assert (N2 : DK (l0 + j) (k * r * refr e2 u2 k) < 0) by (generalize (DK_neg (l0 + j) _ J3) (pos_INR (l0 + j)); lra).
    rewrite J2 in A, B. do 3 eexists. split; [exact N1|]. split; [exact N2|]. split; [apply dpos; assumption|]. split; [apply dpos; assumption|]. split; [exact A|exact B].
  Qed.
  (** equal materials *)
  Theorem mie_matched m1 m2 e u : has m1 e u -> has m2 e u ->
    exists c, mie mie_bessels ks l0 (Z.of_nat lmax) r m1 m2 = Val c /\
      forall j q, (j < nl)%nat -> (q < nk)%nat -> te_at c j q = 0 /\ tm_at c j q = 0.
  Proof.
    intros H1 H2. destruct (actual_cells e u ltac:(apply H1)) as [iv [kv [B _]]].
    destruct (mie_lossy_run mie_bessels ks l0 (Z.of_nat lmax) r Hks m1 m2 e u e u _ _ _ _ H1 H2 B B) as [c [E C]]. exists c. split; [exact E|].
    rewrite nlE in C. intros j q Hj Hq. destruct (C j q Hj Hq) as [-> [-> _]]. unfold ratio_ext, Rdiv. split; ring.
  Qed.
  Theorem mie_internal_defined m1 m2 e1 u1 e2 u2 : has m1 e1 u1 -> has m2 e2 u2 -> tidy (xs (refr e1 u1) r ks) ->
    exists c, mie_internal mie_bessels ks l0 (Z.of_nat lmax) r m1 m2 = Val c /\
      forall j q, (j < nl)%nat -> (q < nk)%nat -> let k := nth q ks 0 in let s := sgn (l0 + 1 + j) * 2 / PI in
        exists di ki ke, 0 < di /\ ki < 0 /\ ke < 0 /\ 0 < u2 k * di - u1 k * ke /\ 0 < e2 k * di - e1 k * ke /\
          te_at c j q = (u2 k * ki - u1 k * ke) / (u2 k * di - u1 k * ke) * s /\ tm_at c j q = (e2 k * ki - e1 k * ke) / (e2 k * di - e1 k * ke) * s.
  Proof.
    intros H1 H2 Ht. destruct (actual_cells e1 u1 ltac:(apply H1)) as [ivi [kvi [Bi Ci]]]. destruct (actual_cells e2 u2 ltac:(apply H2)) as [ive [kve [Be Ce]]].
    destruct (mie_int_run mie_bessels ks l0 (Z.of_nat lmax) r Hks m1 m2 e1 u1 e2 u2 _ _ _ _ H1 H2 Be Bi) as [c [E C]]. exists c. split; [exact E|].
    rewrite nlE in C. intros j q Hj Hq k s. destruct (C j q Hj Hq) as [A [B _]]. destruct (Ci j q Hj Hq) as [I1 [I2 I3]]. destruct (Ce j q Hj Hq) as [_ [J2 J3]].
    assert (Hk : 0 < k) by (apply Hks, nth_In; exact Hq). destruct H1 as [_ [H1 _]]. destruct (H1 k Hk). destruct H2 as [_ [H2 _]]. destruct (H2 k Hk).
    cbv zeta in *. fold k in A, B, I1, I2, I3, J2, J3. unfold ratio_int in A, B.
    assert (N1 := I1 Ht). assert (N2 : DK (l0 + j) (k * r * refr e2 u2 k) < 0) by (generalize (DK_neg (l0 + j) _ J3) (pos_INR (l0 + j)); lra).
    assert (N3 : DK (l0 + j) (k * r * refr e1 u1 k) < 0) by (generalize (DK_neg (l0 + j) _ I3) (pos_INR (l0 + j)); lra).
    rewrite J2, I2 in A, B. do 3 eexists. split; [exact N1|]. split; [exact N3|]. split; [exact N2|]. split; [apply dpos; assumption|]. split; [apply dpos; assumption|]. split; [exact A|exact B].
  Qed.
  Theorem mie_internal_matched m1 m2 e u : has m1 e u -> has m2 e u ->
    exists c, mie_internal mie_bessels ks l0 (Z.of_nat lmax) r m1 m2 = Val c /\
      forall j q, (j < nl)%nat -> (q < nk)%nat -> te_at c j q = 0 /\ tm_at c j q = 0.
  Proof.
    intros H1 H2. destruct (actual_cells e u ltac:(apply H1)) as [iv [kv [B _]]].
    destruct (mie_int_run mie_bessels ks l0 (Z.of_nat lmax) r Hks m1 m2 e u e u _ _ _ _ H1 H2 B B) as [c [E C]]. exists c. split; [exact E|].
    rewrite nlE in C. intros j q Hj Hq. destruct (C j q Hj Hq) as [-> [-> _]]. unfold ratio_int, Rdiv. split; ring.
  Qed.
  (** coatings, with the computed Bessel functions *)
  Theorem coat_medium_actual m e u inner : has m e u ->
    exists c, coat mie_bessels ks l0 (Z.of_nat lmax) r m m inner = Val c /\
      forall j q, (j < nl)%nat -> (q < nk)%nat -> TE c j q = TE inner j q /\ TM c j q = TM inner j q.
  Proof.
    intros H. destruct (actual_cells e u ltac:(apply H)) as [iv [kv [B _]]].
    destruct (coat_medium mie_bessels ks l0 (Z.of_nat lmax) Hks r m e u iv kv inner Hr H B) as [c [E C]]. rewrite nlE in C. now exists c.
  Qed.
End Actual.
Theorem coat_core_actual ks l0 lmax ri ra m1 m3 e1 u1 e3 u3 : (forall k, In k ks -> 0 < k) -> ks <> [] -> (l0 <= lmax)%nat -> 0 < ri -> 0 < ra ->
  has m1 e1 u1 -> has m3 e3 u3 -> tidy (xs (refr e1 u1) ra ks) ->
  exists c c', mie_coated mie_bessels ks l0 (Z.of_nat lmax) ri ra m1 m1 m3 = Val c /\ mie mie_bessels ks l0 (Z.of_nat lmax) ra m1 m3 = Val c' /\
    forall j q, (j < lmax - l0)%nat -> (q < length ks)%nat -> te_at c j q = te_at c' j q /\ tm_at c j q = tm_at c' j q /\ scale_at c j q = scale_at c' j q.
Proof.
  intros Hks Hne Hl Hri Hra H1 H3 Ht. assert (NL : Z.to_nat (Z.of_nat lmax - Z.of_nat l0) = (lmax - l0)%nat) by lia.
  destruct (actual_cells ks l0 lmax ri Hks Hne Hl Hri e1 u1 ltac:(apply H1)) as [ivo [kvo [Bo _]]].
  destruct (actual_cells ks l0 lmax ra Hks Hne Hl Hra e1 u1 ltac:(apply H1)) as [ivi [kvi [Bi Ci]]].
  destruct (actual_cells ks l0 lmax ra Hks Hne Hl Hra e3 u3 ltac:(apply H3)) as [ive [kve [Be _]]].
  destruct (coat_core mie_bessels ks l0 (Z.of_nat lmax) Hks ri ra m1 m3 e1 u1 e3 u3 _ _ _ _ _ _ Hri Hra H1 H3 Bo Bi Be) as [c [c' [E1 [E2 C]]]].
  - rewrite NL. intros j q Hj Hq. destruct (Ci j q Hj Hq) as [D _]. exact (D Ht).
  - exists c, c'. split; [exact E1|split; [exact E2|]]. rewrite NL in C. exact C.
Qed.
