(** * Cavities in strong conductors; results of the model *)
From Coq Require Import Reals.
From Coquelicot Require Import Coquelicot.
From Coq Require Import ZArith List Lia Lra.
From Verif Require Import Base Mat_Model Mat_Spec Mat_Proofs Help_Model Help_Spec Help_Proofs Bessel_Model Bessel_Spec Bessel_Proofs Bessel_Proofs2 Scat_Model Scat_Spec Scat_Proofs Scat_Proofs2 Scat_Proofs4 Scat_Proofs7 Scat_Proofs8 Scat_Proofs9 MieLim_Spec MieLim_Proofs.
Import ListNotations.
Open Scope R_scope.

Lemma DK_lower l x : 0 < x -> - INR (S l) - x < DK l x.
Proof.
  intros Hx. rewrite DKE by assumption. generalize (sph_k_pos (S l) x Hx) (sph_k_incr l x Hx). intros A B.
  assert (sph_k l x / sph_k (S l) x < 1). { apply Rmult_lt_reg_r with (sph_k (S l) x); [assumption|]. unfold Rdiv. rewrite Rmult_assoc, Rinv_l, Rmult_1_r by lra. lra. }
  nra.
Qed.
Lemma k_ratio_low l x : 0 < x -> x - (2 * INR l + 1) <= x * (sph_k l x / sph_k (S l) x).
Proof.
  intros Hx. assert (HL := pos_INR l). assert (P0 := sph_k_pos l x Hx). assert (P1 := sph_k_pos (S l) x Hx).
  assert (U : x * sph_k (S l) x <= (x + (2 * INR l + 1)) * sph_k l x).
  { destruct l as [|l].
    - rewrite sph_k_1, sph_k_0 by assumption. cbn [INR]. set (a := PI / 2 * exp (- x) / x). right. field. lra.
    - rewrite (sph_k_rec l x Hx). generalize (sph_k_incr l x Hx). intros I. rewrite S_INR.
      replace (x * (sph_k l x + (2 * INR l + 3) / x * sph_k (S l) x)) with (x * sph_k l x + (2 * INR l + 3) * sph_k (S l) x) by (field; lra). nra. }
  apply Rmult_le_reg_r with (sph_k (S l) x); [assumption|]. replace (x * (sph_k l x / sph_k (S l) x) * sph_k (S l) x) with (x * sph_k l x) by (field; lra).
  assert (sph_k l x < sph_k (S l) x) by (now apply sph_k_incr). destruct (Rle_lt_dec x (2 * INR l + 1)) as [L|L]; [nra|].
  assert (Q : (x - (2 * INR l + 1)) * (x * sph_k (S l) x) <= x * x * sph_k l x).
  { apply Rle_trans with ((x - (2 * INR l + 1)) * ((x + (2 * INR l + 1)) * sph_k l x)); [apply Rmult_le_compat_l; lra|]. assert (0 <= (2 * INR l + 1) ^ 2 * sph_k l x) by (apply Rmult_le_pos; [apply pow2_ge_0|lra]). nra. }
  apply Rmult_le_reg_l with x; [assumption|]. nra.
Qed.
Lemma DK_upper l x : 0 < x -> DK l x <= INR l - x.
Proof. intros Hx. rewrite DKE by assumption. generalize (k_ratio_low l x Hx). rewrite S_INR. lra. Qed.

Lemma int_te_strong u1 u2 di ki ke B : 0 < u1 -> 0 < u2 -> 0 < di -> 0 < B -> ke < 0 -> u2 * (Rabs ki + di) <= B * (u1 * - ke) -> Rabs (ratio_int u1 u2 di ki ke - 1) <= B.
Proof.
  intros H1 H2 Hd HB Hk H. assert (0 <= Rabs ki) by apply Rabs_pos.
  assert (D : 0 < u2 * di - u1 * ke) by nra. unfold ratio_int.
  replace ((u2 * ki - u1 * ke) / (u2 * di - u1 * ke) - 1) with (u2 * (ki - di) / (u2 * di - u1 * ke)) by (field; lra).
  unfold Rdiv. rewrite Rabs_mult, Rabs_inv, (Rabs_pos_eq (u2 * di - u1 * ke)) by lra. apply Rmult_le_reg_r with (u2 * di - u1 * ke); [assumption|].
  rewrite Rmult_assoc, Rinv_l, Rmult_1_r by lra. rewrite Rabs_mult, (Rabs_pos_eq u2) by lra.
  assert (Rabs (ki - di) <= Rabs ki + di). { unfold Rminus at 1. eapply Rle_trans; [apply Rabs_triang|]. rewrite Rabs_Ropp, (Rabs_pos_eq di) by lra. lra. }
  assert (u2 * Rabs (ki - di) <= u2 * (Rabs ki + di)) by (apply Rmult_le_compat_l; lra). assert (0 <= B * (u2 * di)) by (apply Rmult_le_pos; nra). nra.
Qed.
Lemma int_tm_strong e1 e2 di ki ke B : 0 < e1 -> 0 < e2 -> 0 < di -> 0 < B -> ke < 0 -> e1 * - ke * (Rabs ki + di) <= B * (e2 * (di * di)) -> Rabs (ratio_int e1 e2 di ki ke - ki / di) <= B.
Proof.
  intros H1 H2 Hd HB Hk H. assert (D : 0 < e2 * di - e1 * ke) by nra. unfold ratio_int.
  replace ((e2 * ki - e1 * ke) / (e2 * di - e1 * ke) - ki / di) with (e1 * ke * (ki - di) / (di * (e2 * di - e1 * ke))) by (field; split; lra).
  assert (N : 0 < di * (e2 * di - e1 * ke)) by nra. unfold Rdiv. rewrite Rabs_mult, Rabs_inv, (Rabs_pos_eq (di * (e2 * di - e1 * ke))) by lra.
  apply Rmult_le_reg_r with (di * (e2 * di - e1 * ke)); [lra|]. rewrite Rmult_assoc, Rinv_l, Rmult_1_r by lra.
  assert (P : 0 < e1 * - ke) by nra. rewrite Rabs_mult. replace (Rabs (e1 * ke)) with (e1 * - ke) by (rewrite Rabs_left; nra).
  assert (Rabs (ki - di) <= Rabs ki + di). { unfold Rminus at 1. eapply Rle_trans; [apply Rabs_triang|]. rewrite Rabs_Ropp, (Rabs_pos_eq di) by lra. lra. }
  assert (e1 * - ke * Rabs (ki - di) <= e1 * - ke * (Rabs ki + di)) by (apply Rmult_le_compat_l; lra).
  assert (0 <= B * (- ke * (e1 * di))) by (apply Rmult_le_pos; nra). nra.
Qed.
Lemma strong_int l u n1 p1 k r : 0 < u -> 0 < n1 -> 0 < p1 -> 0 < k -> 0 < r -> forall B, 0 < B -> exists E, 0 < E /\ forall e, E <= e ->
  let x1 := n1 * k * r in let x2 := sqrt (e * u) * k * r in
  Rabs (ratio_int p1 u (DI l x1) (DK l x1) (DK l x2) - 1) <= B /\
  Rabs (ratio_int p1 e (DI l x1) (DK l x1) (DK l x2) - DK l x1 / DI l x1) <= B.
Proof.
  intros Hu Hn Hp Hk Hr B HB. set (x1 := n1 * k * r). assert (X1 : 0 < x1) by (repeat apply Rmult_lt_0_compat; assumption).
  assert (K := DI_pos l x1 X1). assert (HL := pos_INR l). set (ki := DK l x1). set (di := DI l x1) in *. assert (Rabs ki >= 0) by (apply Rle_ge, Rabs_pos).
  set (c := sqrt u * k * r). assert (Hc : 0 < c) by (repeat apply Rmult_lt_0_compat; try assumption; now apply sqrt_lt_R0).
  set (G := Rabs ki + di). assert (HG : 0 < G) by (unfold G; lra).
  destruct (strong_arg c Hc (u * G / (B * p1) + INR l)) as [E1 [P1 F1]].
  assert (Hq : 0 < B * (di * di)) by (apply Rmult_lt_0_compat; nra).
  destruct (strong_arg (B * (di * di)) Hq (p1 * G * (INR (S l) + c))) as [E2 [P2 F2]].
  exists (E1 + E2 + 1). split; [lra|]. intros e He. cbv zeta. fold di ki.
  assert (S1 : 1 <= sqrt e). { rewrite <- sqrt_1. apply sqrt_le_1_alt. lra. }
  assert (X : sqrt (e * u) * k * r = c * sqrt e). { rewrite sqrt_mult by lra. unfold c. ring. }
  rewrite X. assert (X2 : 0 < c * sqrt e) by (apply Rmult_lt_0_compat; lra).
  specialize (F1 e ltac:(lra)). specialize (F2 e ltac:(lra)). generalize (DK_upper l _ X2) (DK_lower l _ X2) (DK_neg l _ X2). intros U L P.
  set (ke := DK l (c * sqrt e)) in *. split.
  - apply int_te_strong; try assumption; try lra. fold G. apply Rmult_le_reg_r with (/ (B * p1)); [apply Rinv_0_lt_compat; now apply Rmult_lt_0_compat|].
    replace (B * (p1 * - ke) * / (B * p1)) with (- ke) by (field; lra). unfold Rdiv in F1. lra.
  - apply int_tm_strong; try assumption; try lra. fold G. rewrite S_INR in L, F2.
    apply Rle_trans with (p1 * ((INR l + 1 + c) * sqrt e) * G).
    { apply Rmult_le_compat_r; [lra|]. apply Rmult_le_compat_l; [lra|]. nra. }
    replace (p1 * ((INR l + 1 + c) * sqrt e) * G) with (p1 * G * (INR l + 1 + c) * sqrt e) by ring.
    apply Rle_trans with (B * (di * di) * sqrt e * sqrt e); [apply Rmult_le_compat_r; lra|]. rewrite (Rmult_assoc _ (sqrt e) (sqrt e)), sqrt_sqrt by lra. lra.
Qed.

(** ** the model *)
Section Run.
  Context (ks : list R) (l0 : nat) (lmax : Z).
  Context (Hks : forall k, In k ks -> 0 < k) (Hl : (Z.of_nat l0 <= lmax)%Z).
  Context (j q : nat) (Hj : (j < Z.to_nat (lmax - Z.of_nat l0))%nat) (Hq : (q < length ks)%nat).

  Lemma core_limit ra m1 m2 m3 e2 u2 e3 u3 : 0 < ra -> (m1 = PEC \/ exists e1 u1, has m1 e1 u1) -> has m2 e2 u2 -> has m3 e3 u3 ->
    exists c, mie exact_bessels ks l0 lmax ra m2 m3 = Val c /\
      (forall ri, 0 < ri -> exists d, mie_coated exact_bessels ks l0 lmax ri ra m1 m2 m3 = Val d /\ scale_at d j q = scale_at c j q) /\
      lim0 (fun ri => value te_at (mie_coated exact_bessels ks l0 lmax ri ra m1 m2 m3) j q) (te_at c j q) /\
      lim0 (fun ri => value tm_at (mie_coated exact_bessels ks l0 lmax ri ra m1 m2 m3) j q) (tm_at c j q).
  Proof.
    intros Hra H1 H2 H3. assert (Hk : 0 < nth q ks 0) by (now apply Hks, nth_In). set (k := nth q ks 0) in *.
    destruct (exact_cells ks l0 lmax Hl (refr e2 u2) ra) as [ivi [kvi [Bi Ci]]]. destruct (exact_cells ks l0 lmax Hl (refr e3 u3) ra) as [ive [kve [Be Ce]]].
    destruct (mie_lossy_run exact_bessels ks l0 lmax ra Hks m2 m3 e2 u2 e3 u3 _ _ _ _ H2 H3 Be Bi) as [c [E C]]. exists c. split; [exact E|].
    (* the core *)
    assert (Inner : exists fe fm, lim0 fe 0 /\ lim0 fm 0 /\ forall ri, 0 < ri -> exists i, mie exact_bessels ks l0 lmax ri m1 m2 = Val i /\ TE i j q = fe ri /\ TM i j q = fm ri).
    { destruct H2 as [H2 [Q2 N2]]. destruct (Q2 k Hk) as [Pe2 Pu2]. assert (Pn2 : 0 < refr e2 u2 k) by (now apply refr_pos).
      destruct H1 as [->|[e1 [u1 H1]]].
      - destruct (pec_core0 (l0 + j) (refr e2 u2 k) k Pn2 Hk) as [A B]. eexists; eexists. split; [exact A|]. split; [exact B|]. intros ri Hri.
        destruct (mie_pec_exact ks l0 lmax Hks Hl ri m2 e2 u2 Hri (conj H2 (conj Q2 N2))) as [i [Ei Vi]]. exists i. split; [exact Ei|]. destruct (Vi j q Hj Hq) as [-> ->]. split; reflexivity.
      - assert (H1' := H1). destruct H1' as [_ [Q1 _]]. destruct (Q1 k Hk) as [Pe1 Pu1]. assert (Pn1 : 0 < refr e1 u1 k) by (now apply refr_pos).
        eexists; eexists. split; [exact (ext_core0 (l0 + j) (u1 k) (u2 k) _ _ k Pu1 Pu2 Pn1 Pn2 Hk)|]. split; [exact (ext_core0 (l0 + j) (e1 k) (e2 k) _ _ k Pe1 Pe2 Pn1 Pn2 Hk)|]. intros ri Hri.
        destruct (mie_exact ks l0 lmax Hks Hl ri m1 m2 e1 u1 e2 u2 Hri H1 (conj H2 (conj Q2 N2))) as [i [Ei Vi]]. exists i. split; [exact Ei|]. destruct (Vi j q Hj Hq) as [-> ->]. split; reflexivity. }
    destruct Inner as [fe [fm [Le [Lm In]]]].
    destruct (C j q Hj Hq) as [A [B S0]]. cbv zeta in A, B.
    assert (Run : forall ri, 0 < ri -> exists d, mie_coated exact_bessels ks l0 lmax ri ra m1 m2 m3 = Val d /\
      (let l := (l0 + 1 + j)%nat in let xi := k * ra * refr e2 u2 k in let xe := k * ra * refr e3 u3 k in
       let id_i := dI l xi (cell ivi j q) (cell ivi (S j) q) in let kd_i := dK l xi (cell kvi j q) (cell kvi (S j) q) in
       let id_e := dI l xe (cell ive j q) (cell ive (S j) q) in let kd_e := dK l xe (cell kve j q) (cell kve (S j) q) in
       te_at d j q = shellf (sgn l) (u2 k) (u3 k) id_i kd_i id_e kd_e 1 (exp (cell kvi (S j) q - cell ivi (S j) q) * fe ri) /\
       tm_at d j q = shellf (sgn l) (e2 k) (e3 k) id_i kd_i id_e kd_e 1 (exp (cell kvi (S j) q - cell ivi (S j) q) * fm ri) /\
       scale_at d j q = cell ive (S j) q - cell kve (S j) q)).
    { intros ri Hri. destruct (In ri Hri) as [i [Ei [Te Tm]]]. destruct (coat_run exact_bessels ks l0 lmax Hks ra m2 m3 e2 u2 e3 u3 _ _ _ _ i H2 H3 Be Bi) as [d [Ed D]].
      exists d. split; [unfold mie_coated; rewrite Ei; exact Ed|]. destruct (D j q Hj Hq) as [D1 [D2 D3]]. cbv zeta in *.
      rewrite exp_plus in D1, D2. unfold TE in Te. unfold TM in Tm. split; [|split; [|exact D3]].
      - rewrite D1, shellf_lump. f_equal. rewrite <- Te. ring.
      - rewrite D2, shellf_lump. f_equal. rewrite <- Tm. ring. }
    split.
    { intros ri Hri. destruct (Run ri Hri) as [d [Ed [_ [_ D3]]]]. exists d. split; [exact Ed|]. now rewrite D3, S0. }
    assert (PX : 0 < k * ra * refr e2 u2 k /\ 0 < k * ra * refr e3 u3 k /\ 0 < e2 k /\ 0 < u2 k /\ 0 < e3 k /\ 0 < u3 k).
    { destruct H2 as [_ [Q2 _]]. destruct H3 as [_ [Q3 _]]. destruct (Q2 k Hk). destruct (Q3 k Hk). repeat split; try assumption; (apply Rmult_lt_0_compat; [now apply Rmult_lt_0_compat|now apply refr_pos]). }
    destruct PX as [X2 [X3 [Pe2 [Pu2 [Pe3 Pu3]]]]].
    destruct (Ci j q Hj Hq) as [I1 [I2 [I3 I4]]]. destruct (Ce j q Hj Hq) as [J1 [J2 [J3 J4]]]. fold k in I1, I2, I3, I4, J1, J2, J3, J4, A, B.
    assert (Pdi : 0 < dI (l0 + 1 + j) (k * ra * refr e2 u2 k) (cell ivi j q) (cell ivi (S j) q)).
    { rewrite I1, I2. replace (l0 + 1 + j)%nat with (S (l0 + j)) by lia. generalize (DI_pos (l0 + j) _ X2) (pos_INR (l0 + j)). unfold DI. lra. }
    assert (Pke : dK (l0 + 1 + j) (k * ra * refr e3 u3 k) (cell kve j q) (cell kve (S j) q) < 0).
    { rewrite J3, J4. replace (l0 + 1 + j)%nat with (S (l0 + j)) by lia. generalize (DK_neg (l0 + j) _ X3) (pos_INR (l0 + j)). unfold DK. lra. }
    assert (Y : forall f, lim0 f 0 -> lim0 (fun ri => exp (cell kvi (S j) q - cell ivi (S j) q) * f ri) 0).
    { intros f Hf. eapply lim0_eq; [|apply lim0_mult; [apply lim0_const|exact Hf]]. ring. }
    rewrite A, B. split.
    - eapply lim0_ext; [|apply (shellf_lim _ _ _ _ (dK (l0 + 1 + j) (k * ra * refr e2 u2 k) (cell kvi j q) (cell kvi (S j) q)) _ _ (fun ri => exp (cell kvi (S j) q - cell ivi (S j) q) * fe ri)); [|exact (Y fe Le)]].
      + intros ri Hri. destruct (Run ri Hri) as [d [Ed [D1 [D2 D3]]]]. unfold value. rewrite Ed. symmetry. exact D1.
      + nra.
    - eapply lim0_ext; [|apply (shellf_lim _ _ _ _ (dK (l0 + 1 + j) (k * ra * refr e2 u2 k) (cell kvi j q) (cell kvi (S j) q)) _ _ (fun ri => exp (cell kvi (S j) q - cell ivi (S j) q) * fm ri)); [|exact (Y fm Lm)]].
      + intros ri Hri. destruct (Run ri Hri) as [d [Ed [D1 [D2 D3]]]]. unfold value. rewrite Ed. symmetry. exact D2.
      + nra.
  Qed.

  Lemma shrink (a b s B : R) : 0 < B -> Rabs (a - b) <= B / (Rabs s + 1) -> Rabs (a * s - b * s) <= B.
  Proof.
    intros HB H. replace (a * s - b * s) with ((a - b) * s) by ring. rewrite Rabs_mult. assert (P := Rabs_pos s).
    apply Rle_trans with (B / (Rabs s + 1) * Rabs s); [apply Rmult_le_compat_r; assumption|].
    replace (B / (Rabs s + 1) * Rabs s) with (B * (Rabs s / (Rabs s + 1))) by (field; lra). rewrite <- (Rmult_1_r B) at 2. apply Rmult_le_compat_l; [lra|].
    apply Rmult_le_reg_r with (Rabs s + 1); [lra|]. unfold Rdiv. rewrite Rmult_assoc, Rinv_l by lra. lra.
  Qed.
  Lemma conductor_ext r m2 e2 u2 u B : 0 < r -> has m2 e2 u2 -> 0 < u -> 0 < B ->
    exists c', mie exact_bessels ks l0 lmax r PEC m2 = Val c' /\ exists E, forall m1 e1 u1, has m1 e1 u1 -> u1 (nth q ks 0) = u -> E <= e1 (nth q ks 0) ->
      exists c, mie exact_bessels ks l0 lmax r m1 m2 = Val c /\ Rabs (TE c j q - TE c' j q) <= B /\ Rabs (TM c j q - TM c' j q) <= B.
  Proof.
    intros Hr H2 Hu HB. assert (Hk : 0 < nth q ks 0) by (now apply Hks, nth_In).
    destruct (mie_pec_exact ks l0 lmax Hks Hl r m2 e2 u2 Hr H2) as [c' [E' V']]. exists c'. split; [exact E'|].
    assert (H2' := H2). destruct H2' as [_ [Q2 _]]. destruct (Q2 _ Hk) as [Pe Pu]. assert (Pn := refr_pos e2 u2 _ Pe Pu).
    set (k := nth q ks 0) in *. set (s := sgn (S (l0 + j)) * PI * 0.5 * pec_scale (l0 + j) (refr e2 u2 k) k r).
    assert (HB' : 0 < B / (Rabs s + 1)) by (apply Rdiv_lt_0_compat; [assumption|generalize (Rabs_pos s); lra]).
    destruct (strong_ext (l0 + j) u (refr e2 u2 k) (u2 k) k r Hu Pn Pu Hk Hr _ HB') as [E1 [_ F1]].
    destruct (strong_ext (l0 + j) u (refr e2 u2 k) (e2 k) k r Hu Pn Pe Hk Hr _ HB') as [E2 [_ F2]].
    exists (Rmax E1 E2). intros m1 e1 u1 H1 Hu1 He. destruct (mie_exact ks l0 lmax Hks Hl r m1 m2 e1 u1 e2 u2 Hr H1 H2) as [c [E V]]. exists c. split; [exact E|].
    destruct (V j q Hj Hq) as [A B0]. destruct (V' j q Hj Hq) as [A' B']. cbv zeta in *. unfold ix in *. fold k in A, B0, A', B'.
    assert (R1 : refr e1 u1 k = sqrt (e1 k * u)) by (unfold refr; now rewrite Hu1).
    destruct (F1 (e1 k) ltac:(eapply Rle_trans; [apply Rmax_l|exact He])) as [T1 _]. destruct (F2 (e1 k) ltac:(eapply Rle_trans; [apply Rmax_r|exact He])) as [_ T2]. cbv zeta in T1, T2.
    rewrite <- R1 in T1, T2. rewrite <- Hu1 in T1. rewrite A, B0, A', B'. unfold ext_val. fold (pec_scale (l0 + j) (refr e2 u2 k) k r). split.
    - apply (shrink _ _ s B HB) in T1. fold k in T1. match type of T1 with Rabs (?a * s - 1 * s) <= _ => set (w := a) in * end. rewrite Rmult_assoc. fold s. rewrite Rmult_1_l in T1. exact T1.
    - apply (shrink _ _ s B HB) in T2. eapply Rle_trans; [|exact T2]. right. f_equal. unfold s, Rdiv. ring.
  Qed.
  Lemma conductor_int r m1 e1 u1 u B : 0 < r -> has m1 e1 u1 -> 0 < u -> 0 < B ->
    exists c', mie_internal exact_bessels ks l0 lmax r m1 PEC = Val c' /\ exists E, forall m2 e2 u2, has m2 e2 u2 -> u2 (nth q ks 0) = u -> E <= e2 (nth q ks 0) ->
      exists c, mie_internal exact_bessels ks l0 lmax r m1 m2 = Val c /\ Rabs (TE c j q - TE c' j q) <= B /\ Rabs (TM c j q - TM c' j q) <= B.
  Proof.
    intros Hr H1 Hu HB. assert (Hk : 0 < nth q ks 0) by (now apply Hks, nth_In).
    destruct (mie_pec_int_exact ks l0 lmax Hks Hl r m1 e1 u1 Hr H1) as [c' [E' V']]. exists c'. split; [exact E'|].
    assert (H1' := H1). destruct H1' as [_ [Q1 _]]. destruct (Q1 _ Hk) as [Pe Pu]. assert (Pn := refr_pos e1 u1 _ Pe Pu).
    set (k := nth q ks 0) in *. set (s := sgn (S (l0 + j)) * 2 / PI * pec_scale_int (l0 + j) (refr e1 u1 k) k r).
    assert (HB' : 0 < B / (Rabs s + 1)) by (apply Rdiv_lt_0_compat; [assumption|generalize (Rabs_pos s); lra]).
    destruct (strong_int (l0 + j) u (refr e1 u1 k) (u1 k) k r Hu Pn Pu Hk Hr _ HB') as [E1 [_ F1]].
    destruct (strong_int (l0 + j) u (refr e1 u1 k) (e1 k) k r Hu Pn Pe Hk Hr _ HB') as [E2 [_ F2]].
    exists (Rmax E1 E2). intros m2 e2 u2 H2 Hu2 He. destruct (mie_int_exact ks l0 lmax Hks Hl r m1 m2 e1 u1 e2 u2 Hr H1 H2) as [c [E V]]. exists c. split; [exact E|].
    destruct (V j q Hj Hq) as [A B0]. destruct (V' j q Hj Hq) as [A' B']. cbv zeta in *. unfold ix in *. fold k in A, B0, A', B'.
    assert (R1 : refr e2 u2 k = sqrt (e2 k * u)) by (unfold refr; now rewrite Hu2).
    destruct (F1 (e2 k) ltac:(eapply Rle_trans; [apply Rmax_l|exact He])) as [T1 _]. destruct (F2 (e2 k) ltac:(eapply Rle_trans; [apply Rmax_r|exact He])) as [_ T2]. cbv zeta in T1, T2.
    rewrite <- R1 in T1, T2. rewrite <- Hu2 in T1. rewrite A, B0, A', B'. unfold int_val. fold (pec_scale_int (l0 + j) (refr e1 u1 k) k r). split.
    - apply (shrink _ _ s B HB) in T1. eapply Rle_trans; [|exact T1]. right. f_equal. unfold s, Rdiv. ring.
    - apply (shrink _ _ s B HB) in T2. eapply Rle_trans; [|exact T2]. right. f_equal. unfold s, Rdiv. ring.
  Qed.
  Lemma pec_product r m e u : 0 < r -> has m e u -> exists c c', mie exact_bessels ks l0 lmax r PEC m = Val c /\ mie_internal exact_bessels ks l0 lmax r m PEC = Val c' /\
    TE c j q * TE c' j q = 1 /\ TM c j q * TM c' j q = 1.
  Proof.
    intros Hr H. assert (Hk : 0 < nth q ks 0) by (now apply Hks, nth_In). assert (H' := H). destruct H' as [_ [Q _]]. destruct (Q _ Hk) as [Pe Pu]. assert (Pn := refr_pos e u _ Pe Pu).
    destruct (mie_pec_exact ks l0 lmax Hks Hl r m e u Hr H) as [c [E V]]. destruct (mie_pec_int_exact ks l0 lmax Hks Hl r m e u Hr H) as [c' [E' V']].
    exists c, c'. split; [exact E|]. split; [exact E'|]. destruct (V j q Hj Hq) as [A B]. destruct (V' j q Hj Hq) as [A' B']. cbv zeta in *. unfold ix in *. set (k := nth q ks 0) in *.
    rewrite A, B, A', B'. set (x := refr e u k * k * r) in *. assert (X : 0 < x) by (unfold x; repeat apply Rmult_lt_0_compat; assumption).
    unfold pec_scale, pec_scale_int. rewrite ik_scale, ki_scale by (fold x; assumption). fold x.
    generalize (sgn_sq (S (l0 + j))) (sph_i_pos (S (l0 + j)) x X) (sph_k_pos (S (l0 + j)) x X) (DI_pos (l0 + j) x X) (DK_neg (l0 + j) x X) (pos_INR (l0 + j)) PI_RGT_0. intros S2 I0 K0 D1 D2 HL HP.
    set (s := sgn (S (l0 + j))) in *. replace 0.5 with (/ 2) by lra. split.
    - transitivity (s * s); [field; lra|exact S2].
    - transitivity (s * s); [field; lra|exact S2].
  Qed.
End Run.
