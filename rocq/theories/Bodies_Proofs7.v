(** * The coefficients of any stratified sphere lie between the two of a perfect reflector *)
From Coq Require Import Reals.
From Coquelicot Require Import Coquelicot.
From Coq Require Import Bool ZArith List Lia Lra Sorted.
From Verif Require Import Base Help_Proofs Mat_Model Mat_Spec Bessel_Model Bessel_Spec Bessel_Proofs Bessel_Proofs2 Scat_Model Scat_Spec Scat_Proofs Scat_Proofs2 Scat_Proofs3 Scat_Proofs4 Scat_Proofs5 Scat_Proofs9 Scat_Proofs11
  RT_Model RT_Spec2 RT_Proofs10 Layer_Spec Layer_Proofs Layer_Proofs2 Layer_Proofs3 Layer_Proofs4 Conv_Spec Conv_Proofs3.
Import ListNotations.
Open Scope R_scope.

Section Stack.
  Context (mat : nat -> material) (med : material) (k : R) (Hk : 0 < k).
  Notation layered := (layered mat).
  Lemma pec_range lmax mats rs j e u : has med e u -> stacked mat med mats rs -> (j < lmax)%nat -> let P := fun ks => mie exact_bessels ks 0 (Z.of_nat lmax) (last rs 0) PEC med in
    0 <= (-1) ^ S j * (entry TE (layered lmax mats rs) j k - entry TM P j k) /\ 0 <= (-1) ^ S j * (entry TE P j k - entry TM (layered lmax mats rs) j k).
  Proof.
    intros Hmed [m0 [m1 [ms [r0 [rs' [-> [-> [Hl [H0 [Hs [Ht [Hm Hc]]]]]]]]]]]] Hj P.
    destruct (strat_runs mat k Hk lmax m0 m1 ms r0 rs' Hl H0 Hs Hm Hc) as [c [core [E [Ec C]]]]. destruct (C j Hj) as [[c1 [d1 [M1 [A1 [A2 _]]]]] [c2 [d2 [M2 [B1 [B2 _]]]]]].
    assert (Hp : forall m, In m (m1 :: ms) -> has (mat m) (eM (mat m)) (uM (mat m))) by (intros m H; apply plain; now apply Hm).
    destruct (ref_sq mat k Hk m1 (Hp m1 (or_introl eq_refl))) as [Q1 [Q2 [Q3 _]]].
    destruct (chain_fine mat k Hk rs' ms r0 Hl Hs ltac:(intros x Hx; apply Hp; now right)) as [F1 F2].
    assert (S1 := end_state j k Hk _ r0 _ _ _ _ _ H0 Q2 Q3 F1 M1 A1 A2). assert (S2 := end_state j k Hk _ r0 _ _ _ _ _ H0 Q1 Q3 F2 M2 B1 B2).
    assert (O := outer_pos _ r0 H0 F1).
    destruct (chain_outer mat k rs' ms r0 Hl) as [O1 O2]. destruct (chain_nout mat k rs' ms m1 Hl) as [N1 N2]. rewrite O1, N1 in S1. rewrite O2, N2 in S2. rewrite O1 in O.
    assert (ER : last (r0 :: rs') 0 = last rs' r0). { destruct rs' as [|x q]; [reflexivity|]. exact (last_def q 0 r0 x). }
    assert (EN : refr_of (fun m => eM (mat m)) (fun m => uM (mat m)) (last (m1 :: ms) 0%nat) k = refr e u k).
    { unfold refr_of, refr. rewrite Ht. destruct (eM_of med e u k Hmed Hk) as [-> ->]. reflexivity. }
    rewrite EN in S1, S2. unfold entry, P, layered. rewrite E, ER. cbn [flat]. set (r := last rs' r0) in *.
    destruct (mie_pec_exact [k] 0 (Z.of_nat lmax) (only1 k Hk) ltac:(lia) r med e u O Hmed) as [cp [Ep Cp]]. rewrite Ep.
    destruct (Cp j 0%nat ltac:(lia) ltac:(cbn; lia)) as [V1 V2]. cbn [nth Nat.add] in V1, V2. unfold ix in V1, V2. cbn [nth] in V1, V2.
    assert (Pn : 0 < refr e u k) by (destruct Hmed as [_ [X _]]; destruct (X k Hk); now apply refr_pos).
    assert (T1 := proj2 (proj1 (pec_ext_unique j (refr e u k) k r Pn Hk O (TE cp j 0))) V1). assert (T2 := proj2 (proj2 (pec_ext_unique j (refr e u k) k r Pn Hk O (TM cp j 0))) V2).
    assert (Z1 : fs j (refr e u k * k) 1 (TE cp j 0) r = 0) by (unfold fs; unfold pec_ext_TE in T1; rewrite Rmult_1_l, T1; ring).
    assert (Z2 : ft j (refr e u k * k) 1 (TM cp j 0) r = 0).
    { rewrite <- (ftE j k Hk) by assumption. unfold pec_ext_TM in T2. rewrite <- T2. apply Derive_ext. intros t. now rewrite Rmult_1_l. }
    assert (Pp : 0 < 1) by lra. assert (F0 : fine r []) by exact Logic.I.
    assert (X1 := zero_field j k Hk [] r 1 (refr e u k) 1 (TE cp j 0) (TE cp j 0) O Pp Pn F0 (conj eq_refl eq_refl) Z1).
    assert (X2 := zero_slope j k Hk [] r 1 (refr e u k) 1 (TM cp j 0) (TM cp j 0) O Pp Pn F0 (conj eq_refl eq_refl) Z2).
    destruct S1 as [S1 S1']. destruct S2 as [S2 S2']. split; (apply (end_compare j 1 (refr e u k * k) _ _ r Pp); [now apply Rmult_lt_0_compat|exact O|]); unfold ww.
    - rewrite Z2. unfold Rdiv at 2. rewrite !Rmult_0_l, Rminus_0_r. apply Rmult_le_pos; [|lra]. apply div_nonneg; lra.
    - rewrite Z1, Rmult_0_r, Rminus_0_r. apply Rmult_le_pos; [|exact S2]. apply div_nonneg; lra.
  Qed.
  Lemma stack_up lmax mats rs j e u pick : has med e u -> stacked mat med mats rs -> (j < lmax)%nat -> pick = TE \/ pick = TM -> Rabs (entry pick (layered lmax mats rs) j k) <= amp (S j) (refr e u k * k * last rs 0).
  Proof.
    intros Hmed Hs Hj Hp. destruct (pec_bound mat med k Hk lmax mats rs j e u Hmed Hs Hj) as [Hr [A1 A2]]. destruct (pec_range lmax mats rs j e u Hmed Hs Hj) as [B1 B2].
    assert (U1 := mie_up lmax med e u Hmed k Hk PEC (last rs 0) j TE (or_introl eq_refl) (or_introl eq_refl) Hr Hj).
    assert (U2 := mie_up lmax med e u Hmed k Hk PEC (last rs 0) j TM (or_intror eq_refl) (or_introl eq_refl) Hr Hj).
    assert (SG : (-1) ^ S j = 1 \/ (-1) ^ S j = -1) by (generalize (S j); intros n; induction n as [|n [IH|IH]]; cbn [pow]; [now left|right|left]; rewrite IH; ring).
    assert (R0 : forall x y z b, 0 <= (-1) ^ S j * (x - z) -> 0 <= (-1) ^ S j * (z - y) -> Rabs x <= b -> Rabs y <= b -> Rabs z <= b).
    { intros x y z b. destruct SG as [-> | ->]; intros H1 H2 H3 H4; apply Rabs_le_between in H3; apply Rabs_le_between in H4; apply Rabs_le_between; lra. }
    destruct Hp as [-> | ->]; [exact (R0 _ _ _ _ A1 B1 U1 U2)|exact (R0 _ _ _ _ B2 A2 U1 U2)].
  Qed.
End Stack.
