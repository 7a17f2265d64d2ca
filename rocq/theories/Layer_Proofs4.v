(** * Stratified spheres of the code: signs of the coefficients and the bound by a perfect reflector *)
From Coq Require Import Reals.
From Coquelicot Require Import Coquelicot.
From Coq Require Import Bool ZArith List Lia Lra Sorted.
From Verif Require Import Base Help_Proofs Mat_Model Mat_Spec Bessel_Model Bessel_Spec Bessel_Proofs Bessel_Proofs2 Scat_Model Scat_Spec Scat_Proofs Scat_Proofs2 Scat_Proofs3 Scat_Proofs4 Scat_Proofs5 Scat_Proofs9 Scat_Proofs11
  RT_Model RT_Spec2 RT_Proofs10 Layer_Spec Layer_Proofs Layer_Proofs2 Layer_Proofs3.
Import ListNotations.
Open Scope R_scope.

Section Stack.
  Context (mat : nat -> material) (med : material) (k : R) (Hk : 0 < k).
  Definition layered (lmax : nat) (mats : list nat) (rs : list R) (ks : list R) : out coefs := flat (strat exact_bessels ks 0 (Z.of_nat lmax) mat mats rs).
  Lemma stacked_val lmax mats rs : stacked mat med mats rs -> exists c, layered lmax mats rs [k] = Val c.
  Proof.
    intros [m0 [m1 [ms [r0 [rs' [-> [-> [Hl [H0 [Hs [_ [Hm Hc]]]]]]]]]]]].
    destruct (strat_runs mat k Hk lmax m0 m1 ms r0 rs' Hl H0 Hs Hm Hc) as [c [core [E _]]]. exists c. unfold layered. now rewrite E.
  Qed.
  Lemma weaker_has M M' : weaker M M' k -> (exists e u, has M' e u) -> eM M k <= eM M' k /\ uM M' k <= uM M k.
  Proof. intros H [e [u H']]. apply weaker_vals; [exact H|exact Hk|]. intros ->. exact (has_pec _ _ H'). Qed.
  Lemma stacked_compare lmax mats mats' rs j : stacked mat med mats rs -> stacked mat med mats' rs -> Forall2 (fun i i' => weaker (mat i) (mat i') k) mats mats' -> (j < lmax)%nat ->
    0 <= (-1) ^ S j * (entry TE (layered lmax mats' rs) j k - entry TE (layered lmax mats rs) j k) /\
    0 <= (-1) ^ S j * (entry TM (layered lmax mats rs) j k - entry TM (layered lmax mats' rs) j k).
  Proof.
    intros [m0 [m1 [ms [r0 [rs' [-> [-> [Hl [H0 [Hs [Ht [Hm Hc]]]]]]]]]]]] [m0' [m1' [ms' [r0' [rs1 [-> [E [Hl' [_ [_ [Ht' [Hm' Hc']]]]]]]]]]]] F Hj. injection E as <- <-.
    destruct (strat_runs mat k Hk lmax m0 m1 ms r0 rs' Hl H0 Hs Hm Hc) as [c [core [E [Ec C]]]].
    destruct (strat_runs mat k Hk lmax m0' m1' ms' r0 rs' Hl' H0 Hs Hm' Hc') as [c' [core' [E' [Ec' C']]]].
    unfold entry, layered. rewrite E, E'. cbn [flat]. inversion_clear F as [|? ? ? ? W F2].
    destruct (C j Hj) as [R1 R2]. destruct (C' j Hj) as [R1' R2'].
    apply (runs_compare mat k Hk j core core' m0 m1 ms m0' m1' ms' r0 rs'); try assumption.
    - intros m Hi. apply plain. now apply Hm.
    - intros m Hi. apply plain. now apply Hm'.
    - clear - F2 Hm' Hk. revert F2 Hm'. generalize (m1 :: ms), (m1' :: ms'). intros p q F. induction F as [|x y p q W F IH]; intros H; constructor.
      + apply weaker_has; [exact W|]. apply H. now left.
      + apply IH. intros m Hi. apply H. now right.
    - now rewrite Ht, Ht'.
    - destruct core'; [now left|]. right. destruct Hc' as [Hc'|[Hc' _]]; [|exfalso; assert (X := proj2 Ec' Hc'); discriminate X].
      assert (P0 : exists e u, has (mat m0) e u). { destruct W as [W|[e [u [_ [_ [W _]]]]]]; [|now exists e, u]. destruct Hc' as [e [u Hc']]. rewrite W in Hc'. exfalso. exact (has_pec _ _ Hc'). }
      split. { destruct core; [|reflexivity]. destruct P0 as [e [u P0]]. rewrite (proj1 Ec eq_refl) in P0. exfalso. exact (has_pec _ _ P0). }
      split; [reflexivity|]. destruct (weaker_has _ _ W Hc'). repeat split; try (now apply plain); assumption.
  Qed.
  (** shells of the medium only *)
  Lemma last_repeat (x : nat) n d : last (repeat x (S n)) d = x.
  Proof. induction n as [|n IH]; [reflexivity|]. exact IH. Qed.
  Lemma medium_stacked mats rs e u : has med e u -> stacked mat med mats rs -> exists z n, mat z = med /\ length mats = S n /\ stacked mat med (repeat z (length mats)) rs.
  Proof.
    intros Hmed [m0 [m1 [ms [r0 [rs' [-> [-> [Hl [H0 [Hs [Ht [Hm Hc]]]]]]]]]]]]. set (z := last (m1 :: ms) 0%nat) in *. exists z, (S (length ms)). split; [exact Ht|]. split; [reflexivity|].
    exists z, z, (repeat z (length ms)), r0, rs'. split; [reflexivity|]. split; [reflexivity|]. split; [now rewrite repeat_length|]. split; [exact H0|]. split; [exact Hs|].
    split; [change (z :: repeat z (length ms)) with (repeat z (S (length ms))); now rewrite last_repeat|]. split.
    - intros m Hi. change (z :: repeat z (length ms)) with (repeat z (S (length ms))) in Hi. apply repeat_spec in Hi. rewrite Hi, Ht. now exists e, u.
    - left. rewrite Ht. now exists e, u.
  Qed.
  Lemma layers_repeat pf nf z rs n : length rs = n -> layers pf nf rs (repeat z n) = map (fun x : R * R * R => (fst (fst x), pf z, nf z)) (map (fun r => (r, 0, 0)) rs).
  Proof. revert n. induction rs as [|r rs IH]; intros [|n] H; try discriminate H; [reflexivity|]. unfold layers in *. cbn. f_equal. apply IH. now injection H. Qed.
  Lemma medium_entry lmax z n rs j : stacked mat med (repeat z (S n)) rs -> (exists e u, has (mat z) e u) -> (j < lmax)%nat -> entry TE (layered lmax (repeat z (S n)) rs) j k = 0 /\ entry TM (layered lmax (repeat z (S n)) rs) j k = 0.
  Proof.
    intros [m0 [m1 [ms [r0 [rs' [E1 [-> [Hl [H0 [Hs [_ _]]]]]]]]]]] Hz Hj. destruct n as [|n]; [discriminate E1|]. cbn [repeat] in E1. injection E1 as <- <- E2. subst ms. rewrite repeat_length in Hl.
    assert (Hall : forall m, In m (z :: z :: repeat z n) -> has (mat m) (eM (mat m)) (uM (mat m))).
    { intros m Hi. change (z :: z :: repeat z n) with (repeat z (S (S n))) in Hi. apply repeat_spec in Hi. rewrite Hi. now apply plain. }
    destruct (strat_solves [k] 0 (Z.of_nat lmax) (only1 k Hk) ltac:(lia) mat (fun m => eM (mat m)) (fun m => uM (mat m)) z z r0 rs' (repeat z n) ltac:(now rewrite repeat_length) Hall H0 Hs) as [c [E C]].
    unfold entry, layered. cbn [repeat]. rewrite E. cbn [flat]. destruct (C j 0%nat 0 ltac:(lia) ltac:(cbn; lia)) as [A B]. cbn [nth Nat.add] in A, B.
    split; symmetry; [apply A|apply B]; exists 1; unfold lte, ltm; change (z :: repeat z n) with (repeat z (S n)); rewrite layers_repeat by (cbn; now rewrite Hl); apply medium_chain.
  Qed.
  Lemma pow_shift j : (-1) ^ (j + 1) = (-1) ^ S j.
  Proof. now rewrite Nat.add_1_r. Qed.
  Lemma forall2_repeat {A B} (P : A -> B -> Prop) x (l : list B) : Forall (P x) l -> Forall2 P (repeat x (length l)) l.
  Proof. intros H. induction H; constructor; assumption. Qed.
  Lemma forall2_repeat' {A B} (P : A -> B -> Prop) y (l : list A) : Forall (fun x => P x y) l -> Forall2 P l (repeat y (length l)).
  Proof. intros H. induction H; constructor; assumption. Qed.
  Lemma stacked_signed lmax s mats rs e u : has med e u -> stacked mat med mats rs ->
    (s = 1 /\ Forall (fun i => weaker med (mat i) k) mats) \/ (s = -1 /\ Forall (fun i => weaker (mat i) med k) mats) -> signed s lmax k (layered lmax mats rs).
  Proof.
    intros Hmed Hst H j Hj. destruct (medium_stacked mats rs e u Hmed Hst) as [z [n [Ez [En Hst']]]].
    assert (Hz : exists e u, has (mat z) e u) by (rewrite Ez; now exists e, u).
    assert (V := medium_entry lmax z n rs j). rewrite <- En in V. destruct (V Hst' Hz Hj) as [V1 V2]. rewrite pow_shift. destruct H as [[-> F]|[-> F]].
    - destruct (stacked_compare lmax (repeat z (length mats)) mats rs j Hst' Hst) as [A B]; [|exact Hj|].
      + apply (forall2_repeat (fun i i' => weaker (mat i) (mat i') k)). rewrite Ez. exact F.
      + rewrite V1 in A. rewrite V2 in B. split; lra.
    - destruct (stacked_compare lmax mats (repeat z (length mats)) rs j Hst Hst') as [A B]; [|exact Hj|].
      + apply (forall2_repeat' (fun i i' => weaker (mat i) (mat i') k)). rewrite Ez. exact F.
      + rewrite V1 in A. rewrite V2 in B. split; lra.
  Qed.
  (** ** the perfect reflector of the outer radius scatters more, whatever the shells are made of *)
  Lemma last_def (q : list R) a b x : last (x :: q) a = last (x :: q) b.
  Proof. revert x. induction q as [|y q IHq]; intros; [reflexivity|cbn; apply IHq]. Qed.
  Lemma pec_bound lmax mats rs j e u : has med e u -> stacked mat med mats rs -> (j < lmax)%nat -> let P := fun ks => mie exact_bessels ks 0 (Z.of_nat lmax) (last rs 0) PEC med in
    0 < last rs 0 /\ 0 <= (-1) ^ S j * (entry TE P j k - entry TE (layered lmax mats rs) j k) /\ 0 <= (-1) ^ S j * (entry TM (layered lmax mats rs) j k - entry TM P j k).
  Proof.
    intros Hmed [m0 [m1 [ms [r0 [rs' [-> [-> [Hl [H0 [Hs [Ht [Hm Hc]]]]]]]]]]]] Hj P.
    destruct (strat_runs mat k Hk lmax m0 m1 ms r0 rs' Hl H0 Hs Hm Hc) as [c [core [E [Ec C]]]]. destruct (C j Hj) as [[c1 [d1 [M1 [A1 [A2 _]]]]] [c2 [d2 [M2 [B1 [B2 _]]]]]].
    assert (Hp : forall m, In m (m1 :: ms) -> has (mat m) (eM (mat m)) (uM (mat m))) by (intros m H; apply plain; now apply Hm).
    destruct (ref_sq mat k Hk m1 (Hp m1 (or_introl eq_refl))) as [Q1 [Q2 [Q3 _]]].
    destruct (chain_fine mat k Hk rs' ms r0 Hl Hs ltac:(intros x Hx; apply Hp; now right)) as [F1 F2].
    assert (S1 := end_state j k Hk _ r0 _ _ _ _ _ H0 Q2 Q3 F1 M1 A1 A2). assert (S2 := end_state j k Hk _ r0 _ _ _ _ _ H0 Q1 Q3 F2 M2 B1 B2).
    assert (O := outer_pos _ r0 H0 F1).
    destruct (chain_outer mat k rs' ms r0 Hl) as [O1 O2]. destruct (chain_nout mat k rs' ms m1 Hl) as [N1 N2]. rewrite O1, N1 in S1. rewrite O2, N2 in S2. rewrite O1 in O.
    assert (ER : last (r0 :: rs') 0 = last rs' r0). { destruct rs' as [|x q]; [reflexivity|]. exact (last_def q 0 r0 x). }
    assert (EN : refr_of (fun m => eM (mat m)) (fun m => uM (mat m)) (last (m1 :: ms) 0%nat) k = refr e u k).
    { unfold refr_of, refr. rewrite Ht. destruct (eM_of med e u k Hmed Hk) as [-> ->]. reflexivity. }
    rewrite EN in S1, S2. unfold entry, P, layered. rewrite E, ER. cbn [flat]. set (r := last rs' r0) in *. split; [exact O|].
    destruct (mie_pec_exact [k] 0 (Z.of_nat lmax) (only1 k Hk) ltac:(lia) r med e u O Hmed) as [cp [Ep Cp]]. rewrite Ep.
    destruct (Cp j 0%nat ltac:(lia) ltac:(cbn; lia)) as [V1 V2]. cbn [nth Nat.add] in V1, V2. unfold ix in V1, V2. cbn [nth] in V1, V2.
    assert (Pn : 0 < refr e u k) by (destruct Hmed as [_ [X _]]; destruct (X k Hk); now apply refr_pos).
    assert (T1 := proj2 (proj1 (pec_ext_unique j (refr e u k) k r Pn Hk O (TE cp j 0))) V1). assert (T2 := proj2 (proj2 (pec_ext_unique j (refr e u k) k r Pn Hk O (TM cp j 0))) V2).
    assert (Z1 : fs j (refr e u k * k) 1 (TE cp j 0) r = 0) by (unfold fs; unfold pec_ext_TE in T1; rewrite Rmult_1_l, T1; ring).
    assert (Z2 : ft j (refr e u k * k) 1 (TM cp j 0) r = 0).
    { rewrite <- (ftE j k Hk) by assumption. unfold pec_ext_TM in T2. rewrite <- T2. apply Derive_ext. intros t. now rewrite Rmult_1_l. }
    assert (Pp : 0 < 1) by lra. assert (F0 : fine r []) by exact Logic.I.
    assert (X1 := zero_field j k Hk [] r 1 (refr e u k) 1 (TE cp j 0) (TE cp j 0) O Pp Pn F0 (conj eq_refl eq_refl) Z1).
    assert (X2 := zero_slope j k Hk [] r 1 (refr e u k) 1 (TM cp j 0) (TM cp j 0) O Pp Pn F0 (conj eq_refl eq_refl) Z2).
    destruct S1 as [S1 S1']. destruct S2 as [S2 S2']. split; (apply (end_compare j 1 (refr e u k * k) _ _ r Pp); [now apply Rmult_lt_0_compat|exact O|]); unfold ww.
    - rewrite Z1, Rmult_0_r, Rminus_0_r. apply Rmult_le_pos; [|exact S1]. apply div_nonneg; lra.
    - rewrite Z2. unfold Rdiv at 2. rewrite !Rmult_0_l, Rminus_0_r. apply Rmult_le_pos; [|lra]. apply div_nonneg; lra.
  Qed.
End Stack.
