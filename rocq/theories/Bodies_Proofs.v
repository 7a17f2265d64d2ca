(** * Scattering coefficients of bodies for many wavenumbers at once *)
From Coq Require Import Reals.
From Coquelicot Require Import Coquelicot.
From Coq Require Import Bool ZArith List Lia Lra Sorted.
From Verif Require Import Base Help_Proofs Mat_Model Mat_Spec Bessel_Model Bessel_Spec Bessel_Proofs Bessel_Proofs2 Scat_Model Scat_Spec Scat_Proofs Scat_Proofs2 Scat_Proofs3 Scat_Proofs4 Scat_Proofs5 Scat_Proofs9 Scat_Proofs11
  Trans_Model Lin_Model RT_Model RT_Spec RT_Proofs3 RT_Spec2 RT_Proofs10 Run_Model Run_Spec Run_Proofs Layer_Spec Layer_Proofs Layer_Proofs2 Layer_Proofs3 Layer_Proofs4 Bodies_Spec.
Import ListNotations.
Open Scope R_scope.

Definition equal_at (n : nat) (A : coefs) (q : nat) (A1 : coefs) : Prop := forall j, (j < n)%nat -> TE A j q = TE A1 j 0 /\ TM A j q = TM A1 j 0.
Lemma entry_equal n A q A1 : entrywise n A q A1 -> equal_at n A q A1.
Proof. intros H j Hj. destruct (H j Hj) as [E1 [E2 E3]]. unfold TE, TM, te_at, tm_at, scale_at in *. rewrite E1, E2, E3. split; reflexivity. Qed.
Lemma stacked_many mat med mats rs n ks : stacked mat med mats rs -> (forall k, In k ks -> 0 < k) ->
  exists A, layered mat n mats rs ks = Val A /\ forall q, (q < length ks)%nat -> exists A1, layered mat n mats rs [nth q ks 0] = Val A1 /\ equal_at n A q A1.
Proof.
  intros [m0 [m1 [ms [r0 [rs' [-> [-> [Hl [H0 [Hs [_ [Hm Hc]]]]]]]]]]]] Hks. unfold layered.
  set (ef := fun m => eM (mat m)). set (uf := fun m => uM (mat m)).
  assert (Hp : forall m, In m (m1 :: ms) -> has (mat m) (ef m) (uf m)) by (intros m H; apply plain; now apply Hm).
  assert (One : forall q, (q < length ks)%nat -> forall k, In k [nth q ks 0] -> 0 < k) by (intros q Hq k [<-|[]]; now apply Hks, nth_In).
  destruct Hc as [Hc|[Hc Hr]].
  - assert (Hall : forall m, In m (m0 :: m1 :: ms) -> has (mat m) (ef m) (uf m)) by (intros m [<-|H]; [now apply plain|now apply Hp]).
    destruct (strat_solves ks 0 (Z.of_nat n) Hks ltac:(lia) mat ef uf m0 m1 r0 rs' ms Hl Hall H0 Hs) as [A [E C]]. exists A. rewrite E. split; [reflexivity|]. intros q Hq.
    destruct (strat_solves _ 0 (Z.of_nat n) (One q Hq) ltac:(lia) mat ef uf m0 m1 r0 rs' ms Hl Hall H0 Hs) as [A1 [E1 C1]]. exists A1. rewrite E1. split; [reflexivity|]. intros j Hj.
    split.
    + apply (proj1 (C1 j 0%nat (TE A j q) ltac:(lia) ltac:(cbn; lia))). exact (proj2 (proj1 (C j q (TE A j q) ltac:(lia) Hq)) eq_refl).
    + apply (proj2 (C1 j 0%nat (TM A j q) ltac:(lia) ltac:(cbn; lia))). exact (proj2 (proj2 (C j q (TM A j q) ltac:(lia) Hq)) eq_refl).
  - destruct (strat_pec_solves ks 0 (Z.of_nat n) Hks ltac:(lia) mat ef uf m0 m1 r0 rs' ms Hl Hc Hp H0 Hs Hr) as [A [E C]]. exists A. rewrite E. split; [reflexivity|]. intros q Hq.
    destruct (strat_pec_solves _ 0 (Z.of_nat n) (One q Hq) ltac:(lia) mat ef uf m0 m1 r0 rs' ms Hl Hc Hp H0 Hs Hr) as [A1 [E1 C1]]. exists A1. rewrite E1. split; [reflexivity|]. intros j Hj.
    split.
    + apply (proj1 (C1 j 0%nat (TE A j q) ltac:(lia) ltac:(cbn; lia))). exact (proj2 (proj1 (C j q (TE A j q) ltac:(lia) Hq)) eq_refl).
    + apply (proj2 (C1 j 0%nat (TM A j q) ltac:(lia) ltac:(cbn; lia))). exact (proj2 (proj2 (C j q (TM A j q) ltac:(lia) Hq)) eq_refl).
Qed.

Section Bodies.
  Context (c : config) (e u : R -> R) (ks : list R) (H : objects c e u) (Hne : ks <> []) (Hks : forall k, In k ks -> 0 < k).
  Lemma at_all : elementwise_at exact_bessels c ks.
  Proof. apply exact_at, trans_at_ext. apply H. Qed.
  Lemma body_manyA : exists A, mieA exact_bessels c ks = Val A /\ forall q, (q < length ks)%nat -> exists A1, mieA exact_bessels c [nth q ks 0] = Val A1 /\ equal_at (c_lmax c) A q A1.
  Proof.
    destruct H as [H1 [_ [_ [Hm _]]]]. destruct (c_1 c) as [m r|mats rs] eqn:E1.
    - destruct H1 as [_ S1]. destruct (mieA_many exact_bessels c m r e u ks E1 S1 Hm Hks at_all) as [A [EA F]]. exists A. split; [exact EA|]. intros q Hq.
      destruct (F q Hq) as [A1 [EA1 X]]. exists A1. split; [exact EA1|now apply entry_equal].
    - unfold mieA. rewrite E1. exact (stacked_many _ _ mats rs (c_lmax c) ks H1 Hks).
  Qed.
  Lemma body_manyB : exists A, mieB exact_bessels c ks = Val A /\ forall q, (q < length ks)%nat -> exists A1, mieB exact_bessels c [nth q ks 0] = Val A1 /\ equal_at (c_lssmax c) A q A1.
  Proof.
    destruct H as [_ [H1 [_ [Hm _]]]]. destruct (c_2 c) as [m r|mats rs] eqn:E1.
    - destruct H1 as [_ S1]. destruct (mieB_many exact_bessels c m r e u ks E1 S1 Hm Hks at_all) as [A [EA F]]. exists A. split; [exact EA|]. intros q Hq.
      destruct (F q Hq) as [A1 [EA1 X]]. exists A1. split; [exact EA1|now apply entry_equal].
    - unfold mieB. rewrite E1. exact (stacked_many _ _ mats rs (c_lssmax c) ks H1 Hks).
  Qed.
  Lemma bodies_many m A B V q : mieA exact_bessels c ks = Val A -> mieB exact_bessels c ks = Val B -> trans trans_bessels c m ks = Val V -> (q < length ks)%nat ->
    same_coefs (n1 c m) (n2 c m) (pack m A B V q) (rt_with exact_bessels c m (nth q ks 0)).
  Proof.
    intros EA EB EV Hq. destruct H as [_ [_ [Hx [Hm [HL _]]]]]. destruct body_manyA as [A' [EA' FA]]. rewrite EA in EA'. injection EA' as <-.
    destruct body_manyB as [B' [EB' FB]]. rewrite EB in EB'. injection EB' as <-.
    destruct (trans_many c m e u ks Hm HL (trans_at_ext _ _ Hx) Hne Hks) as [V' [EV' FV]]. rewrite EV in EV'. injection EV' as <-.
    destruct (FA q Hq) as [A1 [EA1 FA1]]. destruct (FB q Hq) as [B1 [EB1 FB1]].
    unfold rt_with, pack, same_coefs. cbn [aTE aTM a2 bTE bTM b2 V0 V1 V2 V3 V4]. rewrite exp_0. split; [|split].
    - intros i Hi. unfold entry. rewrite EA1, !Rmult_1_r. exact (FA1 (lmin m - 1 + i)%nat ltac:(unfold n1, lmin in *; lia)).
    - intros i Hi. unfold entry. rewrite EB1, !Rmult_1_r. exact (FB1 (lmin m - 1 + i)%nat ltac:(unfold n2, lmin in *; lia)).
    - intros i s Hi Hs. rewrite !Rmult_1_r. now apply FV.
  Qed.
End Bodies.
