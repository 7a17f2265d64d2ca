(** * Scattering coefficients of bodies do not depend on the largest order *)
From Coq Require Import Reals.
From Coquelicot Require Import Coquelicot.
From Coq Require Import Bool ZArith List Lia Lra Sorted.
From Verif Require Import Base Help_Proofs Mat_Model Mat_Spec Bessel_Model Bessel_Spec Scat_Model Scat_Spec Scat_Proofs Scat_Proofs4 Scat_Proofs5
  Trans_Model Lin_Model RT_Model RT_Spec RT_Proofs3 RT_Spec2 RT_Proofs10 Rad_Spec Cut_Proofs Layer_Spec Layer_Proofs3 Layer_Proofs4 Layer_Props Bodies_Spec.
Import ListNotations.
Open Scope R_scope.
Lemma stacked_cut mat med mats rs k N N' j : 0 < k -> stacked mat med mats rs -> (N <= N')%nat -> (j < N)%nat ->
  entry TE (layered mat N mats rs) j k = entry TE (layered mat N' mats rs) j k /\ entry TM (layered mat N mats rs) j k = entry TM (layered mat N' mats rs) j k.
Proof.
  intros Hk [m0 [m1 [ms [r0 [rs' [-> [-> [Hl [H0 [Hs [_ [Hm Hc]]]]]]]]]]]] HN Hj. unfold entry, layered.
  set (ef := fun m => eM (mat m)). set (uf := fun m => uM (mat m)).
  assert (Hp : forall m, In m (m1 :: ms) -> has (mat m) (ef m) (uf m)) by (intros m H; apply plain; now apply Hm).
  destruct Hc as [Hc|[Hc Hr]].
  - assert (Hall : forall m, In m (m0 :: m1 :: ms) -> has (mat m) (ef m) (uf m)) by (intros m [<-|H]; [now apply plain|now apply Hp]).
    destruct (strat_solves [k] 0 (Z.of_nat N) (only1 k Hk) ltac:(lia) mat ef uf m0 m1 r0 rs' ms Hl Hall H0 Hs) as [A [-> C]].
    destruct (strat_solves [k] 0 (Z.of_nat N') (only1 k Hk) ltac:(lia) mat ef uf m0 m1 r0 rs' ms Hl Hall H0 Hs) as [A1 [-> C1]]. cbn [flat]. split.
    + apply (proj1 (C1 j 0%nat (TE A j 0) ltac:(lia) ltac:(cbn; lia))). exact (proj2 (proj1 (C j 0%nat (TE A j 0) ltac:(lia) ltac:(cbn; lia))) eq_refl).
    + apply (proj2 (C1 j 0%nat (TM A j 0) ltac:(lia) ltac:(cbn; lia))). exact (proj2 (proj2 (C j 0%nat (TM A j 0) ltac:(lia) ltac:(cbn; lia))) eq_refl).
  - destruct (strat_pec_solves [k] 0 (Z.of_nat N) (only1 k Hk) ltac:(lia) mat ef uf m0 m1 r0 rs' ms Hl Hc Hp H0 Hs Hr) as [A [-> C]].
    destruct (strat_pec_solves [k] 0 (Z.of_nat N') (only1 k Hk) ltac:(lia) mat ef uf m0 m1 r0 rs' ms Hl Hc Hp H0 Hs Hr) as [A1 [-> C1]]. cbn [flat]. split.
    + apply (proj1 (C1 j 0%nat (TE A j 0) ltac:(lia) ltac:(cbn; lia))). exact (proj2 (proj1 (C j 0%nat (TE A j 0) ltac:(lia) ltac:(cbn; lia))) eq_refl).
    + apply (proj2 (C1 j 0%nat (TM A j 0) ltac:(lia) ltac:(cbn; lia))). exact (proj2 (proj2 (C j 0%nat (TM A j 0) ltac:(lia) ltac:(cbn; lia))) eq_refl).
Qed.
Lemma object_cut c sp e u k N N' j : has (c_med c) e u -> 0 < k -> object c sp -> (N <= N')%nat -> (j < N)%nat ->
  entry TE (coefs_of c N sp) j k = entry TE (coefs_of c N' sp) j k /\ entry TM (coefs_of c N sp) j k = entry TM (coefs_of c N' sp) j k.
Proof.
  intros Hm Hk. destruct sp as [m r|mats rs].
  - intros [Hr S] HN Hj. unfold entry, coefs_of.
    destruct (mie_cut exact_bessels [k] N N' r exact_nested (only1 k Hk) ltac:(discriminate) Hr HN m (c_med c) e u S Hm) as [A [A' [-> [-> G]]]].
    destruct (G j 0%nat Hj ltac:(cbn; lia)) as [G1 [G2 G3]]. unfold TE, TM. rewrite G1, G2, G3. split; reflexivity.
  - intros H HN Hj. exact (stacked_cut (c_mat c) (c_med c) mats rs k N N' j Hk H HN Hj).
Qed.
(** entries of the round trip *)
Section Trip.
  Context (c : config) (p q : sphere) (e u : R -> R) (k : R) (N N' M M' : nat).
  Context (Hx : c_ext c = true) (H1 : object c p) (H2 : object c q) (Hm : has (c_med c) e u) (HL : 0 < c_L c) (Hk : 0 < k) (HN : (N <= N')%nat) (HM : (M <= M')%nat).
  Let c0 := truncated (with_spheres c p q) N M.
  Let c1 := truncated (with_spheres c p q) N' M'.
  Lemma bodies_cut m i s : (i < n1 c0 m)%nat -> (s < n2 c0 m)%nat -> let e0 := rt_with exact_bessels c0 m k in let e1 := rt_with exact_bessels c1 m k in
    aTE e0 i = aTE e1 i /\ aTM e0 i = aTM e1 i /\ bTE e0 s = bTE e1 s /\ bTM e0 s = bTM e1 s /\
    V0 e0 i s = V0 e1 i s /\ V1 e0 i s = V1 e1 i s /\ V2 e0 i s = V2 e1 i s /\ V3 e0 i s = V3 e1 i s.
  Proof.
    intros Hi Hs. unfold n1 in Hi. unfold n2 in Hs. assert (P : (1 <= lmin m)%nat) by (unfold lmin; lia).
    change (c_lmax c0) with N in Hi. change (c_lssmax c0) with M in Hs.
    assert (EA : forall c', mieA exact_bessels (with_spheres c' p q) = coefs_of c' (c_lmax c') p) by (intros; unfold mieA, coefs_of; cbn; destruct p; reflexivity).
    assert (EB : forall c', c_ext c' = true -> mieB exact_bessels (with_spheres c' p q) = coefs_of c' (c_lssmax c') q) by (intros c' X; unfold mieB, coefs_of; cbn; rewrite X; destruct q; reflexivity).
    unfold rt_with. cbv zeta. cbn [aTE aTM bTE bTM V0 V1 V2 V3].
    change c0 with (with_spheres (truncated c N M) p q). change c1 with (with_spheres (truncated c N' M') p q). rewrite !EA, !EB by exact Hx.
    destruct (object_cut c p e u k N N' (lmin m - 1 + i) Hm Hk H1 HN ltac:(lia)) as [X1 X2]. destruct (object_cut c q e u k M M' (lmin m - 1 + s) Hm Hk H2 HM ltac:(lia)) as [X3 X4].
    change (coefs_of (truncated c N M)) with (coefs_of c). change (coefs_of (truncated c N' M')) with (coefs_of c). cbn [c_lmax c_lssmax truncated]. rewrite X1, X2, X3, X4.
    assert (T := trans_cut N M N' M' m (c_med c) (c_L c) (c_ext c) (lmin m + i) (lmin m + s) k e u Hm Hk HL ltac:(lia) ltac:(lia) HN HM).
    unfold with_spheres, truncated. cbn [c_1 c_2 c_med c_lmax c_lssmax c_ext c_L].
    rewrite (T v_EEab), (T v_EEba), (T v_EMab), (T v_EMba) by (cbn; tauto). repeat split; reflexivity.
  Qed.
End Trip.
