(** * Bodies that scatter: the electric coefficients do not vanish *)
From Coq Require Import Reals.
From Coquelicot Require Import Coquelicot.
From Coq Require Import Bool ZArith List Lia Lra Sorted.
From Verif Require Import Base Help_Proofs Mat_Model Mat_Spec Bessel_Model Bessel_Spec Bessel_Proofs Bessel_Proofs2 Scat_Model Scat_Spec Scat_Proofs Scat_Proofs2 Scat_Proofs3 Scat_Proofs4 Scat_Proofs5 Scat_Proofs9 Scat_Proofs11
  RT_Model RT_Spec2 RT_Proofs10 Layer_Spec Layer_Proofs Layer_Proofs2 Layer_Proofs3 Layer_Proofs4 Bodies_Proofs5.
Import ListNotations.
Open Scope R_scope.

Section Stack.
  Context (mat : nat -> material) (med : material) (k : R) (Hk : 0 < k).
  Let ef (m : nat) := eM (mat m).
  Let uf (m : nat) := uM (mat m).
  Notation nf m := (refr_of ef uf m k).
  Lemma gap_at z : has (mat z) (ef z) (uf z) -> forall rs ms m s0 i, length rs = length ms -> (forall x, In x (m :: ms) -> has (mat x) (ef x) (uf x)) ->
    (i < length rs)%nat -> nth i (s0 :: rs) 0 < nth i rs 0 -> ef z k < ef (nth i (m :: ms) 0%nat) k ->
    gap s0 (uf m k) (nf m) (uf z k) (nf z) (lte ef uf k rs ms) (lte ef uf k rs (repeat z (length ms))).
  Proof.
    intros Hz. destruct (ref_sq mat k Hk z Hz) as [_ [_ [_ [Z4 _]]]]. fold ef uf in Z4.
    induction rs as [|r rs IH]; intros [|m1 ms] m s0 i Hl H Hi Hr He; try discriminate Hl; [cbn in Hi; lia|].
    destruct (ref_sq mat k Hk m (H m (or_introl eq_refl))) as [_ [_ [_ [Q4 _]]]]. fold ef uf in Q4.
    unfold lte, layers in *. cbn [combine map fst snd gap repeat length]. destruct i as [|i].
    - left. cbn [nth] in Hr, He. split; [exact Hr|]. assert (Q5 := Q4). assert (Z5 := Z4). unfold ef, uf in *. rewrite Z5, Q5. exact He.
    - right. apply (IH ms m1 r i); [now injection Hl|intros x Hx; apply H; now right|cbn in Hi; lia|exact Hr|exact He].
  Qed.
  Lemma medium_lte z rs n : length rs = n -> forall l, strat_match (S l) k (uf z k) (nf z) 1 0 (lte ef uf k rs (repeat z n)) 0.
  Proof. intros H l. unfold lte. rewrite layers_repeat by exact H. apply medium_chain. Qed.
  Lemma stacked_bright lmax mats rs e u j : has med e u -> stacked mat med mats rs -> Forall (fun i => weaker med (mat i) k) mats ->
    (mat (hd 0%nat mats) = PEC \/ exists i e1 u1, (i < length rs)%nat /\ nth i (0 :: rs) 0 < nth i rs 0 /\ has (mat (nth i mats 0%nat)) e1 u1 /\ e k < e1 k) ->
    (j < lmax)%nat -> 0 < (-1) ^ S j * entry TE (layered mat lmax mats rs) j k.
  Proof.
    intros Hmed [m0 [m1 [ms [r0 [rs' [-> [-> [Hl [H0 [Hs [Ht [Hm Hc]]]]]]]]]]]] F HB Hj. set (z := last (m1 :: ms) 0%nat) in *.
    destruct (strat_runs mat k Hk lmax m0 m1 ms r0 rs' Hl H0 Hs Hm Hc) as [c [core [E [Ec C]]]]. destruct (C j Hj) as [[c1 [d1 [M1 [A1 [A2 A3]]]]] _].
    unfold entry, layered. rewrite E. cbn [flat]. fold ef uf in M1, A1, A2, A3.
    assert (Hz : has (mat z) (ef z) (uf z)) by (apply plain; rewrite Ht; now exists e, u).
    assert (Hp : forall m, In m (m1 :: ms) -> has (mat m) (ef m) (uf m)) by (intros m H; apply plain; now apply Hm).
    assert (Hr : forall n x, In x (repeat z n) -> has (mat x) (ef x) (uf x)) by (intros n x H; apply repeat_spec in H; now rewrite H).
    destruct (ref_sq mat k Hk z Hz) as [_ [Z2 [Z3 _]]]. fold ef uf in Z2, Z3.
    assert (FW : forall l, (forall m, In m l -> has (mat m) (ef m) (uf m)) -> Forall (fun i => weaker med (mat i) k) l -> Forall2 (fun x y => ef x k <= ef y k /\ uf y k <= uf x k) (repeat z (length l)) l).
    { induction l as [|x l IH]; intros H G; [constructor|]. inversion_clear G as [|? ? G1 G2]. cbn [length repeat]. constructor; [|apply IH; [intros m Hi; apply H; now right|exact G2]].
      unfold ef, uf. rewrite Ht. apply (weaker_has k Hk); [exact G1|]. exists (ef x), (uf x). apply H. now left. }
    inversion_clear F as [|? ? W F2].
    assert (X : 0 < (-1) ^ S j * (TE c j 0 - 0)); [|now rewrite Rminus_0_r in X].
    destruct core.
    - destruct (chain_cmp mat k Hk rs' (repeat z (length ms)) ms z m1 r0) as [K1 _]; [now rewrite repeat_length|exact Hs|exact (Hr (S (length ms)))|exact Hp|exact (FW (m1 :: ms) Hp F2)| |].
      { change (z :: repeat z (length ms)) with (repeat z (S (length ms))). now rewrite last_repeat. }
      fold ef uf in K1. destruct (cmp_fine _ _ _ _ _ _ _ K1) as [F1 _]. destruct (ref_sq mat k Hk m1 (Hp m1 (or_introl eq_refl))) as [_ [Q2 [Q3 _]]]. fold ef uf in Q2, Q3.
      assert (T := zero_field j k Hk _ r0 _ _ _ _ _ H0 Q2 Q3 F1 M1 A3).
      assert (P01 : 0 <= 1) by lra. destruct (regular_state j (nf z * k) 1 r0 (nk_pos k Hk _ Z3) H0 P01) as [B1 B2].
      assert (B3 : 0 < fs j (nf z * k) 1 0 r0). { destruct (values j (nf z * k) r0 (nk_pos k Hk _ Z3) H0) as [I _]. unfold fs. rewrite Rmult_0_l, Rplus_0_r, Rmult_1_l. now apply Rmult_lt_0_compat. }
      assert (WP : 0 < ww j (uf m1 k) (nf m1 * k) c1 d1 (uf z k) (nf z * k) 1 0 r0).
      { unfold ww. rewrite A3, Rmult_0_r, Rminus_0_r. apply Rmult_lt_0_compat; [now apply Rdiv_lt_0_compat|exact B3]. }
      apply (chain_strict j k Hk _ _ r0 _ _ c1 d1 _ _ 1 0 _ _ H0 K1 M1 (medium_lte z rs' (length ms) Hl j) A1 A2 B1 B2); [left; exact WP|left; exact WP].
    - assert (Hc0 : exists e u, has (mat m0) e u). { destruct Hc as [Hc|[Hc _]]; [exact Hc|]. assert (Y := proj2 Ec Hc). discriminate Y. }
      destruct A3 as [b M]. assert (Hall : forall m, In m (m0 :: m1 :: ms) -> has (mat m) (ef m) (uf m)) by (intros m [<-|H]; [now apply plain|now apply Hp]).
      assert (S2 : Sorted Rle (r0 / 2 :: r0 :: rs')) by (constructor; [exact Hs|constructor; lra]). assert (H2 : 0 < r0 / 2) by lra.
      destruct (chain_cmp mat k Hk (r0 :: rs') (repeat z (length (m1 :: ms))) (m1 :: ms) z m0 (r0 / 2)) as [K1 _]; [rewrite repeat_length; cbn; now rewrite Hl|exact S2|exact (Hr (S (S (length ms))))|exact Hall|exact (FW (m0 :: m1 :: ms) Hall (@Forall_cons _ _ m0 (m1 :: ms) W F2))| |].
      { change (z :: repeat z (length (m1 :: ms))) with (repeat z (S (S (length ms)))). rewrite last_repeat. reflexivity. }
      fold ef uf in K1. destruct (cmp_fine _ _ _ _ _ _ _ K1) as [F1 _]. destruct (cmp_head _ _ _ _ _ _ _ K1) as [Kp [Kn1 [Kn2 Kq]]].
      destruct (ref_sq mat k Hk m0 (Hall m0 (or_introl eq_refl))) as [_ [Q2 [Q3 _]]]. fold ef uf in Q2, Q3.
      assert (Pb := core_pos j k Hk _ _ _ _ _ _ H2 Q2 Q3 F1 M). destruct (core_state j k Hk _ _ _ _ _ _ H2 Q2 Q3 F1 M) as [S3 S4].
      assert (P01 : 0 <= 1) by lra. destruct (regular_state j (nf z * k) 1 (r0 / 2) (nk_pos k Hk _ Z3) H2 P01) as [B1 B2].
      apply (chain_strict j k Hk _ _ (r0 / 2) _ _ b 0 _ _ 1 0 _ _ H2 K1 M (medium_lte z (r0 :: rs') (length (m1 :: ms)) ltac:(cbn; now rewrite Hl) j) S3 S4 B1 B2).
      + apply (regular_compare j); [now apply nk_pos|now apply nk_pos|exact Kp|now apply (sq_scale k Hk)|exact H2|lra|lra].
      + right. destruct HB as [HB|[i [e1 [u1 [Hi [Hn [Hh He]]]]]]].
        { exfalso. cbn in HB. destruct Hc0 as [e' [u' Hc0]]. rewrite HB in Hc0. exact (has_pec _ _ Hc0). }
        apply (gap_at z Hz (r0 :: rs') (m1 :: ms) m0 (r0 / 2) i); [cbn; now rewrite Hl|exact Hall|exact Hi| |].
        * destruct i as [|i]; [cbn; lra|exact Hn].
        * unfold ef. rewrite Ht. destruct (eM_of _ _ _ k Hmed Hk) as [-> _]. destruct (eM_of _ _ _ k Hh Hk) as [-> _]. exact He.
  Qed.
End Stack.
