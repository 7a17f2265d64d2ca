(** * Strict comparison of the fields in two chains of shells *)
From Coq Require Import Reals.
From Coquelicot Require Import Coquelicot.
From Coq Require Import Bool ZArith List Lia Lra Sorted.
From Verif Require Import Base Help_Proofs Bessel_Model Bessel_Spec Bessel_Proofs Bessel_Proofs2 Scat_Model Scat_Spec Scat_Proofs Scat_Proofs2 Scat_Proofs3 Scat_Proofs11 Layer_Proofs Layer_Proofs2.
Import ListNotations.
Open Scope R_scope.

Lemma strict_from (f df : R -> R) a b : a < b -> (forall x, a <= x <= b -> is_derive f x (df x)) -> (forall x, a < x < b -> 0 < df x) -> f a < f b.
Proof.
  intros Hab H P. destruct (MVT_cor2 f df a b Hab) as [x [E Hx]].
  - intros x Hx. apply is_derive_Reals. now apply H.
  - assert (Q := Rmult_lt_0_compat _ _ (P x Hx) (Rlt_Rminus _ _ Hab)). lra.
Qed.
Section Field.
  Context (l : nat).
  (** a field with a non-negative state that does not vanish is positive further out *)
  Lemma field_pos ka c d a b : 0 < ka -> 0 < a -> a < b -> 0 <= fs l ka c d a -> 0 <= ft l ka c d a -> 0 < fs l ka c d a \/ 0 < ft l ka c d a -> 0 < fs l ka c d b.
  Proof.
    intros Hk Ha Hab A B C.
    assert (G : forall x, a <= x -> 0 <= fs l ka c d x /\ 0 <= ft l ka c d x) by (intros x Hx; now apply (grow l ka c d a x)).
    assert (D : forall x, a <= x -> is_derive (fs l ka c d) x (ft l ka c d x)) by (intros x Hx; apply fs_derive; lra).
    destruct C as [C|C].
    - apply Rlt_le_trans with (1 := C). apply (incr_from (fs l ka c d) (ft l ka c d)); [lra|exact D|]. intros x Hx. now apply G.
    - apply Rle_lt_trans with (1 := A). apply (strict_from (fs l ka c d) (ft l ka c d)); [exact Hab|intros x Hx; apply D; lra|].
      intros x Hx. apply Rlt_le_trans with (1 := C). apply (incr_from (ft l ka c d) (fun s => qq l ka s * fs l ka c d s)); [lra|intros y Hy; apply ft_derive; lra|].
      intros y Hy. apply Rmult_le_pos; [left; apply qq_pos; lra|now apply G].
  Qed.
  Lemma compare_gap p1 k1 c1 d1 p2 k2 c2 d2 a b : 0 < k1 -> 0 < k2 -> 0 < p1 <= p2 -> k2 ^ 2 / p2 < k1 ^ 2 / p1 -> 0 < a -> a < b ->
    0 <= fs l k1 c1 d1 a -> 0 <= ft l k1 c1 d1 a -> 0 <= fs l k2 c2 d2 a -> 0 <= ft l k2 c2 d2 a ->
    0 < fs l k1 c1 d1 a \/ 0 < ft l k1 c1 d1 a -> 0 < fs l k2 c2 d2 a \/ 0 < ft l k2 c2 d2 a ->
    ww l p1 k1 c1 d1 p2 k2 c2 d2 a < ww l p1 k1 c1 d1 p2 k2 c2 d2 b.
  Proof.
    intros Hk1 Hk2 Hp Hq Ha Hab A1 A2 A3 A4 N1 N2.
    apply (strict_from _ (fun s => (qq l k1 s / p1 - qq l k2 s / p2) * (fs l k1 c1 d1 s * fs l k2 c2 d2 s) + (/ p1 - / p2) * (ft l k1 c1 d1 s * ft l k2 c2 d2 s))); [exact Hab| |].
    - intros x [Hx _]. assert (Px : 0 < x) by lra. unfold ww.
      apply (is_derive_pos_ext _ (fun s => / p1 * (ft l k1 c1 d1 s * fs l k2 c2 d2 s) + - / p2 * (ft l k2 c2 d2 s * fs l k1 c1 d1 s))); [exact Px|intros t _; unfold Rdiv; ring|].
      assert (E1 := fs_derive l k1 c1 d1 x Hk1 Px). assert (E2 := fs_derive l k2 c2 d2 x Hk2 Px). assert (E3 := ft_derive l k1 c1 d1 x Hk1 Px). assert (E4 := ft_derive l k2 c2 d2 x Hk2 Px).
      exact (ww_derive (fs l k1 c1 d1) (ft l k1 c1 d1) (fs l k2 c2 d2) (ft l k2 c2 d2) (qq l k1 x) (qq l k2 x) (/ p1) (/ p2) x E1 E3 E2 E4).
    - intros x [Hx _]. assert (Px : 0 < x) by lra. assert (Hx' : a <= x) by lra. destruct (grow l k1 c1 d1 a x Hk1 Ha Hx' A1 A2) as [B1 B2]. destruct (grow l k2 c2 d2 a x Hk2 Ha Hx' A3 A4) as [B3 B4].
      assert (C1 := field_pos k1 c1 d1 a x Hk1 Ha Hx A1 A2 N1). assert (C2 := field_pos k2 c2 d2 a x Hk2 Ha Hx A3 A4 N2).
      assert (IP : / p2 <= / p1) by (apply Rinv_le_contravar; lra).
      apply Rplus_lt_le_0_compat; [apply Rmult_lt_0_compat; [|now apply Rmult_lt_0_compat]|apply Rmult_le_pos; [lra|now apply Rmult_le_pos]].
      unfold qq. assert (N := pos_INR l). assert (X2 : 0 < x ^ 2) by now apply pow_lt. set (w := (INR l + 1) * (INR l + 2) / x ^ 2).
      assert (0 <= w) by (left; apply Rdiv_lt_0_compat; [apply Rmult_lt_0_compat; lra|exact X2]).
      replace ((k1 ^ 2 + w) / p1 - (k2 ^ 2 + w) / p2) with ((k1 ^ 2 / p1 - k2 ^ 2 / p2) + w * (/ p1 - / p2)) by (unfold Rdiv; ring).
      apply Rplus_lt_le_0_compat; [lra|apply Rmult_le_pos; lra].
  Qed.
  Lemma mono_ww p1 k1 c1 d1 p2 k2 c2 d2 a b : 0 < k1 -> 0 < k2 -> 0 < p1 <= p2 -> k2 ^ 2 / p2 <= k1 ^ 2 / p1 -> 0 < a -> a <= b ->
    0 <= fs l k1 c1 d1 a -> 0 <= ft l k1 c1 d1 a -> 0 <= fs l k2 c2 d2 a -> 0 <= ft l k2 c2 d2 a ->
    ww l p1 k1 c1 d1 p2 k2 c2 d2 a <= ww l p1 k1 c1 d1 p2 k2 c2 d2 b.
  Proof.
    intros Hk1 Hk2 Hp Hq Ha Hab A1 A2 A3 A4.
    apply (incr_from _ (fun s => (qq l k1 s / p1 - qq l k2 s / p2) * (fs l k1 c1 d1 s * fs l k2 c2 d2 s) + (/ p1 - / p2) * (ft l k1 c1 d1 s * ft l k2 c2 d2 s))); [exact Hab| |].
    - intros x Hx. assert (Px : 0 < x) by lra. unfold ww.
      apply (is_derive_pos_ext _ (fun s => / p1 * (ft l k1 c1 d1 s * fs l k2 c2 d2 s) + - / p2 * (ft l k2 c2 d2 s * fs l k1 c1 d1 s))); [exact Px|intros t _; unfold Rdiv; ring|].
      assert (E1 := fs_derive l k1 c1 d1 x Hk1 Px). assert (E2 := fs_derive l k2 c2 d2 x Hk2 Px). assert (E3 := ft_derive l k1 c1 d1 x Hk1 Px). assert (E4 := ft_derive l k2 c2 d2 x Hk2 Px).
      exact (ww_derive (fs l k1 c1 d1) (ft l k1 c1 d1) (fs l k2 c2 d2) (ft l k2 c2 d2) (qq l k1 x) (qq l k2 x) (/ p1) (/ p2) x E1 E3 E2 E4).
    - intros x Hx. assert (Px : 0 < x) by lra. destruct (grow l k1 c1 d1 a x Hk1 Ha Hx A1 A2) as [B1 B2]. destruct (grow l k2 c2 d2 a x Hk2 Ha Hx A3 A4) as [B3 B4].
      assert (IP : / p2 <= / p1) by (apply Rinv_le_contravar; lra).
      apply Rplus_le_le_0_compat; apply Rmult_le_pos; [|now apply Rmult_le_pos|lra|now apply Rmult_le_pos].
      unfold qq. assert (N := pos_INR l). assert (X2 : 0 < x ^ 2) by now apply pow_lt. set (w := (INR l + 1) * (INR l + 2) / x ^ 2).
      assert (0 <= w) by (left; apply Rdiv_lt_0_compat; [apply Rmult_lt_0_compat; lra|exact X2]).
      replace ((k1 ^ 2 + w) / p1 - (k2 ^ 2 + w) / p2) with ((k1 ^ 2 / p1 - k2 ^ 2 / p2) + w * (/ p1 - / p2)) by (unfold Rdiv; ring).
      apply Rplus_le_le_0_compat; [lra|apply Rmult_le_pos; lra].
  Qed.
  Lemma end_strict p ka a1 a2 s : 0 < p -> 0 < ka -> 0 < s -> 0 < ww l p ka 1 a1 p ka 1 a2 s -> 0 < (-1) ^ S l * (a1 - a2).
  Proof.
    intros Hp Hk Hs W. destruct (end_compare l p ka a1 a2 s Hp Hk Hs (Rlt_le _ _ W)) as [H|H]; [exact H|exfalso].
    assert (E : a1 = a2). { assert (N : (-1) ^ S l <> 0) by (apply pow_nonzero; lra). symmetry in H. apply Rmult_integral in H. destruct H; [contradiction|lra]. }
    rewrite E in W. unfold ww in W. lra.
  Qed.
End Field.
Section Chain.
  Context (l : nat) (k : R) (Hk : 0 < k).
  Notation f n := (fs l (n * k)).
  Notation t n := (ft l (n * k)).
  Notation match_ := (strat_match (S l) k).
  (** somewhere the first chain is strictly denser over some thickness *)
  Fixpoint gap (s0 p1 n1 p2 n2 : R) (ls1 ls2 : list (R * R * R)) : Prop :=
    match ls1, ls2 with
    | (r, p1', n1') :: t1, (_, p2', n2') :: t2 => (s0 < r /\ n2 ^ 2 / p2 < n1 ^ 2 / p1) \/ gap r p1' n1' p2' n2' t1 t2
    | _, _ => False
    end.
  Lemma state_pos ls s0 p n c d a : 0 < s0 -> 0 < p -> 0 < n -> fine s0 ls -> match_ p n c d ls a -> 0 <= f n c d s0 -> 0 <= t n c d s0 -> 0 < f n c d s0 \/ 0 < t n c d s0.
  Proof.
    intros H0 Hp Hn F M [A|A] B; [now left|]. right. exact (zero_field l k Hk ls s0 p n c d a H0 Hp Hn F M (eq_sym A)).
  Qed.
  Lemma sq_strict p1 n1 p2 n2 : n2 ^ 2 / p2 < n1 ^ 2 / p1 -> (n2 * k) ^ 2 / p2 < (n1 * k) ^ 2 / p1.
  Proof.
    intros H. replace ((n2 * k) ^ 2 / p2) with (k ^ 2 * (n2 ^ 2 / p2)) by (unfold Rdiv; ring). replace ((n1 * k) ^ 2 / p1) with (k ^ 2 * (n1 ^ 2 / p1)) by (unfold Rdiv; ring).
    apply Rmult_lt_compat_l; [now apply pow_lt|exact H].
  Qed.
  Lemma chain_strict ls1 : forall ls2 s0 p1 n1 c1 d1 p2 n2 c2 d2 a1 a2, 0 < s0 -> cmp s0 p1 n1 p2 n2 ls1 ls2 ->
    match_ p1 n1 c1 d1 ls1 a1 -> match_ p2 n2 c2 d2 ls2 a2 ->
    0 <= f n1 c1 d1 s0 -> 0 <= t n1 c1 d1 s0 -> 0 <= f n2 c2 d2 s0 -> 0 <= t n2 c2 d2 s0 ->
    0 <= ww l p1 (n1 * k) c1 d1 p2 (n2 * k) c2 d2 s0 -> 0 < ww l p1 (n1 * k) c1 d1 p2 (n2 * k) c2 d2 s0 \/ gap s0 p1 n1 p2 n2 ls1 ls2 -> 0 < (-1) ^ S l * (a1 - a2).
  Proof.
    induction ls1 as [|[[r p1'] n1'] t1 IH]; intros [|[[r' p2'] n2'] t2] s0 p1 n1 c1 d1 p2 n2 c2 d2 a1 a2 H0 HC M1 M2 A1 A2 A3 A4 W G; destruct (cmp_fine _ _ _ _ _ _ _ HC) as [F1 F2]; destruct HC as [Hp [Hn1 [Hn2 [Hq H]]]]; try easy.
    - destruct H as [<- <-]. destruct M1 as [-> ->]. destruct M2 as [-> ->]. destruct G as [G|[]]. apply (end_strict l p1 (n1 * k) a1 a2 s0); [lra|now apply nk_pos|exact H0|exact G].
    - destruct H as [<- [H1 H2]]. assert (Pr : 0 < r) by lra. destruct (cmp_head _ _ _ _ _ _ _ H2) as [Hp' [Hn1' [Hn2' Hq']]].
      destruct (step l k Hk _ _ _ _ _ _ _ _ _ Pr Hn1 Hn1' M1) as [c1' [d1' [E1 [E2 M1']]]].
      destruct (step l k Hk _ _ _ _ _ _ _ _ _ Pr Hn2 Hn2' M2) as [c2' [d2' [E3 [E4 M2']]]].
      destruct (grow l (n1 * k) _ _ s0 r (nk_pos k Hk n1 Hn1) H0 H1 A1 A2) as [B1 B2]. destruct (grow l (n2 * k) _ _ s0 r (nk_pos k Hk n2 Hn2) H0 H1 A3 A4) as [B3 B4].
      assert (W' := compare l p1 (n1 * k) c1 d1 p2 (n2 * k) c2 d2 s0 r (nk_pos k Hk n1 Hn1) (nk_pos k Hk n2 Hn2) Hp (sq_scale k Hk _ _ _ _ Hq) H0 H1 A1 A2 A3 A4 W).
      assert (P1 : 0 < p1) by lra. assert (P2 : 0 < p2) by lra. assert (P1' : 0 < p1') by lra. assert (P2' : 0 < p2') by lra.
      assert (E : ww l p1 (n1 * k) c1 d1 p2 (n2 * k) c2 d2 r = ww l p1' (n1' * k) c1' d1' p2' (n2' * k) c2' d2' r) by (unfold ww; now rewrite <- E1, <- E2, <- E3, <- E4).
      apply (IH t2 r p1' n1' c1' d1' p2' n2' c2' d2' a1 a2 Pr H2 M1' M2').
      + now rewrite <- E1.
      + exact (scale_nonneg p1 p1' _ _ P1 P1' E2 B2).
      + now rewrite <- E3.
      + exact (scale_nonneg p2 p2' _ _ P2 P2' E4 B4).
      + now rewrite <- E.
      + destruct G as [G|[[G1 G2]|G]]; [left|left|now right]; rewrite <- E.
        * set (w := ww l p1 (n1 * k) c1 d1 p2 (n2 * k) c2 d2) in *.
          assert (X := mono_ww l p1 (n1 * k) c1 d1 p2 (n2 * k) c2 d2 s0 r (nk_pos k Hk n1 Hn1) (nk_pos k Hk n2 Hn2) Hp (sq_scale k Hk _ _ _ _ Hq) H0 H1 A1 A2 A3 A4). fold w in X. lra.
        * apply Rle_lt_trans with (1 := W). apply (compare_gap l p1 (n1 * k) c1 d1 p2 (n2 * k) c2 d2 s0 r (nk_pos k Hk n1 Hn1) (nk_pos k Hk n2 Hn2) Hp (sq_strict _ _ _ _ G2) H0 G1 A1 A2 A3 A4).
          -- exact (state_pos _ s0 p1 n1 c1 d1 a1 H0 P1 Hn1 F1 M1 A1 A2).
          -- exact (state_pos _ s0 p2 n2 c2 d2 a2 H0 P2 Hn2 F2 M2 A3 A4).
  Qed.
End Chain.
