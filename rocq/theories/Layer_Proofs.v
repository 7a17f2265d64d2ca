(** * Radial functions in concentric shells: signs and comparison *)
From Coq Require Import Reals.
From Coquelicot Require Import Coquelicot.
From Coq Require Import Bool ZArith List Lia Lra Sorted.
From Verif Require Import Base Help_Proofs Bessel_Model Bessel_Spec Bessel_Proofs Bessel_Proofs2 Scat_Model Scat_Spec Scat_Proofs Scat_Proofs2 Scat_Proofs3 Scat_Proofs11.
Import ListNotations.
Open Scope R_scope.

Lemma incr_from (f df : R -> R) a b : a <= b -> (forall x, a <= x -> is_derive f x (df x)) -> (forall x, a <= x -> 0 <= df x) -> f a <= f b.
Proof.
  intros Hab D P. destruct (MVT_gen f a b df) as [c [Hc E]].
  - intros x Hx. apply D. rewrite Rmin_left in Hx by exact Hab. lra.
  - intros x Hx. rewrite Rmin_left in Hx by exact Hab. apply continuity_pt_filterlim. apply (ex_derive_continuous f). exists (df x). apply D. lra.
  - rewrite Rmin_left in Hc by exact Hab. assert (0 <= df c * (b - a)) by (apply Rmult_le_pos; [apply P; lra|lra]). lra.
Qed.

(** ** the field c i + d h times s in a medium with n k = ka, and its derivative *)
Lemma ww_derive (f1 g1 f2 g2 : R -> R) (q1 q2 u1 u2 x : R) : is_derive f1 x (g1 x) -> is_derive g1 x (q1 * f1 x) -> is_derive f2 x (g2 x) -> is_derive g2 x (q2 * f2 x) ->
  is_derive (fun s => u1 * (g1 s * f2 s) + - u2 * (g2 s * f1 s)) x ((q1 * u1 - q2 * u2) * (f1 x * f2 x) + (u1 - u2) * (g1 x * g2 x)).
Proof.
  intros F1 G1 F2 G2.
  assert (A := dmult _ _ _ _ _ G1 F2). assert (B := dmult _ _ _ _ _ G2 F1).
  assert (A' := is_derive_scal _ _ u1 _ A). assert (B' := is_derive_scal _ _ (- u2) _ B).
  refine (deq _ _ _ _ (dplus _ _ _ _ _ A' B') _). cbv beta. ring.
Qed.
Section Field.
  Context (l : nat).
  Definition fs (ka c d s : R) : R := s * (c * sph_i (S l) (ka * s) + d * sph_h (S l) (ka * s)).
  Definition ft (ka c d s : R) : R := c * (DI l (ka * s) * sph_i (S l) (ka * s)) + d * (DK l (ka * s) * sph_h (S l) (ka * s)).
  Definition qq (ka s : R) : R := ka ^ 2 + (INR l + 1) * (INR l + 2) / s ^ 2.
  Lemma fs_derive ka c d s : 0 < ka -> 0 < s -> is_derive (fs ka c d) s (ft ka c d s).
  Proof.
    intros Hk Hs. apply (is_derive_pos_ext _ (fun s => c * (s * sph_i (S l) (ka * s)) + d * (s * sph_h (S l) (ka * s)))); [assumption|intros t _; unfold fs; ring|].
    apply dplus; apply is_derive_scal; [now apply derive_i|now apply derive_h].
  Qed.
  Lemma comp_lin (f : R -> R) ka s v : is_derive f (ka * s) v -> is_derive (fun s => f (ka * s)) s (ka * v).
  Proof.
    intros H. assert (Cc : is_derive (fun s : R => ka * s) s ka) by (auto_derive; [exact Logic.I|ring]).
    eapply deq; [apply (is_derive_comp f (fun s => ka * s) s v ka H Cc)|]. unfold scal; simpl. unfold mult; simpl. ring.
  Qed.
  Lemma ti_derive ka s : 0 < ka -> 0 < s -> is_derive (fun s => DI l (ka * s) * sph_i (S l) (ka * s)) s (qq ka s * (s * sph_i (S l) (ka * s))).
  Proof.
    intros Hk Hs. assert (Hx : 0 < ka * s) by now apply Rmult_lt_0_compat.
    apply (is_derive_pos_ext _ (fun s => ka * (s * sph_i l (ka * s)) + - (INR l + 1) * sph_i (S l) (ka * s))); [assumption| |].
    { intros t Ht. assert (Hy : 0 < ka * t) by now apply Rmult_lt_0_compat. rewrite DIE by assumption. assert (P := sph_i_pos (S l) (ka * t) Hy). rewrite S_INR. field. lra. }
    eapply deq; [apply dplus; apply is_derive_scal; [apply dmult; [apply did|apply comp_lin; apply sph_i_derive; assumption]|apply comp_lin; apply sph_i_derive_down; assumption]|].
    cbv beta. unfold qq. field. lra.
  Qed.
  Lemma tk_derive ka s : 0 < ka -> 0 < s -> is_derive (fun s => DK l (ka * s) * sph_k (S l) (ka * s)) s (qq ka s * (s * sph_k (S l) (ka * s))).
  Proof.
    intros Hk Hs. assert (Hx : 0 < ka * s) by now apply Rmult_lt_0_compat.
    apply (is_derive_pos_ext _ (fun s => - ka * (s * sph_k l (ka * s)) + - (INR l + 1) * sph_k (S l) (ka * s))); [assumption| |].
    { intros t Ht. assert (Hy : 0 < ka * t) by now apply Rmult_lt_0_compat. rewrite DKE by assumption. assert (P := sph_k_pos (S l) (ka * t) Hy). rewrite S_INR. field. lra. }
    eapply deq; [apply dplus; apply is_derive_scal; [apply dmult; [apply did|apply comp_lin; apply sph_k_derive; assumption]|apply comp_lin; apply sph_k_derive_down; assumption]|].
    cbv beta. unfold qq. field. lra.
  Qed.
  Lemma ft_derive ka c d s : 0 < ka -> 0 < s -> is_derive (ft ka c d) s (qq ka s * fs ka c d s).
  Proof.
    intros Hk Hs. set (w := (-1) ^ (S l + 1) * (2 / PI)).
    apply (is_derive_pos_ext _ (fun s => c * (DI l (ka * s) * sph_i (S l) (ka * s)) + (d * w) * (DK l (ka * s) * sph_k (S l) (ka * s)))); [assumption|intros t _; unfold ft, sph_h; fold w; ring|].
    eapply deq; [apply dplus; apply is_derive_scal; [now apply ti_derive|now apply tk_derive]|]. unfold fs, sph_h. fold w. ring.
  Qed.
  Lemma qq_pos ka s : 0 < ka -> 0 < s -> 0 < qq ka s.
  Proof.
    intros Hk Hs. unfold qq. assert (0 < ka ^ 2) by now apply pow_lt. assert (0 < s ^ 2) by now apply pow_lt. assert (N := pos_INR l).
    assert (0 < (INR l + 1) * (INR l + 2) / s ^ 2) by (apply Rdiv_lt_0_compat; [apply Rmult_lt_0_compat; lra|assumption]). lra.
  Qed.
  (** the outgoing function with the sign of sph_h removed, and its amplitude *)
  Definition hw : R := (-1) ^ (S l + 1) * (2 / PI).
  Lemma hw_nz : hw <> 0.
  Proof. unfold hw. assert (P := PI_RGT_0). apply Rmult_integral_contrapositive. split; [apply pow_nonzero; lra|]. apply Rgt_not_eq. apply Rdiv_lt_0_compat; lra. Qed.
  Lemma values ka s : 0 < ka -> 0 < s -> 0 < sph_i (S l) (ka * s) /\ 0 < sph_k (S l) (ka * s) /\ 0 < DI l (ka * s) /\ DK l (ka * s) < 0.
  Proof. intros Hk Hs. assert (Hx : 0 < ka * s) by now apply Rmult_lt_0_compat. repeat split; [now apply sph_i_pos|now apply sph_k_pos|now apply nDI|now apply nDK]. Qed.
  (** non-negative field and slope: the regular amplitude is not negative *)
  Lemma amp_nonneg ka c d s : 0 < ka -> 0 < s -> 0 <= fs ka c d s -> 0 <= ft ka c d s -> 0 <= c.
  Proof.
    intros Hk Hs H1 H2. destruct (values ka s Hk Hs) as [I [K [DIp DKn]]]. unfold fs, ft, sph_h in *. fold hw in *. set (x := ka * s) in *. set (v := d * hw).
    replace (c * sph_i (S l) x + d * (hw * sph_k (S l) x)) with (c * sph_i (S l) x + v * sph_k (S l) x) in H1 by (unfold v; ring).
    replace (c * (DI l x * sph_i (S l) x) + d * (DK l x * (hw * sph_k (S l) x))) with (c * (DI l x * sph_i (S l) x) + v * (DK l x * sph_k (S l) x)) in H2 by (unfold v; ring).
    assert (H3 : 0 <= c * sph_i (S l) x + v * sph_k (S l) x). { apply Rmult_le_reg_l with s; [exact Hs|]. lra. }
    assert (H4 : 0 <= - DK l x * (c * sph_i (S l) x + v * sph_k (S l) x)) by (apply Rmult_le_pos; lra).
    assert (H5 : 0 <= c * ((DI l x - DK l x) * sph_i (S l) x)) by lra.
    apply Rmult_le_reg_r with ((DI l x - DK l x) * sph_i (S l) x); [apply Rmult_lt_0_compat; lra|]. lra.
  Qed.
  (** non-negative field and slope persist outwards *)
  Lemma grow ka c d a b : 0 < ka -> 0 < a -> a <= b -> 0 <= fs ka c d a -> 0 <= ft ka c d a -> 0 <= fs ka c d b /\ 0 <= ft ka c d b.
  Proof.
    intros Hk Ha Hab H1 H2. assert (C := amp_nonneg ka c d a Hk Ha H1 H2).
    assert (FS : forall s, a <= s -> 0 <= fs ka c d s).
    { intros s Hs. set (y := fun s => c * (sph_i (S l) (ka * s) / sph_k (S l) (ka * s)) + d * hw).
      assert (E : forall t, 0 < t -> fs ka c d t = t * sph_k (S l) (ka * t) * y t).
      { intros t Ht. destruct (values ka t Hk Ht) as [_ [K _]]. unfold fs, y, sph_h. fold hw. field. lra. }
      assert (Y : y a <= y s).
      { unfold y. apply Rplus_le_compat_r. apply Rmult_le_compat_l; [exact C|].
        apply (incr_from (fun s => sph_i (S l) (ka * s) / sph_k (S l) (ka * s)) (fun s => (DI l (ka * s) - DK l (ka * s)) * sph_i (S l) (ka * s) / (s * sph_k (S l) (ka * s)))); [exact Hs| |].
        - intros x Hx. assert (Px : 0 < x) by lra. destruct (values ka x Hk Px) as [I [K _]]. assert (Kx : 0 < ka * x) by now apply Rmult_lt_0_compat.
          eapply deq; [apply is_derive_div; [apply comp_lin; apply sph_i_derive_down; assumption|apply comp_lin; apply sph_k_derive_down; assumption|lra]|].
          cbv beta. rewrite DIE, DKE by assumption. field. repeat split; lra.
        - intros x Hx. assert (Px : 0 < x) by lra. destruct (values ka x Hk Px) as [I [K [DIp DKn]]]. left. apply Rdiv_lt_0_compat; apply Rmult_lt_0_compat; lra. }
      assert (Ps : 0 < s) by lra. rewrite E by exact Ps. destruct (values ka s Hk Ps) as [_ [K _]]. apply Rmult_le_pos; [left; now apply Rmult_lt_0_compat|].
      rewrite E in H1 by exact Ha. destruct (values ka a Hk Ha) as [_ [K' _]]. apply Rle_trans with (y a); [|exact Y].
      apply Rmult_le_reg_l with (a * sph_k (S l) (ka * a)); [now apply Rmult_lt_0_compat|]. lra. }
    split; [now apply FS|]. apply Rle_trans with (1 := H2).
    apply (incr_from (ft ka c d) (fun s => qq ka s * fs ka c d s)); [exact Hab|intros x Hx; apply ft_derive; lra|].
    intros x Hx. apply Rmult_le_pos; [left; apply qq_pos; lra|now apply FS].
  Qed.

  (** ** comparison of two fields: p1 <= p2 and ka1^2/p1 >= ka2^2/p2 *)
  Definition ww (p1 k1 c1 d1 p2 k2 c2 d2 s : R) : R := ft k1 c1 d1 s / p1 * fs k2 c2 d2 s - ft k2 c2 d2 s / p2 * fs k1 c1 d1 s.
  Lemma compare p1 k1 c1 d1 p2 k2 c2 d2 a b : 0 < k1 -> 0 < k2 -> 0 < p1 <= p2 -> k2 ^ 2 / p2 <= k1 ^ 2 / p1 -> 0 < a -> a <= b ->
    0 <= fs k1 c1 d1 a -> 0 <= ft k1 c1 d1 a -> 0 <= fs k2 c2 d2 a -> 0 <= ft k2 c2 d2 a ->
    0 <= ww p1 k1 c1 d1 p2 k2 c2 d2 a -> 0 <= ww p1 k1 c1 d1 p2 k2 c2 d2 b.
  Proof.
    intros Hk1 Hk2 Hp Hq Ha Hab A1 A2 A3 A4 W. apply Rle_trans with (1 := W).
    apply (incr_from _ (fun s => (qq k1 s / p1 - qq k2 s / p2) * (fs k1 c1 d1 s * fs k2 c2 d2 s) + (/ p1 - / p2) * (ft k1 c1 d1 s * ft k2 c2 d2 s))); [exact Hab| |].
    - intros x Hx. assert (Px : 0 < x) by lra. unfold ww.
      apply (is_derive_pos_ext _ (fun s => / p1 * (ft k1 c1 d1 s * fs k2 c2 d2 s) + - / p2 * (ft k2 c2 d2 s * fs k1 c1 d1 s))); [exact Px|intros t _; unfold Rdiv; ring|].
      assert (E1 := fs_derive k1 c1 d1 x Hk1 Px). assert (E2 := fs_derive k2 c2 d2 x Hk2 Px). assert (E3 := ft_derive k1 c1 d1 x Hk1 Px). assert (E4 := ft_derive k2 c2 d2 x Hk2 Px).
      exact (ww_derive (fs k1 c1 d1) (ft k1 c1 d1) (fs k2 c2 d2) (ft k2 c2 d2) (qq k1 x) (qq k2 x) (/ p1) (/ p2) x E1 E3 E2 E4).
    - intros x Hx. assert (Px : 0 < x) by lra. destruct (grow k1 c1 d1 a x Hk1 Ha Hx A1 A2) as [B1 B2]. destruct (grow k2 c2 d2 a x Hk2 Ha Hx A3 A4) as [B3 B4].
      assert (IP : / p2 <= / p1) by (apply Rinv_le_contravar; lra).
      apply Rplus_le_le_0_compat; apply Rmult_le_pos; [|now apply Rmult_le_pos|lra|now apply Rmult_le_pos].
      unfold qq. assert (N := pos_INR l). assert (X2 : 0 < x ^ 2) by now apply pow_lt. set (w := (INR l + 1) * (INR l + 2) / x ^ 2).
      assert (0 <= w) by (left; apply Rdiv_lt_0_compat; [apply Rmult_lt_0_compat; lra|exact X2]).
      replace ((k1 ^ 2 + w) / p1 - (k2 ^ 2 + w) / p2) with ((k1 ^ 2 / p1 - k2 ^ 2 / p2) + w * (/ p1 - / p2)) by (unfold Rdiv; ring).
      apply Rplus_le_le_0_compat; [lra|apply Rmult_le_pos; lra].
  Qed.
  (** regular fields *)
  Lemma regular_state ka b s : 0 < ka -> 0 < s -> 0 <= b -> 0 <= fs ka b 0 s /\ 0 <= ft ka b 0 s.
  Proof.
    intros Hk Hs Hb. destruct (values ka s Hk Hs) as [I [K [DIp DKn]]]. unfold fs, ft. rewrite !Rmult_0_l, !Rplus_0_r. split.
    - apply Rmult_le_pos; [lra|]. apply Rmult_le_pos; lra.
    - apply Rmult_le_pos; [lra|]. apply Rmult_le_pos; lra.
  Qed.
  Lemma regular_compare p1 k1 b1 p2 k2 b2 s : 0 < k1 -> 0 < k2 -> 0 < p1 <= p2 -> k2 ^ 2 / p2 <= k1 ^ 2 / p1 -> 0 < s -> 0 <= b1 -> 0 <= b2 -> 0 <= ww p1 k1 b1 0 p2 k2 b2 0 s.
  Proof.
    intros Hk1 Hk2 Hp Hq Hs B1 B2. destruct (values k1 s Hk1 Hs) as [I1 [_ [D1 _]]]. destruct (values k2 s Hk2 Hs) as [I2 [_ [D2 _]]].
    assert (IP : / p2 <= / p1) by (apply Rinv_le_contravar; lra). assert (IP2 : 0 < / p2) by (apply Rinv_0_lt_compat; lra).
    assert (Q : DI l (k2 * s) / p2 <= DI l (k1 * s) / p1).
    { destruct (Rle_or_lt k2 k1) as [H|H].
      - assert (M : DI l (k2 * s) <= DI l (k1 * s)).
        { destruct H as [H|H]; [left; apply DI_incr; [now apply Rmult_lt_0_compat|now apply Rmult_lt_compat_r]|subst; lra]. }
        unfold Rdiv. apply Rmult_le_compat; lra.
      - assert (M := DI_sq l (k1 * s) (k2 * s) ltac:(now apply Rmult_lt_0_compat) ltac:(now apply Rmult_lt_compat_r)).
        assert (S2 : 0 < s ^ 2) by now apply pow_lt. assert (K1 : 0 < k1 ^ 2) by now apply pow_lt. assert (K2 : 0 < k2 ^ 2) by now apply pow_lt. 
        replace (DI l (k2 * s) / p2) with (DI l (k2 * s) / (k2 * s) ^ 2 * (s ^ 2 * (k2 ^ 2 / p2))) by (field; lra).
        replace (DI l (k1 * s) / p1) with (DI l (k1 * s) / (k1 * s) ^ 2 * (s ^ 2 * (k1 ^ 2 / p1))) by (field; lra).
        assert (0 < k2 ^ 2 / p2) by (apply Rdiv_lt_0_compat; lra). apply Rmult_le_compat; [|apply Rmult_le_pos; lra|lra|apply Rmult_le_compat_l; lra].
        left. apply Rdiv_lt_0_compat; [exact D2|]. apply pow_lt. now apply Rmult_lt_0_compat. }
    unfold ww, fs, ft. rewrite !Rmult_0_l, !Rplus_0_r.
    replace (_ - _) with (b1 * sph_i (S l) (k1 * s) * (b2 * sph_i (S l) (k2 * s)) * s * (DI l (k1 * s) / p1 - DI l (k2 * s) / p2)) by (unfold Rdiv; ring).
    apply Rmult_le_pos; [|lra]. apply Rmult_le_pos; [|lra]. apply Rmult_le_pos; apply Rmult_le_pos; lra.
  Qed.
  (** in the same medium the comparison decides about the scattered amplitudes *)
  Lemma end_compare p ka a1 a2 s : 0 < p -> 0 < ka -> 0 < s -> 0 <= ww p ka 1 a1 p ka 1 a2 s -> 0 <= (-1) ^ S l * (a1 - a2).
  Proof.
    intros Hp Hk Hs W. destruct (values ka s Hk Hs) as [I [K [DIp DKn]]]. unfold ww, fs, ft, sph_h in W. fold hw in W. set (x := ka * s) in *.
    assert (E : hw = - ((-1) ^ S l * (2 / PI))) by (unfold hw; replace (S l + 1)%nat with (S (S l)) by lia; cbn [pow]; ring). rewrite E in W.
    set (g := 2 / PI * (s / p) * (sph_i (S l) x * sph_k (S l) x) * (DI l x - DK l x)).
    assert (G : 0 < g). { unfold g. assert (P := PI_RGT_0). assert (P1 : 0 < 2 / PI) by (apply Rdiv_lt_0_compat; lra). assert (P2 : 0 < s / p) by (apply Rdiv_lt_0_compat; lra).
      apply Rmult_lt_0_compat; [|lra]. apply Rmult_lt_0_compat; [now apply Rmult_lt_0_compat|now apply Rmult_lt_0_compat]. }
    assert (F : 0 <= g * ((-1) ^ S l * (a1 - a2))).
    { apply Rle_trans with (1 := W). right. unfold g. assert (PN := PI_neq0). field. repeat split; try assumption; lra. }
    apply Rmult_le_reg_l with g; [exact G|lra].
  Qed.
End Field.
