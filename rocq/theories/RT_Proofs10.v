(** * The sign of the Mie coefficients, for exact Bessel functions *)
From Coq Require Import Reals.
From Coquelicot Require Import Coquelicot.
From Coq Require Import Bool ZArith List Lia Lra.
From Verif Require Import Base Mat_Model Mat_Spec Help_Proofs Bessel_Model Bessel_Spec Scat_Model Scat_Spec Scat_Proofs Scat_Proofs2 Scat_Proofs3 Scat_Proofs4 Scat_Proofs9 Scat_Proofs11
  Trans_Model Trans_Spec Lin_Model RT_Model RT_Spec RT_Spec2.
Import ListNotations.
Open Scope R_scope.

(** ** the numerators *)
Lemma ext_core l xi xe e1 u1 e2 u2 : 0 < xe <= xi -> 0 < u1 <= u2 -> 0 < e1 -> 0 < e2 -> e1 * u1 * xe ^ 2 = e2 * u2 * xi ^ 2 ->
  0 <= u2 * DI l xi - u1 * DI l xe /\ e2 * DI l xi - e1 * DI l xe <= 0.
Proof.
  intros Hx Hu He1 He2 E. assert (Px : 0 < DI l xe) by (generalize (DI_pos l xe (proj1 Hx)) (pos_INR l); lra). assert (Pi : 0 < DI l xi) by (apply nDI; lra).
  assert (M : DI l xe <= DI l xi) by (destruct (proj2 Hx) as [H| ->]; [left; apply DI_incr; lra|lra]).
  assert (Q : DI l xi * xe ^ 2 <= DI l xe * xi ^ 2).
  { assert (A : 0 < xe ^ 2) by (apply pow_lt; lra). assert (B : 0 < xi ^ 2) by (apply pow_lt; lra). destruct (proj2 Hx) as [H| ->]; [|lra]. left.
    assert (D := DI_sq l xe xi (proj1 Hx) H). apply (Rmult_lt_compat_r (xi ^ 2 * xe ^ 2)) in D; [|now apply Rmult_lt_0_compat].
    replace (DI l xi / xi ^ 2 * (xi ^ 2 * xe ^ 2)) with (DI l xi * xe ^ 2) in D by (field; lra). replace (DI l xe / xe ^ 2 * (xi ^ 2 * xe ^ 2)) with (DI l xe * xi ^ 2) in D by (field; lra). exact D. }
  split.
  - assert (u1 * DI l xe <= u2 * DI l xi) by (apply Rmult_le_compat; lra). lra.
  - assert (A : 0 < xe ^ 2) by (apply pow_lt; lra). apply Rmult_le_reg_r with (u2 * xe ^ 2); [apply Rmult_lt_0_compat; lra|].
    assert (H1 : e2 * u2 * (DI l xi * xe ^ 2) <= e2 * u2 * (DI l xe * xi ^ 2)) by (apply Rmult_le_compat_l; [apply Rmult_le_pos; lra|exact Q]).
    replace (e2 * u2 * (DI l xe * xi ^ 2)) with (DI l xe * (e2 * u2 * xi ^ 2)) in H1 by ring. rewrite <- E in H1.
    assert (H2 : DI l xe * (e1 * u1 * xe ^ 2) <= DI l xe * (e1 * u2 * xe ^ 2)) by (apply Rmult_le_compat_l; [lra|]; apply Rmult_le_compat_r; [lra|]; apply Rmult_le_compat_l; lra).
    lra.
Qed.
Lemma int_core l xi xe e1 u1 e2 u2 : 0 < xi <= xe -> 0 < u2 <= u1 -> 0 < e1 -> 0 < e2 -> e1 * u1 * xe ^ 2 = e2 * u2 * xi ^ 2 ->
  0 <= u2 * DK l xi - u1 * DK l xe /\ e2 * DK l xi - e1 * DK l xe <= 0.
Proof.
  intros Hx Hu He1 He2 E. assert (Px : DK l xe < 0) by (apply nDK; lra). assert (Pi : DK l xi < 0) by (apply nDK; lra).
  assert (M : DK l xe <= DK l xi) by (destruct (proj2 Hx) as [H| ->]; [left; apply DK_decr; lra|lra]).
  assert (Q : DK l xi * xe ^ 2 <= DK l xe * xi ^ 2).
  { assert (A : 0 < xe ^ 2) by (apply pow_lt; lra). assert (B : 0 < xi ^ 2) by (apply pow_lt; lra). destruct (proj2 Hx) as [H| ->]; [|lra]. left.
    assert (D := DK_sq l xi xe (proj1 Hx) H). apply (Rmult_lt_compat_r (xi ^ 2 * xe ^ 2)) in D; [|now apply Rmult_lt_0_compat].
    replace (DK l xi / xi ^ 2 * (xi ^ 2 * xe ^ 2)) with (DK l xi * xe ^ 2) in D by (field; lra). replace (DK l xe / xe ^ 2 * (xi ^ 2 * xe ^ 2)) with (DK l xe * xi ^ 2) in D by (field; lra). exact D. }
  split.
  - assert (u2 * - DK l xi <= u1 * - DK l xe) by (apply Rmult_le_compat; lra). lra.
  - assert (A : 0 < xi ^ 2) by (apply pow_lt; lra). apply Rmult_le_reg_r with (u1 * xe ^ 2); [apply Rmult_lt_0_compat; [lra|apply pow_lt; lra]|].
    assert (H1 : e2 * u1 * (DK l xi * xe ^ 2) <= e2 * u1 * (DK l xe * xi ^ 2)) by (apply Rmult_le_compat_l; [apply Rmult_le_pos; lra|exact Q]).
    assert (H2 : - DK l xe * (e2 * u2 * xi ^ 2) <= - DK l xe * (e2 * u1 * xi ^ 2)) by (apply Rmult_le_compat_l; [lra|]; apply Rmult_le_compat_r; [lra|]; apply Rmult_le_compat_l; lra).
    rewrite <- E in H2. lra.
Qed.

Definition signed (s : R) (lmax : nat) (k : R) (F : list R -> out coefs) : Prop := forall j, (j < lmax)%nat ->
  0 <= s * (-1) ^ (j + 1) * entry TE F j k /\ 0 <= - (s * (-1) ^ (j + 1) * entry TM F j k).
Lemma m1_sq j : (-1) ^ j * (-1) ^ j = 1.
Proof. rewrite <- Rpow_mult_distr. replace (-1 * -1) with 1 by ring. apply pow1. Qed.
Section Signs.
  Context (lmax : nat) (r : R) (Hr : 0 < r) (m : material) (e u : R -> R) (Hm : has m e u) (k : R) (Hk : 0 < k).
  Let x := refr e u k * k * r.
  Let Hx : 0 < x.
  Proof. destruct Hm as [_ [P _]]. destruct (P k Hk). unfold x. apply Rmult_lt_0_compat; [apply Rmult_lt_0_compat; [now apply refr_pos|assumption]|assumption]. Qed.
  Lemma sgnE j : sgn (S j) = (-1) ^ (j + 1).
  Proof. unfold sgn. f_equal. lia. Qed.
  Lemma frac_pos a b : 0 <= a -> 0 < b -> 0 <= a / b.
  Proof. intros. unfold Rdiv. apply Rmult_le_pos; [assumption|]. left. now apply Rinv_0_lt_compat. Qed.
  (** a prefactor (-1)^l times a positive number *)
  Lemma with_sign s q c t j : s * s = 1 -> 0 < c -> 0 <= s * q -> t = q * ((-1) ^ (j + 1) * c) -> 0 <= s * (-1) ^ (j + 1) * t.
  Proof.
    intros Hs Hc Hq ->. replace (s * (-1) ^ (j + 1) * (q * ((-1) ^ (j + 1) * c))) with ((s * q) * c * ((-1) ^ (j + 1) * (-1) ^ (j + 1))) by ring. rewrite m1_sq, Rmult_1_r. apply Rmult_le_pos; lra.
  Qed.
  Lemma with_sign' s q c t j : s * s = 1 -> 0 < c -> s * q <= 0 -> t = q * ((-1) ^ (j + 1) * c) -> 0 <= - (s * (-1) ^ (j + 1) * t).
  Proof.
    intros Hs Hc Hq E. replace (- (s * (-1) ^ (j + 1) * t)) with (s * (-1) ^ (j + 1) * (- t)) by ring. apply (with_sign s (- q) c); [assumption|assumption|lra|]. rewrite E. ring.
  Qed.
  Lemma pi_half : 0 < PI * 0.5. Proof. generalize PI_RGT_0. lra. Qed.
  Lemma pi_two : 0 < 2 / PI. Proof. apply Rdiv_lt_0_compat; [lra|apply PI_RGT_0]. Qed.
  Lemma arg_sq e1 u1 : 0 < e1 k -> 0 < u1 k -> (refr e1 u1 k * k * r) ^ 2 = e1 k * u1 k * (k * r) ^ 2.
  Proof. intros A B. unfold refr. replace ((sqrt (e1 k * u1 k) * k * r) ^ 2) with (sqrt (e1 k * u1 k) ^ 2 * (k * r) ^ 2) by ring. rewrite pow2_sqrt; [reflexivity|]. apply Rmult_le_pos; lra. Qed.
  Lemma arg_le e1 u1 e2 u2 : e1 k * u1 k <= e2 k * u2 k -> refr e1 u1 k * k * r <= refr e2 u2 k * k * r.
  Proof. intros H. apply Rmult_le_compat_r; [lra|]. apply Rmult_le_compat_r; [lra|]. now apply sqrt_le_1_alt. Qed.

  Lemma ext_signed s m1 : contrast s m1 e u k -> signed s lmax k (fun ks => mie exact_bessels ks 0 (Z.of_nat lmax) r m1 m).
  Proof.
    intros H j Hj. assert (Kx : DK j x < 0) by (now apply nDK). assert (Ix : 0 < DI j x) by (now apply nDI). generalize pi_half. intros HPI.
    destruct H as [[-> ->]|[e1 [u1 [H1 H]]]].
    - destruct (entry_pec 0 lmax r Hr (Nat.le_0_l _) m e u j k Hm ltac:(lia) Hk) as [-> ->]. rewrite sgnE. cbn [Nat.add]. set (q := pec_scale _ _ _ _). assert (0 < q) by apply exp_pos. fold x.
      split.
      + apply (with_sign 1 1 (PI * 0.5 * q)); [ring|now apply Rmult_lt_0_compat|lra|ring].
      + apply (with_sign' 1 (DI j x / DK j x) (PI * 0.5 * q)); [ring|now apply Rmult_lt_0_compat| |unfold Rdiv; ring].
        rewrite Rmult_1_l. assert (0 <= DI j x / - DK j x) by (apply frac_pos; lra). replace (DI j x / DK j x) with (- (DI j x / - DK j x)) by (field; lra). lra.
    - destruct (entry_ext 0 lmax r Hr (Nat.le_0_l _) m1 m e1 u1 e u j k H1 Hm ltac:(lia) Hk) as [-> ->]. cbn [Nat.add]. unfold ext_val. fold x. rewrite sgnE.
      destruct H1 as [_ [P1 _]]. destruct (P1 k Hk) as [Pe1 Pu1]. destruct Hm as [_ [P _]]. destruct (P k Hk) as [Pe Pu].
      set (y := refr e1 u1 k * k * r) in *. assert (Hy : 0 < y) by (apply Rmult_lt_0_compat; [apply Rmult_lt_0_compat; [now apply refr_pos|assumption]|assumption]).
      assert (Iy : 0 < DI j y) by (now apply nDI). set (q := exp _). assert (Q : 0 < PI * 0.5 * q) by (apply Rmult_lt_0_compat; [assumption|apply exp_pos]).
      assert (Y2 := arg_sq e1 u1 Pe1 Pu1). assert (X2 := arg_sq e u Pe Pu). fold x in X2. fold y in Y2.
      assert (B1 : 0 < u k * DI j y - u1 k * DK j x) by (now apply dpos). assert (B2 : 0 < e k * DI j y - e1 k * DK j x) by (now apply dpos).
      assert (C : 0 <= s * (u k * DI j y - u1 k * DI j x) /\ s * (e k * DI j y - e1 k * DI j x) <= 0).
      { destruct H as [[-> [D1 D2]]|[-> [D1 D2]]].
        - destruct (ext_core j y x (e1 k) (u1 k) (e k) (u k)) as [A B]; [split; [assumption|now apply arg_le]|lra|assumption|assumption|rewrite X2, Y2; ring|]. lra.
        - destruct (ext_core j x y (e k) (u k) (e1 k) (u1 k)) as [A B]; [split; [assumption|now apply arg_le]|lra|assumption|assumption|rewrite X2, Y2; ring|]. lra. }
      assert (Hs : s * s = 1) by (destruct H as [[-> _]|[-> _]]; ring). destruct C as [C1 C2].
      split.
      + apply (with_sign s (ratio_ext (u1 k) (u k) (DI j y) (DI j x) (DK j x)) (PI * 0.5 * q)); [assumption|assumption| |ring].
        unfold ratio_ext. replace (s * (_ / _)) with ((s * (u k * DI j y - u1 k * DI j x)) / (u k * DI j y - u1 k * DK j x)) by (unfold Rdiv; ring). now apply frac_pos.
      + apply (with_sign' s (ratio_ext (e1 k) (e k) (DI j y) (DI j x) (DK j x)) (PI * 0.5 * q)); [assumption|assumption| |ring].
        unfold ratio_ext. assert (0 <= (- (s * (e k * DI j y - e1 k * DI j x))) / (e k * DI j y - e1 k * DK j x)) by (apply frac_pos; lra).
        replace (s * (_ / _)) with (- ((- (s * (e k * DI j y - e1 k * DI j x))) / (e k * DI j y - e1 k * DK j x))) by (unfold Rdiv; ring). lra.
  Qed.
  Lemma int_signed s m2 : contrast s m2 e u k -> signed s lmax k (fun ks => mie_internal exact_bessels ks 0 (Z.of_nat lmax) r m m2).
  Proof.
    intros H j Hj. assert (Kx : DK j x < 0) by (now apply nDK). assert (Ix : 0 < DI j x) by (now apply nDI). generalize pi_two. intros HPI.
    destruct H as [[-> ->]|[e2 [u2 [H2 H]]]].
    - destruct (entry_pec_int 0 lmax r Hr (Nat.le_0_l _) m e u j k Hm ltac:(lia) Hk) as [-> ->]. rewrite sgnE. cbn [Nat.add]. set (q := pec_scale_int _ _ _ _). assert (0 < q) by apply exp_pos. fold x.
      split.
      + apply (with_sign 1 1 (2 / PI * q)); [ring|now apply Rmult_lt_0_compat|lra|unfold Rdiv; ring].
      + apply (with_sign' 1 (DK j x / DI j x) (2 / PI * q)); [ring|now apply Rmult_lt_0_compat| |unfold Rdiv; ring].
        rewrite Rmult_1_l. assert (0 <= - DK j x / DI j x) by (apply frac_pos; lra). replace (DK j x / DI j x) with (- (- DK j x / DI j x)) by (field; lra). lra.
    - destruct (entry_int 0 lmax r Hr (Nat.le_0_l _) m m2 e u e2 u2 j k Hm H2 ltac:(lia) Hk) as [-> ->]. cbn [Nat.add]. unfold int_val. fold x. rewrite sgnE.
      destruct H2 as [_ [P1 _]]. destruct (P1 k Hk) as [Pe2 Pu2]. destruct Hm as [_ [P _]]. destruct (P k Hk) as [Pe Pu].
      set (y := refr e2 u2 k * k * r) in *. assert (Hy : 0 < y) by (apply Rmult_lt_0_compat; [apply Rmult_lt_0_compat; [now apply refr_pos|assumption]|assumption]).
      assert (Ky : DK j y < 0) by (now apply nDK). set (q := exp _). assert (Q : 0 < 2 / PI * q) by (apply Rmult_lt_0_compat; [assumption|apply exp_pos]).
      assert (Y2 := arg_sq e2 u2 Pe2 Pu2). assert (X2 := arg_sq e u Pe Pu). fold x in X2. fold y in Y2.
      assert (B1 : 0 < u2 k * DI j x - u k * DK j y) by (now apply dpos). assert (B2 : 0 < e2 k * DI j x - e k * DK j y) by (now apply dpos).
      assert (C : 0 <= s * (u2 k * DK j x - u k * DK j y) /\ s * (e2 k * DK j x - e k * DK j y) <= 0).
      { destruct H as [[-> [D1 D2]]|[-> [D1 D2]]].
        - destruct (int_core j x y (e k) (u k) (e2 k) (u2 k)) as [A B]; [split; [assumption|now apply arg_le]|lra|assumption|assumption|rewrite X2, Y2; ring|]. lra.
        - destruct (int_core j y x (e2 k) (u2 k) (e k) (u k)) as [A B]; [split; [assumption|now apply arg_le]|lra|assumption|assumption|rewrite X2, Y2; ring|]. lra. }
      assert (Hs : s * s = 1) by (destruct H as [[-> _]|[-> _]]; ring). destruct C as [C1 C2].
      split.
      + apply (with_sign s (ratio_int (u k) (u2 k) (DI j x) (DK j x) (DK j y)) (2 / PI * q)); [assumption|assumption| |unfold Rdiv; ring].
        unfold ratio_int. replace (s * (_ / _)) with ((s * (u2 k * DK j x - u k * DK j y)) / (u2 k * DI j x - u k * DK j y)) by (unfold Rdiv; ring). now apply frac_pos.
      + apply (with_sign' s (ratio_int (e k) (e2 k) (DI j x) (DK j x) (DK j y)) (2 / PI * q)); [assumption|assumption| |unfold Rdiv; ring].
        unfold ratio_int. assert (0 <= (- (s * (e2 k * DK j x - e k * DK j y))) / (e2 k * DI j x - e k * DK j y)) by (apply frac_pos; lra).
        replace (s * (_ / _)) with (- ((- (s * (e2 k * DK j x - e k * DK j y))) / (e2 k * DI j x - e k * DK j y))) by (unfold Rdiv; ring). lra.
  Qed.
End Signs.
