(** * The continued fraction and the orders l >= 2 of lniknu *)
From Coq Require Import Reals Factorial QArith Qreals.
From Coquelicot Require Import Coquelicot.
From Coq Require Import Bool ZArith List Lia Lra.
From Verif Require Import Base Bessel_Model Bessel_Spec Bessel_Proofs Bessel_Proofs2.
Import ListNotations.
Open Scope R_scope.

Definition A (x : R) (m : nat) : R := (2 * INR m + 1) / x.
(** the exact ratio i_l / i_{l+1} *)
Definition rat (x : R) (l : nat) : R := sph_i l x / sph_i (S l) x.

Lemma cfrac_SS x m n : cfrac x m (S (S n)) = A x m + 1 / cfrac x (S m) (S n).
Proof. reflexivity. Qed.
Lemma cfrac_1 x m : cfrac x m 1 = A x m.
Proof. reflexivity. Qed.

Lemma inv_le_1 a : 1 <= a -> / a <= 1.
Proof. intros H. apply Rle_trans with (/ 1); [apply Rinv_le_contravar; lra|lra]. Qed.
Lemma inv_lt_1 a : 1 < a -> / a < 1.
Proof. intros H. apply Rlt_le_trans with (/ 1); [apply Rinv_lt_contravar; lra|lra]. Qed.

Section CF.
  Context (x : R) (Hx : 0 < x).
  Lemma A_pos m : 0 < A x m.
  Proof. apply Rdiv_lt_0_compat; [|assumption]. generalize (pos_INR m). lra. Qed.
  Lemma rat_gt1 l : 1 < rat x l.
  Proof.
    unfold rat. generalize (sph_i_decr l x Hx) (sph_i_pos (S l) x Hx). intros H1 H2.
    apply Rmult_lt_reg_r with (sph_i (S l) x); [assumption|]. replace (sph_i l x / sph_i (S l) x * sph_i (S l) x) with (sph_i l x) by (field; lra). lra.
  Qed.
  Lemma rat_rec l : rat x l = A x (S l) + 1 / rat x (S l).
  Proof.
    unfold rat, A. rewrite (sph_i_rec l x Hx) at 1. rewrite S_INR.
    generalize (sph_i_pos (S l) x Hx) (sph_i_pos (S (S l)) x Hx). intros. field. repeat split; lra.
  Qed.
  Lemma cfrac_pos n : forall m, 0 < cfrac x m (S n).
  Proof.
    induction n as [|n IH]; intros m; [rewrite cfrac_1; apply A_pos|]. rewrite cfrac_SS. generalize (A_pos m) (Rinv_0_lt_compat _ (IH (S m))). unfold Rdiv. lra.
  Qed.
  Lemma cfrac_ge n m : A x m <= cfrac x m (S n).
  Proof.
    destruct n as [|n]; [rewrite cfrac_1; lra|]. rewrite cfrac_SS. generalize (Rinv_0_lt_compat _ (cfrac_pos n (S m))). unfold Rdiv. lra.
  Qed.
  Lemma inv_lt a b : 0 < a -> a < b -> 1 / b < 1 / a.
  Proof. intros H1 H2. unfold Rdiv. rewrite !Rmult_1_l. apply Rinv_lt_contravar; [apply Rmult_lt_0_compat; lra|assumption]. Qed.

  (** odd numbers of terms are below, even numbers above the ratio *)
  Lemma cfrac_side n : forall l, (Nat.odd (S n) = true -> cfrac x (S l) (S n) < rat x l) /\ (Nat.even (S n) = true -> rat x l < cfrac x (S l) (S n)).
  Proof.
    induction n as [|n IH]; intros l.
    - rewrite cfrac_1. split; [|discriminate]. intros _. rewrite rat_rec.
      generalize (rat_gt1 (S l)). intros H. assert (0 < 1 / rat x (S l)) by (apply Rdiv_lt_0_compat; lra). lra.
    - rewrite cfrac_SS, rat_rec. destruct (IH (S l)) as [I1 I2]. rewrite (Nat.odd_succ (S n)), (Nat.even_succ (S n)). split; intros H.
      + apply Rplus_lt_compat_l. apply inv_lt; [generalize (rat_gt1 (S l)); lra|now apply I2].
      + apply Rplus_lt_compat_l. apply inv_lt; [apply cfrac_pos|now apply I1].
  Qed.

  (** distance to the exact ratio *)
  Definition dist (l n : nat) : R := Rabs (cfrac x (S l) n - rat x l).
  Lemma dist_step l n : dist l (S (S n)) = dist (S l) (S n) / (cfrac x (S (S l)) (S n) * rat x (S l)).
  Proof.
    unfold dist. rewrite cfrac_SS, rat_rec. generalize (cfrac_pos n (S (S l))) (rat_gt1 (S l)). intros H1 H2.
    replace (A x (S l) + 1 / cfrac x (S (S l)) (S n) - (A x (S l) + 1 / rat x (S l)))
      with (- (cfrac x (S (S l)) (S n) - rat x (S l)) / (cfrac x (S (S l)) (S n) * rat x (S l))) by (field; lra).
    unfold Rdiv at 1. rewrite Rabs_mult, Rabs_Ropp. unfold Rdiv. f_equal. apply Rabs_pos_eq. left. apply Rinv_0_lt_compat. apply Rmult_lt_0_compat; lra.
  Qed.
  Lemma pair_rat l : 1 + A x (S l) * A x (S (S l)) <= rat x l * rat x (S l).
  Proof.
    rewrite (rat_rec l). generalize (rat_gt1 (S l)) (A_pos (S l)). intros H H0.
    replace ((A x (S l) + 1 / rat x (S l)) * rat x (S l)) with (A x (S l) * rat x (S l) + 1) by (field; lra).
    assert (A x (S (S l)) <= rat x (S l)).
    { rewrite rat_rec. generalize (rat_gt1 (S (S l))). intros. assert (0 < 1 / rat x (S (S l))) by (apply Rdiv_lt_0_compat; lra). lra. }
    assert (A x (S l) * A x (S (S l)) <= A x (S l) * rat x (S l)) by (apply Rmult_le_compat_l; lra). lra.
  Qed.
  Lemma pair_cfrac m n : 1 + A x m * A x (S m) <= cfrac x m (S (S n)) * cfrac x (S m) (S n).
  Proof.
    rewrite cfrac_SS. generalize (cfrac_pos n (S m)) (cfrac_ge n (S m)) (A_pos m). intros H H0 H1.
    replace ((A x m + 1 / cfrac x (S m) (S n)) * cfrac x (S m) (S n)) with (A x m * cfrac x (S m) (S n) + 1) by (field; lra).
    assert (A x m * A x (S m) <= A x m * cfrac x (S m) (S n)) by (apply Rmult_le_compat_l; lra). lra.
  Qed.
  Definition den (l : nat) : R := 1 + A x (S (S l)) * A x (S (S (S l))).
  Lemma den_pos l : 1 < den l.
  Proof. unfold den. generalize (Rmult_lt_0_compat _ _ (A_pos (S (S l))) (A_pos (S (S (S l))))). lra. Qed.
  Lemma dist_two l n : dist l (S (S (S n))) <= dist (S (S l)) (S n) / den l ^ 2.
  Proof.
    rewrite !dist_step. generalize (pair_cfrac (S (S l)) n) (pair_rat (S l)) (den_pos l). fold (den l). intros H1 H2 H3.
    generalize (cfrac_pos n (S (S (S l)))) (cfrac_pos (S n) (S (S l))) (rat_gt1 (S l)) (rat_gt1 (S (S l))). intros P1 P2 P3 P4.
    assert (D : 0 <= dist (S (S l)) (S n)) by apply Rabs_pos.
    replace (dist (S (S l)) (S n) / (cfrac x (S (S (S l))) (S n) * rat x (S (S l))) / (cfrac x (S (S l)) (S (S n)) * rat x (S l)))
      with (dist (S (S l)) (S n) * / ((cfrac x (S (S l)) (S (S n)) * cfrac x (S (S (S l))) (S n)) * (rat x (S l) * rat x (S (S l))))) by (field; repeat split; lra).
    apply Rmult_le_compat_l; [assumption|]. apply Rinv_le_contravar; [apply pow_lt; lra|].
    cbn [pow]. rewrite Rmult_1_r. apply Rmult_le_compat; lra.
  Qed.
  Lemma dist_1 l : dist l 1 <= 1.
  Proof.
    unfold dist. rewrite cfrac_1, rat_rec. generalize (rat_gt1 (S l)). intros H.
    replace (A x (S l) - (A x (S l) + 1 / rat x (S l))) with (- (1 / rat x (S l))) by ring. rewrite Rabs_Ropp, Rabs_pos_eq.
    - unfold Rdiv. rewrite Rmult_1_l. apply inv_le_1; lra.
    - left. apply Rdiv_lt_0_compat; lra.
  Qed.
  Lemma dist_2 l : dist l 2 <= / A x (S (S l)).
  Proof.
    rewrite dist_step, cfrac_1. generalize (rat_gt1 (S l)) (A_pos (S (S l))) (dist_1 (S l)) (Rabs_pos (cfrac x (S (S l)) 1 - rat x (S l))).
    fold (dist (S l) 1). intros H H0 H1 H2.
    apply Rle_trans with (1 * / (A x (S (S l)) * 1)).
    - apply Rmult_le_compat; [assumption| |assumption|].
      + left. apply Rinv_0_lt_compat. apply Rmult_lt_0_compat; lra.
      + apply Rinv_le_contravar; [lra|]. apply Rmult_le_compat_l; lra.
    - right. field. lra.
  Qed.
  (** bound for an even number 2K+2 of terms *)
  Fixpoint bound (K l : nat) : R :=
    match K with O => / A x (S (S l)) | S K => bound K (S (S l)) / den l ^ 2 end.
  Lemma dist_bound K : forall l, dist l (2 * K + 2) <= bound K l.
  Proof.
    induction K as [|K IH]; intros l; [apply dist_2|].
    replace (2 * S K + 2)%nat with (S (S (2 * K + 2))) by lia. cbn [bound].
    assert (E : exists n, (2 * K + 2)%nat = S n) by (exists (2 * K + 1)%nat; lia). destruct E as [n E].
    apply Rle_trans with (dist (S (S l)) (2 * K + 2) / den l ^ 2).
    - rewrite E. apply dist_two.
    - apply Rmult_le_compat_r; [|apply IH]. left. apply Rinv_0_lt_compat. apply pow_lt. generalize (den_pos l). lra.
  Qed.
  Lemma bound_pos K : forall l, 0 < bound K l.
  Proof.
    induction K as [|K IH]; intros l; cbn [bound]; [apply Rinv_0_lt_compat, A_pos|].
    apply Rdiv_lt_0_compat; [apply IH|]. apply pow_lt. generalize (den_pos l). lra.
  Qed.

  (** geometric convergence *)
  Lemma A_ge m : 1 / x <= A x m.
  Proof. unfold A, Rdiv. apply Rmult_le_compat_r; [left; now apply Rinv_0_lt_compat|]. generalize (pos_INR m). lra. Qed.
  Definition q : R := / (1 + / x ^ 2).
  Lemma q_range : 0 < q < 1.
  Proof.
    assert (0 < / x ^ 2) by (apply Rinv_0_lt_compat; now apply pow_lt). unfold q. split; [apply Rinv_0_lt_compat; lra|].
    apply inv_lt_1; lra.
  Qed.
  Lemma den_q l : / den l ^ 2 <= q.
  Proof.
    unfold q. apply Rinv_le_contravar; [|].
    - assert (0 < / x ^ 2) by (apply Rinv_0_lt_compat; now apply pow_lt). lra.
    - assert (H : 1 + / x ^ 2 <= den l).
      { unfold den. apply Rplus_le_compat_l. replace (/ x ^ 2) with (1 / x * (1 / x)) by (field; lra).
        assert (0 < 1 / x) by (apply Rdiv_lt_0_compat; lra). apply Rmult_le_compat; try apply A_ge; lra. }
      generalize (den_pos l). intros. replace (den l ^ 2) with (den l * den l) by ring. apply Rle_trans with (1 * den l); [lra|]. apply Rmult_le_compat_r; lra.
  Qed.
  Lemma A_inv_le m : / A x m <= x.
  Proof. apply Rle_trans with (/ (1 / x)); [apply Rinv_le_contravar; [apply Rdiv_lt_0_compat; lra|apply A_ge]|]. right. field. lra. Qed.
  Lemma dist_geo K : forall l, dist l (S (2 * K)) <= (1 + x) * q ^ K /\ dist l (S (S (2 * K))) <= (1 + x) * q ^ K.
  Proof.
    induction K as [|K IH]; intros l.
    - change (2 * 0)%nat with 0%nat. rewrite pow_O. generalize (dist_1 l) (dist_2 l) (A_inv_le (S (S l))). intros. split; lra.
    - destruct (IH (S (S l))) as [I1 I2]. replace (2 * S K)%nat with (S (S (2 * K))) by lia. generalize q_range (den_q l). intros Q D.
      assert (G : forall n, dist (S (S l)) (S n) <= (1 + x) * q ^ K -> dist l (S (S (S n))) <= (1 + x) * q ^ S K).
      { intros n Hn. apply Rle_trans with (1 := dist_two l n).
        replace ((1 + x) * q ^ S K) with ((1 + x) * q ^ K * q) by (simpl; ring). unfold Rdiv. apply Rmult_le_compat; [apply Rabs_pos| |assumption|assumption].
        left. apply Rinv_0_lt_compat. apply pow_lt. generalize (den_pos l). lra. }
      split; apply G; assumption.
  Qed.
  Lemma cfrac_lim l : is_lim_seq (fun n => cfrac x (S l) n) (rat x l).
  Proof.
    apply is_lim_seq_spec. intros eps. generalize q_range. intros Q.
    assert (Q' : Rabs q < 1) by (rewrite Rabs_pos_eq; lra).
    destruct (pow_lt_1_zero q Q' (eps / (1 + x))) as [N HN]; [apply Rdiv_lt_0_compat; [apply cond_pos|lra]|].
    exists (S (2 * N)). intros n Hn. fold (dist l n).
    assert (E : exists K, (N <= K)%nat /\ (n = S (2 * K) \/ n = S (S (2 * K)))).
    { exists (Nat.div2 (n - 1)). generalize (Nat.div2_odd (n - 1)). destruct (Nat.odd (n - 1)); simpl Nat.b2n; intros; split; lia. }
    destruct E as [K [HK E]]. specialize (HN K ltac:(lia)). rewrite Rabs_pos_eq in HN by (left; apply pow_lt; lra).
    assert (dist l n <= (1 + x) * q ^ K) by (destruct (dist_geo K l), E as [->| ->]; assumption).
    apply Rle_lt_trans with (1 := H). apply Rmult_lt_reg_r with (/ (1 + x)); [apply Rinv_0_lt_compat; lra|].
    replace ((1 + x) * q ^ K * / (1 + x)) with (q ^ K) by (field; lra). exact HN.
  Qed.

  (** ** the error of ln i_l *)
  Definition err (l : nat) (f : R) : R := ln_i_from_ratio l f x - ln (sph_i l x).
  Lemma i_wronskian l : sph_i l x = PI / (2 * x ^ 2) / (sph_k (S l) x + sph_k l x / rat x l).
  Proof.
    rewrite <- (wronskian l x Hx). unfold rat. generalize (sph_i_pos l x Hx) (sph_i_pos (S l) x Hx) (sph_k_pos l x Hx) (sph_k_pos (S l) x Hx). intros. field.
    repeat split; try lra. apply Rgt_not_eq. apply Rplus_lt_0_compat; apply Rmult_lt_0_compat; lra.
  Qed.
  Lemma exact_ratio l : ln_i_from_ratio l (rat x l) x = ln (sph_i l x).
  Proof. unfold ln_i_from_ratio. now rewrite <- i_wronskian. Qed.
  Lemma err_form l f : 0 < f -> err l f = ln ((1 + sph_k l x / sph_k (S l) x / rat x l) / (1 + sph_k l x / sph_k (S l) x / f)).
  Proof.
    intros Hf. unfold err. rewrite <- exact_ratio. unfold ln_i_from_ratio.
    generalize (sph_k_pos l x Hx) (sph_k_pos (S l) x Hx) (rat_gt1 l) PI_RGT_0 (pow_lt x 2 Hx). intros K1 K2 K3 P X2.
    assert (D1 : 0 < sph_k l x / f) by (apply Rdiv_lt_0_compat; lra).
    assert (D2 : 0 < sph_k l x / rat x l) by (apply Rdiv_lt_0_compat; lra).
    assert (B : 0 < PI / (2 * x ^ 2)) by (apply Rdiv_lt_0_compat; lra).
    rewrite <- ln_div by (apply Rdiv_lt_0_compat; lra). f_equal.
    assert (E1 : 0 < sph_k (S l) x * f + sph_k l x) by (apply Rplus_lt_0_compat; [apply Rmult_lt_0_compat|]; lra).
    assert (E2 : 0 < sph_k (S l) x * rat x l + sph_k l x) by (apply Rplus_lt_0_compat; [apply Rmult_lt_0_compat|]; lra).
    field. repeat split; try lra.
  Qed.
  Definition rho (l : nat) : R := sph_k l x / sph_k (S l) x.
  Lemma rho_range l : 0 < rho l < 1.
  Proof.
    unfold rho. generalize (sph_k_pos l x Hx) (sph_k_incr l x Hx). intros. split; [apply Rdiv_lt_0_compat; lra|].
    apply Rmult_lt_reg_r with (sph_k (S l) x); [lra|]. replace (sph_k l x / sph_k (S l) x * sph_k (S l) x) with (sph_k l x) by (field; lra). lra.
  Qed.
  Lemma err_pos l f : rat x l < f -> 0 < err l f.
  Proof.
    intros H. generalize (rat_gt1 l) (rho_range l). intros H1 H2. rewrite err_form by lra. fold (rho l).
    rewrite <- ln_1. apply ln_increasing; [lra|].
    assert (E : rho l / f < rho l / rat x l) by (apply Rmult_lt_compat_l; [lra|]; apply Rinv_lt_contravar; [apply Rmult_lt_0_compat|]; lra).
    assert (0 < rho l / f) by (apply Rdiv_lt_0_compat; lra).
    apply Rmult_lt_reg_r with (1 + rho l / f); [lra|]. unfold Rdiv at 2. rewrite Rmult_assoc, Rinv_l by lra. lra.
  Qed.
  Lemma err_ln2 l f : 0 < f -> err l f < ln 2.
  Proof.
    intros H. generalize (rat_gt1 l) (rho_range l). intros H1 H2. rewrite err_form by lra. fold (rho l).
    assert (E1 : 0 < rho l / f) by (apply Rdiv_lt_0_compat; lra). assert (E2 : 0 < rho l / rat x l) by (apply Rdiv_lt_0_compat; lra).
    assert (E3 : rho l / rat x l < 1).
    { apply Rmult_lt_reg_r with (rat x l); [lra|]. unfold Rdiv. rewrite Rmult_assoc, Rinv_l by lra. lra. }
    apply ln_increasing; [apply Rdiv_lt_0_compat; lra|]. apply Rmult_lt_reg_r with (1 + rho l / f); [lra|]. unfold Rdiv at 1. rewrite Rmult_assoc, Rinv_l by lra. lra.
  Qed.
  Lemma ln_le_sub a : 0 < a -> ln a <= a - 1.
  Proof. intros H. generalize (exp_ineq1_le (ln a)). rewrite exp_ln by assumption. lra. Qed.
  Lemma err_le l f : rat x l < f -> err l f <= f - rat x l.
  Proof.
    intros H. generalize (rat_gt1 l) (rho_range l). intros H1 H2. rewrite err_form by lra. fold (rho l).
    assert (E1 : 0 < rho l / f) by (apply Rdiv_lt_0_compat; lra). assert (E2 : 0 < rho l / rat x l) by (apply Rdiv_lt_0_compat; lra).
    eapply Rle_trans; [apply ln_le_sub; apply Rdiv_lt_0_compat; lra|].
    replace ((1 + rho l / rat x l) / (1 + rho l / f) - 1) with (rho l * (f - rat x l) / (f * rat x l) * / (1 + rho l / f)).
    2:{ field. repeat split; try lra. }
    assert (F : 0 <= rho l * (f - rat x l) / (f * rat x l) <= f - rat x l).
    { assert (G : 0 <= rho l * (f - rat x l) <= f - rat x l).
      { split; [apply Rmult_le_pos; lra|]. rewrite <- (Rmult_1_l (f - rat x l)) at 2. apply Rmult_le_compat_r; lra. }
      assert (1 <= f * rat x l) by (rewrite <- (Rmult_1_r 1); apply Rmult_le_compat; lra).
      assert (I : 0 < / (f * rat x l) <= 1) by (split; [apply Rinv_0_lt_compat; lra|apply inv_le_1; lra]).
      split; [apply Rmult_le_pos; lra|]. unfold Rdiv. rewrite <- (Rmult_1_r (f - rat x l)) at 2. apply Rmult_le_compat; lra. }
    assert (I : 0 < / (1 + rho l / f) <= 1) by (split; [apply Rinv_0_lt_compat; lra|apply inv_le_1; lra]).
    apply Rle_trans with ((f - rat x l) * 1); [|lra]. apply Rmult_le_compat; lra.
  Qed.
  Lemma even_form K : Nat.even (2 * K + 2) = true.
  Proof. replace (2 * K + 2)%nat with (2 * (K + 1))%nat by lia. apply Nat.even_spec. now exists (K + 1)%nat. Qed.
  Lemma err_even K l : 0 < err l (cfrac x (S l) (2 * K + 2)) <= bound K l.
  Proof.
    assert (S1 : rat x l < cfrac x (S l) (2 * K + 2)).
    { replace (2 * K + 2)%nat with (S (2 * K + 1)) by lia. apply cfrac_side. replace (S (2 * K + 1)) with (2 * K + 2)%nat by lia. apply even_form. }
    split; [now apply err_pos|]. apply Rle_trans with (1 := err_le l _ S1). apply Rle_trans with (2 := dist_bound K l). unfold dist. apply Rle_abs.
  Qed.
End CF.

(** ** numerical values of the bound *)
Lemma A_mono x x' m m' : 0 < x <= x' -> (m' <= m)%nat -> A x' m' <= A x m.
Proof.
  intros Hx Hm. unfold A, Rdiv. apply le_INR in Hm. generalize (pos_INR m'). intros P.
  apply Rmult_le_compat; [lra|left; apply Rinv_0_lt_compat; lra|lra|apply Rinv_le_contravar; lra].
Qed.
Lemma bound_mono x x' K : 0 < x <= x' -> forall l l', (l' <= l)%nat -> bound x K l <= bound x' K l'.
Proof.
  intros Hx. induction K as [|K IH]; intros l l' Hl; cbn [bound].
  - apply Rinv_le_contravar; [apply A_pos; lra|]. apply A_mono; [assumption|lia].
  - apply Rmult_le_compat.
    + left. apply bound_pos. lra.
    + left. apply Rinv_0_lt_compat. apply pow_lt. generalize (den_pos x ltac:(lra) l). lra.
    + apply IH. lia.
    + assert (D : den x' l' <= den x l).
      { unfold den. apply Rplus_le_compat_l. apply Rmult_le_compat; try (left; apply A_pos; lra); apply A_mono; try assumption; lia. }
      generalize (den_pos x' ltac:(lra) l'). intros P.
      apply Rinv_le_contravar; [apply pow_lt; lra|]. apply pow_incr; lra.
Qed.

(** evaluation with rational numbers, x an integer *)
Definition AQ (x : positive) (m : nat) : Q := (2 * Z.of_nat m + 1) # x.
Fixpoint boundQ (x : positive) (K l : nat) : Q :=
  match K with
  | O => (/ AQ x (S (S l)))%Q
  | S K => (boundQ x K (S (S l)) / (1 + AQ x (S (S l)) * AQ x (S (S (S l)))) ^ 2)%Q
  end.
Lemma AQ_R x m : Q2R (AQ x m) = A (IZR (Zpos x)) m.
Proof. unfold AQ, A, Q2R. cbn [Qnum Qden]. rewrite plus_IZR, mult_IZR, <- INR_IZR_INZ. reflexivity. Qed.
Lemma Q2R_neq a : Q2R a <> 0 -> ~ (a == 0)%Q.
Proof. intros H E. apply H. apply Qeq_eqR in E. rewrite E. unfold Q2R. simpl. field. Qed.
Lemma boundQ_R x K : forall l, Q2R (boundQ x K l) = bound (IZR (Zpos x)) K l.
Proof.
  assert (Hx : 0 < IZR (Zpos x)) by (apply IZR_lt; lia).
  induction K as [|K IH]; intros l; cbn [boundQ bound].
  - rewrite Q2R_inv, AQ_R; [reflexivity|]. apply Q2R_neq. rewrite AQ_R. generalize (A_pos _ Hx (S (S l))). lra.
  - assert (E : Q2R (1 + AQ x (S (S l)) * AQ x (S (S (S l))))%Q = den (IZR (Zpos x)) l).
    { rewrite Q2R_plus, Q2R_mult, !AQ_R. unfold den. f_equal. unfold Q2R; simpl. field. }
    assert (E2 : Q2R ((1 + AQ x (S (S l)) * AQ x (S (S (S l)))) ^ 2)%Q = den (IZR (Zpos x)) l ^ 2).
    { change ((1 + AQ x (S (S l)) * AQ x (S (S (S l)))) ^ 2)%Q with ((1 + AQ x (S (S l)) * AQ x (S (S (S l)))) * (1 + AQ x (S (S l)) * AQ x (S (S (S l)))))%Q.
      rewrite Q2R_mult, E. ring. }
    rewrite Q2R_div, IH, E2; [reflexivity|]. apply Q2R_neq. rewrite E2. apply pow_nonzero. generalize (den_pos _ Hx l). lra.
Qed.
Lemma bound_80 l x : (2 <= l)%nat -> 0 < x <= 100 -> bound x 39 l <= / 10 ^ 19.
Proof.
  intros Hl Hx. apply Rle_trans with (bound 100 39 2); [apply bound_mono; [lra|lia]|].
  change 100 with (IZR 100). rewrite <- boundQ_R. replace (/ 10 ^ 19) with (Q2R (1 # 10000000000000000000)) by (unfold Q2R; simpl; lra).
  apply Qle_Rle. vm_compute. discriminate.
Qed.
Lemma bound_140 l x : (2 <= l)%nat -> 0 < x <= 300 -> bound x 69 l <= / 10 ^ 14.
Proof.
  intros Hl Hx. apply Rle_trans with (bound 300 69 2); [apply bound_mono; [lra|lia]|].
  change 300 with (IZR 300). rewrite <- boundQ_R. replace (/ 10 ^ 14) with (Q2R (1 # 100000000000000)) by (unfold Q2R; simpl; lra).
  apply Qle_Rle. vm_compute. discriminate.
Qed.
