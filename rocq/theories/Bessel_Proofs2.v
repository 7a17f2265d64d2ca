(** * i_l: recursion, closed forms, positivity, ladder relations, Wronskian, monotony in the order *)
From Coq Require Import Reals Factorial.
From Coquelicot Require Import Coquelicot.
From Coq Require Import Bool ZArith List Lia Lra.
From Verif Require Import Base Bessel_Model Bessel_Spec Bessel_Proofs.
Import ListNotations.
Open Scope R_scope.

Lemma odd_fact_ge1 n : 1 <= odd_fact n.
Proof.
  induction n as [|n IH]; [simpl; lra|]. cbn [odd_fact]. rewrite S_INR. generalize (pos_INR n). intros H.
  apply Rle_trans with (1 * odd_fact n); [lra|]. apply Rmult_le_compat_r; lra.
Qed.
Lemma odd_fact_S n : odd_fact (S n) = (2 * INR n + 3) * odd_fact n.
Proof. cbn [odd_fact]. rewrite S_INR. ring. Qed.
Lemma odd_fact_pos n : 0 < odd_fact n.
Proof. generalize (odd_fact_ge1 n). lra. Qed.
Lemma pow2_ge1 k : 1 <= 2 ^ k.
Proof. induction k as [|k IH]; simpl; lra. Qed.
Lemma fact_ge1 k : 1 <= INR (fact k).
Proof. replace 1 with (INR 1) by reflexivity. apply le_INR. apply lt_O_fact. Qed.

Lemma icoef_pos l k : 0 < icoef l k.
Proof.
  apply Rinv_0_lt_compat. apply Rmult_lt_0_compat; [apply Rmult_lt_0_compat|].
  - generalize (pow2_ge1 k). lra.
  - apply fact_pos.
  - apply odd_fact_pos.
Qed.
Lemma icoef_le l k : icoef l k <= / INR (fact k).
Proof.
  apply Rinv_le_contravar; [apply fact_pos|]. generalize (pow2_ge1 k) (fact_ge1 k) (odd_fact_ge1 (l + k)). intros A B C.
  rewrite <- (Rmult_1_l (INR (fact k))) at 1. rewrite <- (Rmult_1_r (1 * INR (fact k))).
  apply Rmult_le_compat; try lra. apply Rmult_le_compat; lra.
Qed.

(** comparison with the exponential series *)
Lemma ex_below_exp (a : nat -> R) y : 0 <= y -> (forall k, 0 <= a k <= / INR (fact k)) -> ex_pseries a y.
Proof.
  intros Hy Ha. apply ex_pseries_R. apply (@ex_series_le R_AbsRing R_CompleteNormedModule _ (fun k => / INR (fact k) * y ^ k)).
  - intros k. unfold norm; simpl. unfold abs; simpl. rewrite Rabs_pos_eq.
    + apply Rmult_le_compat_r; [now apply pow_le|apply Ha].
    + apply Rmult_le_pos; [apply Ha|now apply pow_le].
  - exists (exp y). apply is_pseries_R. apply is_exp_Reals.
Qed.
Lemma ex_icoef l y : 0 <= y -> ex_pseries (icoef l) y.
Proof. intros Hy. apply ex_below_exp; [assumption|]. intros k. generalize (icoef_pos l k) (icoef_le l k). lra. Qed.

Lemma icoef_S l k : icoef l (S k) = icoef (S l) k / (2 * (INR k + 1)).
Proof.
  unfold icoef. replace (l + S k)%nat with (S l + k)%nat by lia. rewrite fact_S. cbn [pow].
  generalize (pow2_ge1 k) (fact_pos k) (odd_fact_pos (S l + k)) (pos_INR k). intros A B C D. field. repeat split; lra.
Qed.
Lemma icoef_up l k : icoef l k = (2 * INR (l + k) + 3) * icoef (S l) k.
Proof.
  unfold icoef. cbn [Nat.add]. rewrite odd_fact_S.
  generalize (pow2_ge1 k) (fact_pos k) (odd_fact_pos (l + k)) (pos_INR (l + k)). intros A B C D. field. repeat split; lra.
Qed.

Lemma icoef_rec l k : icoef l k = match k with O => 0 | S j => icoef (S (S l)) j end + (2 * INR l + 3) * icoef (S l) k.
Proof.
  destruct k as [|k].
  - rewrite icoef_up. rewrite Nat.add_0_r. ring.
  - rewrite (icoef_S l k), (icoef_S (S l) k), (icoef_up (S l) k). rewrite plus_INR, S_INR.
    generalize (pos_INR k). intros D. field. lra.
Qed.

Lemma sph_i_series_rec l y : 0 <= y ->
  PSeries (icoef l) y = y * PSeries (icoef (S (S l))) y + (2 * INR l + 3) * PSeries (icoef (S l)) y.
Proof.
  intros Hy. rewrite <- PSeries_incr_1, <- PSeries_scal. rewrite <- PSeries_plus.
  - apply PSeries_ext. intros k. rewrite icoef_rec. unfold PS_plus, PS_incr_1, PS_scal, scal, plus; simpl. unfold mult; simpl.
    destruct k; reflexivity.
  - apply ex_pseries_incr_1. now apply ex_icoef.
  - apply ex_pseries_scal; [apply Rmult_comm|now apply ex_icoef].
Qed.
Lemma sph_i_rec l x : 0 < x -> sph_i l x = sph_i (S (S l)) x + (2 * INR l + 3) / x * sph_i (S l) x.
Proof.
  intros Hx. unfold sph_i. rewrite sph_i_series_rec by apply pow2_ge_0. cbn [pow]. field. lra.
Qed.

Lemma series_pos (a : nat -> R) y : 0 <= y -> (forall k, 0 <= a k <= / INR (fact k)) -> 0 < a 0%nat -> 0 < PSeries a y.
Proof.
  intros Hy Ha H0. unfold PSeries. assert (E : ex_series (fun k => a k * y ^ k)) by (apply ex_pseries_R; now apply ex_below_exp).
  rewrite Series_incr_1 by assumption. cbn [pow]. rewrite Rmult_1_r.
  assert (0 <= Series (fun k => a (S k) * (y * y ^ k))); [|lra].
  replace 0 with (Series (fun _ => 0)).
  - apply Series_le; [|now apply (ex_series_incr_1 (fun k => a k * y ^ k))].
    intros k. split; [lra|]. apply Rmult_le_pos; [apply Ha|]. apply Rmult_le_pos; [assumption|now apply pow_le].
  - transitivity (PSeries (fun _ => 0) 0); [|apply PSeries_const_0]. unfold PSeries. apply Series_ext. intros k. ring.
Qed.
Lemma sph_i_pos l x : 0 < x -> 0 < sph_i l x.
Proof.
  intros Hx. apply Rmult_lt_0_compat; [now apply pow_lt|]. apply series_pos.
  - apply pow2_ge_0.
  - intros k. generalize (icoef_pos l k) (icoef_le l k). lra.
  - apply icoef_pos.
Qed.

(** closed forms of the two lowest orders *)
Definition ecoef (k : nat) : R := / INR (fact (2 * k)).
Definition ocoef (k : nat) : R := / INR (fact (2 * k + 1)).
Lemma fact_double k : INR (fact (2 * k + 1)) = 2 ^ k * INR (fact k) * odd_fact k.
Proof.
  induction k as [|k IH]; [simpl; lra|].
  replace (2 * S k + 1)%nat with (S (S (2 * k + 1))) by lia. rewrite fact_S, fact_S, IH, (fact_S k), odd_fact_S.
  rewrite !S_INR, plus_INR, mult_INR. simpl (INR 2). simpl (INR 1). cbn [pow]. ring.
Qed.
Lemma ocoef_i k : ocoef k = icoef 0 k.
Proof. unfold ocoef, icoef. rewrite fact_double. reflexivity. Qed.
Lemma ecoef_o k : ecoef k = (2 * INR k + 1) * ocoef k.
Proof.
  unfold ecoef, ocoef. rewrite Nat.add_1_r, fact_S, mult_INR. simpl (INR 2). generalize (fact_pos (2 * k)) (pos_INR k). intros. field. split; lra.
Qed.
Lemma fact_le_mono a b : (a <= b)%nat -> / INR (fact b) <= / INR (fact a).
Proof. intros H. apply Rinv_le_contravar; [apply fact_pos|]. apply le_INR. now apply fact_le. Qed.
Lemma ex_e y : 0 <= y -> ex_pseries ecoef y.
Proof.
  intros Hy. apply ex_below_exp; [assumption|]. intros k. split; [left; apply Rinv_0_lt_compat; apply fact_pos|apply fact_le_mono; lia].
Qed.
Lemma ex_o y : 0 <= y -> ex_pseries ocoef y.
Proof.
  intros Hy. apply ex_below_exp; [assumption|]. intros k. split; [left; apply Rinv_0_lt_compat; apply fact_pos|apply fact_le_mono; lia].
Qed.
Lemma exp_parts x : exp x = PSeries ecoef (x ^ 2) + x * PSeries ocoef (x ^ 2).
Proof.
  rewrite <- (is_pseries_unique _ _ _ (is_exp_Reals x)). apply (PSeries_odd_even (fun n => / INR (fact n))); [apply ex_e|apply ex_o]; apply pow2_ge_0.
Qed.
Lemma sinh_series x : sinh x = x * PSeries ocoef (x ^ 2).
Proof. unfold sinh. rewrite (exp_parts x), (exp_parts (- x)). replace ((- x) ^ 2) with (x ^ 2) by ring. field. Qed.
Lemma cosh_series x : cosh x = PSeries ecoef (x ^ 2).
Proof. unfold cosh. rewrite (exp_parts x), (exp_parts (- x)). replace ((- x) ^ 2) with (x ^ 2) by ring. field. Qed.

Lemma sph_i_0 x : 0 < x -> sph_i 0 x = sinh x / x.
Proof.
  intros Hx. rewrite sinh_series. unfold sph_i. rewrite (PSeries_ext ocoef (icoef 0)) by apply ocoef_i. simpl. field. lra.
Qed.
Lemma sph_i_1 x : 0 < x -> sph_i 1 x = (x * cosh x - sinh x) / x ^ 2.
Proof.
  intros Hx. rewrite sinh_series, cosh_series. unfold sph_i.
  assert (E : PSeries ecoef (x ^ 2) = PSeries ocoef (x ^ 2) + x ^ 2 * PSeries (icoef 1) (x ^ 2)).
  { rewrite <- PSeries_incr_1. rewrite <- PSeries_plus.
    - apply PSeries_ext. intros k. unfold PS_plus, PS_incr_1, plus; simpl. destruct k as [|k].
      + unfold ecoef, ocoef, zero; simpl. field.
      + rewrite ecoef_o, ocoef_i, icoef_S, S_INR. generalize (pos_INR k). intros. field. lra.
    - apply ex_o, pow2_ge_0.
    - apply ex_pseries_incr_1. apply ex_icoef, pow2_ge_0. }
  rewrite E. field. lra.
Qed.

(** derivatives *)
Lemma sinh_derive x : is_derive sinh x (cosh x).
Proof. unfold sinh, cosh. auto_derive; [exact I|]. field. Qed.
Lemma cosh_derive x : is_derive cosh x (sinh x).
Proof. unfold sinh, cosh. auto_derive; [exact I|]. field. Qed.

Lemma sph_i_derive l x : 0 < x -> is_derive (sph_i l) x (sph_i (S l) x + INR l / x * sph_i l x).
Proof.
  intros Hx. revert l.
  assert (H : forall l, is_derive (sph_i l) x (sph_i (S l) x + INR l / x * sph_i l x) /\
                        is_derive (sph_i (S l)) x (sph_i (S (S l)) x + INR (S l) / x * sph_i (S l) x)); [|intros l; apply H].
  induction l as [|l [I1 I2]].
  - split.
    + apply (is_derive_pos_ext _ (fun t => sinh t * (1 / t))); [assumption|intros; rewrite sph_i_0 by assumption; field; lra|].
      eapply deq; [apply (dmult _ _ _ _ _ (sinh_derive x) (dinv 1 x Hx))|].
      rewrite sph_i_1, sph_i_0 by assumption. simpl (INR 0). field. lra.
    + apply (is_derive_pos_ext _ (fun t => (t * cosh t + - sinh t) * (1 / t * (1 / t)))); [assumption|intros; rewrite sph_i_1 by assumption; field; lra|].
      eapply deq; [apply (dmult _ _ _ _ _ (dplus _ _ _ _ _ (dmult (fun t => t) _ _ _ _ (is_derive_id x) (cosh_derive x)) (dopp _ _ _ (sinh_derive x)))
         (dmult _ _ _ _ _ (dinv 1 x Hx) (dinv 1 x Hx)))|].
      generalize (sph_i_rec 0 x Hx). rewrite sph_i_1, sph_i_0 by assumption. simpl (INR 0). simpl (INR 1). intros E.
      assert (E2 : sph_i 2 x = sinh x / x - (2 * 0 + 3) / x * ((x * cosh x - sinh x) / x ^ 2)) by lra.
      rewrite E2. unfold one; simpl. field. lra.
  - split; [assumption|].
    apply (is_derive_pos_ext _ (fun t => sph_i l t + - ((2 * INR l + 3) / t * sph_i (S l) t))); [assumption|intros t Ht; rewrite (sph_i_rec l t Ht); ring|].
    eapply deq; [apply (dplus _ _ _ _ _ I1 (dopp _ _ _ (dmult _ _ _ _ _ (dinv (2 * INR l + 3) x Hx) I2)))|].
    generalize (sph_i_rec l x Hx) (sph_i_rec (S l) x Hx). intros E1 E2.
    assert (E3 : sph_i (S (S (S l))) x = sph_i (S l) x - (2 * INR (S l) + 3) / x * sph_i (S (S l)) x) by lra.
    rewrite E3, E1. rewrite !S_INR. field. lra.
Qed.
Lemma sph_i_derive_down l x : 0 < x -> is_derive (sph_i (S l)) x (sph_i l x - (INR l + 2) / x * sph_i (S l) x).
Proof.
  intros Hx. eapply deq; [apply (sph_i_derive (S l) x Hx)|]. rewrite (sph_i_rec l x Hx), S_INR. field. lra.
Qed.
Lemma sph_i_ode l : bessel_ode l (sph_i l).
Proof.
  exists (fun x => sph_i (S l) x + INR l / x * sph_i l x).
  exists (fun x => (1 + (INR l * (INR l + 1)) / x ^ 2) * sph_i l x - 2 / x * (sph_i (S l) x + INR l / x * sph_i l x)).
  intros x Hx. split; [now apply sph_i_derive|]. split.
  - eapply deq; [apply (dplus _ _ _ _ _ (sph_i_derive_down l x Hx) (dmult _ _ _ _ _ (dinv (INR l) x Hx) (sph_i_derive l x Hx)))|].
    field. lra.
  - field. lra.
Qed.

(** i_l k_{l+1} + i_{l+1} k_l = pi / (2 x^2) *)
Lemma wronskian l x : 0 < x -> sph_i l x * sph_k (S l) x + sph_i (S l) x * sph_k l x = PI / (2 * x ^ 2).
Proof.
  intros Hx. induction l as [|l IH].
  - rewrite sph_i_0, sph_i_1, sph_k_0, sph_k_1 by assumption. unfold sinh, cosh. rewrite exp_Ropp.
    generalize (exp_pos x). intros E. field. split; lra.
  - rewrite <- IH. rewrite (sph_k_rec l x Hx), (sph_i_rec l x Hx). ring.
Qed.

(** i_{l+1} < i_l and k_l < k_{l+1} *)
Lemma sph_i_lower l x : 0 < x -> (2 * INR l + 3) / x < sph_i l x / sph_i (S l) x.
Proof.
  intros Hx. rewrite (sph_i_rec l x Hx). generalize (sph_i_pos (S l) x Hx) (sph_i_pos (S (S l)) x Hx). intros A B.
  assert (0 < sph_i (S (S l)) x / sph_i (S l) x) by (apply Rdiv_lt_0_compat; assumption).
  replace ((sph_i (S (S l)) x + (2 * INR l + 3) / x * sph_i (S l) x) / sph_i (S l) x)
    with (sph_i (S (S l)) x / sph_i (S l) x + (2 * INR l + 3) / x) by (field; lra). lra.
Qed.
Lemma sph_i_decr_small l x : 0 < x <= 1 -> sph_i (S l) x < sph_i l x.
Proof.
  intros Hx. generalize (sph_i_lower l x ltac:(lra)) (sph_i_pos (S l) x ltac:(lra)). intros A B.
  assert (1 < sph_i l x / sph_i (S l) x).
  { apply Rle_lt_trans with (2 := A). apply Rmult_le_reg_r with x; [lra|].
    replace ((2 * INR l + 3) / x * x) with (2 * INR l + 3) by (field; lra). generalize (pos_INR l). lra. }
  apply Rmult_lt_reg_r with (/ sph_i (S l) x); [now apply Rinv_0_lt_compat|]. rewrite Rinv_r by lra. exact H.
Qed.
Lemma exp_diff_derive l x : 0 < x ->
  is_derive (fun t => exp t * (sph_i l t + - sph_i (S l) t)) x (exp x * (INR l / x * sph_i l x + (INR l + 2) / x * sph_i (S l) x)).
Proof.
  intros Hx. eapply deq; [apply (dmult _ _ _ _ _ (is_derive_exp x) (dplus _ _ _ _ _ (sph_i_derive l x Hx) (dopp _ _ _ (sph_i_derive_down l x Hx))))|].
  field. lra.
Qed.
Lemma sph_i_decr l x : 0 < x -> sph_i (S l) x < sph_i l x.
Proof.
  intros Hx. destruct (Rle_lt_dec x 1) as [H1|H1]; [apply sph_i_decr_small; lra|].
  assert (M : forall u, 1 <= u <= x -> 0 <= exp u * (INR l / u * sph_i l u + (INR l + 2) / u * sph_i (S l) u)).
  { intros u Hu. generalize (exp_pos u) (sph_i_pos l u ltac:(lra)) (sph_i_pos (S l) u ltac:(lra)) (pos_INR l). intros A B C D.
    assert (0 <= INR l / u) by (apply Rdiv_le_0_compat; lra). assert (0 <= (INR l + 2) / u) by (apply Rdiv_le_0_compat; lra).
    apply Rmult_le_pos; [lra|]. apply Rplus_le_le_0_compat; apply Rmult_le_pos; lra. }
  destruct (MVT_gen (fun t => exp t * (sph_i l t + - sph_i (S l) t)) 1 x
      (fun u => exp u * (INR l / u * sph_i l u + (INR l + 2) / u * sph_i (S l) u))) as [c [Hc E]].
  - intros u Hu. rewrite Rmin_left, Rmax_right in Hu by lra. apply exp_diff_derive. lra.
  - intros u Hu. rewrite Rmin_left, Rmax_right in Hu by lra.
    apply continuity_pt_filterlim. apply (ex_derive_continuous (fun t => exp t * (sph_i l t + - sph_i (S l) t))).
    eexists. apply exp_diff_derive. lra.
  - rewrite Rmin_left, Rmax_right in Hc by lra. specialize (M c Hc).
    generalize (sph_i_decr_small l 1 ltac:(lra)). intros S1.
    assert (P : 0 < exp 1 * (sph_i l 1 + - sph_i (S l) 1)) by (apply Rmult_lt_0_compat; [apply exp_pos|lra]).
    assert (Q : 0 <= exp c * (INR l / c * sph_i l c + (INR l + 2) / c * sph_i (S l) c) * (x - 1)) by (apply Rmult_le_pos; lra).
    assert (W : 0 < exp x * (sph_i l x + - sph_i (S l) x)) by lra.
    generalize (exp_pos x). intros E0. assert (0 < sph_i l x + - sph_i (S l) x); [|lra].
    apply Rmult_lt_reg_l with (exp x); lra.
Qed.
Lemma sph_k_incr l x : 0 < x -> sph_k l x < sph_k (S l) x.
Proof.
  intros Hx. assert (H : sph_k l x < sph_k (S l) x /\ sph_k (S l) x < sph_k (S (S l)) x); [|tauto].
  assert (X : 0 < / x) by now apply Rinv_0_lt_compat.
  induction l as [|l [I1 I2]].
  - rewrite sph_k_rec, sph_k_0, sph_k_1 by assumption. assert (0 < PI / 2 * exp (- x) / x).
    { apply Rdiv_lt_0_compat; [|assumption]. apply Rmult_lt_0_compat; [apply PI2_pos|apply exp_pos]. }
    simpl (INR 0). set (c := PI / 2 * exp (- x) / x) in *. unfold Rdiv. set (u := / x) in *.
    assert (0 < c * u) by (apply Rmult_lt_0_compat; assumption).
    assert (0 < c * u * u) by (apply Rmult_lt_0_compat; assumption). split; nra.
  - split; [assumption|]. rewrite (sph_k_rec (S l) x Hx), (sph_k_rec l x Hx) at 1. unfold Rdiv.
    generalize (sph_k_pos (S l) x Hx) (pos_INR l). intros A B. rewrite S_INR.
    assert (0 < / x * (sph_k (S (S l)) x - sph_k (S l) x)) by (apply Rmult_lt_0_compat; lra).
    assert (0 <= INR l * (/ x * (sph_k (S (S l)) x - sph_k (S l) x))) by (apply Rmult_le_pos; lra).
    assert (0 < / x * sph_k (S (S l)) x) by (apply Rmult_lt_0_compat; lra).
    lra.
Qed.
