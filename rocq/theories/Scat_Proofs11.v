(** * Logarithmic derivatives of the radial functions are monotone: the sign of the Mie coefficients *)
From Coq Require Import Reals.
From Coquelicot Require Import Coquelicot.
From Coq Require Import Bool ZArith List Lia Lra Psatz.
From Verif Require Import Base Mat_Model Bessel_Model Bessel_Spec Bessel_Proofs Bessel_Proofs2 Scat_Model Scat_Spec Scat_Proofs Scat_Proofs2 Scat_Proofs3.
Import ListNotations.
Open Scope R_scope.

(** ** Turan inequalities *)
Lemma turan_i l x : 0 < x -> sph_i l x * sph_i (S (S l)) x < sph_i (S l) x * sph_i (S l) x.
Proof.
  intros Hx.
  set (P := fun t => t ^ 3 * (sph_i (S l) t * sph_i (S l) t + (-1) * (sph_i l t * sph_i (S (S l)) t))).
  assert (M : forall a b, 0 < a -> a < b -> P a < P b).
  { apply (incr_pos P (fun t => 2 * t ^ 2 * (sph_i (S l) t * sph_i (S l) t))).
    - intros t Ht. unfold P. eapply deq.
      + apply dmult; [apply (is_derive_pow (fun s => s) 3 t 1 (did t))|].
        apply dplus; [apply dmult; apply sph_i_derive; assumption|]. apply is_derive_scal. apply dmult; [apply sph_i_derive|apply sph_i_derive_down]; assumption.
      + cbv beta. rewrite (sph_i_rec l t Ht). rewrite !S_INR. simpl INR. simpl pow. field. lra.
    - intros t Ht. assert (0 < sph_i (S l) t) by (now apply sph_i_pos). assert (0 < t ^ 2) by (apply pow_lt; assumption). apply Rmult_lt_0_compat; [lra|now apply Rmult_lt_0_compat]. }
  assert (B : forall j t, 0 < t -> t * sph_i j t <= sinh t).
  { intros j t Ht. assert (E : sph_i j t <= sph_i 0 t) by (induction j as [|j IH]; [lra|generalize (sph_i_decr j t Ht); lra]).
    rewrite sph_i_0 in E by assumption. apply (Rmult_le_compat_l t) in E; [|lra]. replace (t * (sinh t / t)) with (sinh t) in E by (field; lra). exact E. }
  assert (SB : forall t, 0 < t <= 1 -> 0 < sinh t <= 3).
  { intros t [H1 H2]. split; [generalize (B 0%nat t H1) (sph_i_pos 0 t H1); nra|]. unfold sinh.
    assert (exp t <= 3). { apply Rle_trans with (exp 1); [|exact exp_le_3]. destruct H2 as [H2| ->]; [left; now apply exp_increasing|lra]. }
    generalize (exp_pos (- t)). lra. }
  assert (L : forall t, 0 < t <= 1 -> - (9 * t) <= P t).
  { intros t Ht. generalize (SB t Ht) (B l t (proj1 Ht)) (B (S (S l)) t (proj1 Ht)). intros HS B1 B2.
    assert (P1 : 0 < t * sph_i l t) by (apply Rmult_lt_0_compat; [lra|now apply sph_i_pos]). assert (P2 : 0 < t * sph_i (S (S l)) t) by (apply Rmult_lt_0_compat; [lra|now apply sph_i_pos]).
    assert (Q : (t * sph_i l t) * (t * sph_i (S (S l)) t) <= 3 * 3) by (apply Rmult_le_compat; lra).
    assert (Z : 0 <= (t * sph_i (S l) t) * (t * sph_i (S l) t)) by apply Rle_0_sqr.
    replace (P t) with (t * ((t * sph_i (S l) t) * (t * sph_i (S l) t)) + - t * ((t * sph_i l t) * (t * sph_i (S (S l)) t))) by (unfold P; ring).
    assert (0 <= t * ((t * sph_i (S l) t) * (t * sph_i (S l) t))) by (apply Rmult_le_pos; [lra|exact Z]).
    assert (t * ((t * sph_i l t) * (t * sph_i (S (S l)) t)) <= t * 9) by (apply Rmult_le_compat_l; lra). lra. }
  assert (Pp : 0 < P x).
  { destruct (Rlt_le_dec 0 (P x)) as [H|H]; [exact H|exfalso].
    set (y := Rmin (x / 2) 1). assert (Y : 0 < y <= 1 /\ y < x). { unfold y. unfold Rmin; destruct (Rle_dec (x / 2) 1); lra. }
    assert (N := M y x (proj1 (proj1 Y)) (proj2 Y)).
    set (z := Rmin (y / 2) (- P y / 18)). assert (Zz : 0 < z /\ z <= y / 2 /\ z <= - P y / 18).
    { unfold z. unfold Rmin; destruct (Rle_dec (y / 2) (- P y / 18)); lra. }
    generalize (L z ltac:(lra)) (M z y ltac:(lra) ltac:(lra)). lra. }
  unfold P in Pp. assert (0 < x ^ 3) by (apply pow_lt; assumption). apply Rnot_le_lt. intros C. 
  assert (x ^ 3 * (sph_i (S l) x * sph_i (S l) x + -1 * (sph_i l x * sph_i (S (S l)) x)) <= x ^ 3 * 0) by (apply Rmult_le_compat_l; lra). lra.
Qed.
Lemma turan_k l x : 0 < x -> sph_k (S l) x * sph_k (S l) x < sph_k l x * sph_k (S (S l)) x < sph_k (S l) x * sph_k (S l) x + 2 / x * (sph_k l x * sph_k (S l) x).
Proof.
  intros Hx. induction l as [|l IH].
  - rewrite (sph_k_rec 0), sph_k_1, sph_k_0 by assumption. set (c := PI / 2 * exp (- x) / x). simpl INR.
    assert (C : 0 < c) by (unfold c; apply Rdiv_lt_0_compat; [apply Rmult_lt_0_compat; [generalize PI_RGT_0; lra|apply exp_pos]|assumption]).
    assert (Y : 0 < / x) by (now apply Rinv_0_lt_compat). set (y := / x) in *. unfold Rdiv. fold y. assert (0 < c * c) by (now apply Rmult_lt_0_compat).
    assert (0 < y * y) by (now apply Rmult_lt_0_compat).
    split.
    + apply Rminus_gt_0_lt. replace (_ - _) with (c * c * (y + 2 * (y * y))) by ring. apply Rmult_lt_0_compat; lra.
    + apply Rminus_gt_0_lt. replace (_ - _) with (c * c * y) by ring. now apply Rmult_lt_0_compat.
  - assert (E := sph_k_rec l x Hx). assert (E' := sph_k_rec (S l) x Hx). rewrite S_INR in E'.
    assert (P0 := sph_k_pos l x Hx). assert (P1 := sph_k_pos (S l) x Hx). assert (P2 := sph_k_pos (S (S l)) x Hx). assert (I0 := sph_k_incr l x Hx). assert (I1 := sph_k_incr (S l) x Hx).
    assert (Y : 0 < / x) by (now apply Rinv_0_lt_compat). unfold Rdiv in *. set (y := / x) in *.
    set (k0 := sph_k l x) in *. set (k1 := sph_k (S l) x) in *. set (k2 := sph_k (S (S l)) x) in *. set (k3 := sph_k (S (S (S l))) x) in *.
    assert (T : k1 * k3 - k2 * k2 = 2 * y * (k1 * k2) - (k0 * k2 - k1 * k1)).
    { rewrite E'. replace (k2 * k2) with (k2 * (k0 + (2 * INR l + 3) * y * k1)) by (rewrite E; reflexivity). ring. }
    assert (2 * y * (k0 * k1) < 2 * y * (k1 * k2)). { apply Rmult_lt_compat_l; [lra|]. rewrite (Rmult_comm k0). apply Rmult_lt_compat_l; lra. }
    lra.
Qed.

(** ** the exterior side *)
Section Mono.
  Context (l : nat).
  Lemma DI_derive x : 0 < x -> is_derive (DI l) x (x * (1 - sph_i l x * sph_i (S (S l)) x / (sph_i (S l) x * sph_i (S l) x))).
  Proof.
    intros Hx. apply (is_derive_pos_ext _ (fun t => - INR (S l) + t * (sph_i l t / sph_i (S l) t))); [assumption|intros t Ht; now apply DIE|].
    assert (P := sph_i_pos (S l) x Hx).
    eapply deq; [apply dplus; [apply dcst|apply dmult; [apply did|apply is_derive_div; [now apply sph_i_derive|now apply sph_i_derive_down|lra]]]|].
    cbv beta. rewrite (sph_i_rec l x Hx). field. lra.
  Qed.
  Lemma DK_derive x : 0 < x -> is_derive (DK l) x (x * (1 - sph_k l x * sph_k (S (S l)) x / (sph_k (S l) x * sph_k (S l) x))).
  Proof.
    intros Hx. apply (is_derive_pos_ext _ (fun t => - INR (S l) + (-1) * (t * (sph_k l t / sph_k (S l) t)))); [assumption|intros t Ht; rewrite DKE by assumption; ring|].
    assert (P := sph_k_pos (S l) x Hx).
    eapply deq; [apply dplus; [apply dcst|apply is_derive_scal; apply dmult; [apply did|apply is_derive_div; [now apply sph_k_derive|now apply sph_k_derive_down|lra]]]|].
    cbv beta. rewrite (sph_k_rec l x Hx). field. lra.
  Qed.
  Lemma DI_incr x y : 0 < x -> x < y -> DI l x < DI l y.
  Proof.
    apply (incr_pos (DI l) _ DI_derive). clear. intros x Hx. apply Rmult_lt_0_compat; [assumption|].
    assert (T := turan_i l x Hx). assert (P := sph_i_pos (S l) x Hx). assert (Q : 0 < sph_i (S l) x * sph_i (S l) x) by (now apply Rmult_lt_0_compat).
    assert (sph_i l x * sph_i (S (S l)) x / (sph_i (S l) x * sph_i (S l) x) < 1); [|lra]. apply Rmult_lt_reg_r with (1 := Q). unfold Rdiv. rewrite Rmult_assoc, Rinv_l by lra. lra.
  Qed.
  Lemma DK_decr x y : 0 < x -> x < y -> DK l y < DK l x.
  Proof.
    intros Hx Hy. apply Ropp_lt_cancel. revert Hx Hy.
    apply (incr_pos (fun t => - DK l t) (fun x => - (x * (1 - sph_k l x * sph_k (S (S l)) x / (sph_k (S l) x * sph_k (S l) x))))).
    - intros t Ht. apply (is_derive_opp (DK l)). now apply DK_derive.
    - clear. intros x Hx. assert (T := proj1 (turan_k l x Hx)). assert (P := sph_k_pos (S l) x Hx). assert (Q : 0 < sph_k (S l) x * sph_k (S l) x) by (now apply Rmult_lt_0_compat).
      assert (1 < sph_k l x * sph_k (S (S l)) x / (sph_k (S l) x * sph_k (S l) x)). { apply Rmult_lt_reg_r with (1 := Q). unfold Rdiv. rewrite Rmult_assoc, Rinv_l by lra. lra. }
      replace (- _) with (x * (sph_k l x * sph_k (S (S l)) x / (sph_k (S l) x * sph_k (S l) x) - 1)) by ring. apply Rmult_lt_0_compat; lra.
  Qed.
  (** divided by x^2 they move the other way *)
  Lemma over_sq (f df : R -> R) : (forall x, 0 < x -> is_derive f x (df x)) -> forall x, 0 < x -> is_derive (fun t => f t / t ^ 2) x ((x * df x - 2 * f x) / x ^ 3).
  Proof.
    intros H x Hx. eapply deq; [apply is_derive_div; [apply H; assumption|apply (is_derive_pow (fun s => s) 2 x 1 (did x))|apply pow_nonzero; lra]|]. cbv beta. simpl INR. simpl pow. field. lra.
  Qed.
  Lemma DI_sq x y : 0 < x -> x < y -> DI l y / y ^ 2 < DI l x / x ^ 2.
  Proof.
    intros Hx Hy. apply Ropp_lt_cancel. revert Hx Hy.
    apply (incr_pos (fun t => - (DI l t / t ^ 2)) (fun x => - ((x * (x * (1 - sph_i l x * sph_i (S (S l)) x / (sph_i (S l) x * sph_i (S l) x))) - 2 * DI l x) / x ^ 3))).
    - intros t Ht. apply (is_derive_opp (fun t => DI l t / t ^ 2)). now apply (over_sq (DI l) (fun x => x * (1 - sph_i l x * sph_i (S (S l)) x / (sph_i (S l) x * sph_i (S l) x))) DI_derive).
    - clear. intros x Hx. rewrite DIE by assumption.
      assert (P1 := sph_i_pos (S l) x Hx). assert (P2 := sph_i_pos (S (S l)) x Hx). assert (T := turan_i (S l) x Hx).
      assert (E := sph_i_rec l x Hx). assert (E' := sph_i_rec (S l) x Hx). rewrite !S_INR in *. assert (N := pos_INR l).
      set (i0 := sph_i l x) in *. set (i1 := sph_i (S l) x) in *. set (i2 := sph_i (S (S l)) x) in *. set (i3 := sph_i (S (S (S l))) x) in *. set (n := INR l) in *.
      assert (X3 : 0 < x ^ 3) by (now apply pow_lt).
      assert (F : - ((x * (x * (1 - i0 * i2 / (i1 * i1))) - 2 * (- (n + 1) + x * (i0 / i1))) / x ^ 3) = (x ^ 2 * (i2 * i2 - i1 * i3) / (i1 * i1) + 2 * (n + 2)) / x ^ 3).
      { clear T. clearbody i0 i1 i2 i3 n. subst i0. assert (E3 : i3 = i1 - (2 * (n + 1) + 3) / x * i2) by lra. rewrite E3. field. lra. }
      rewrite F. apply Rdiv_lt_0_compat; [|assumption]. assert (0 < x ^ 2) by (now apply pow_lt).
      assert (0 < x ^ 2 * (i2 * i2 - i1 * i3) / (i1 * i1)); [|lra]. apply Rdiv_lt_0_compat; [apply Rmult_lt_0_compat; lra|now apply Rmult_lt_0_compat].
  Qed.
End Mono.
Lemma DK_sq l x y : 0 < x -> x < y -> DK l x / x ^ 2 < DK l y / y ^ 2.
Proof.
  apply (incr_pos _ _ (over_sq (DK l) _ (DK_derive l))). intros t Ht. apply Rdiv_lt_0_compat; [|now apply pow_lt]. rewrite DKE by assumption.
  clear x y. rename t into x. rename Ht into Hx.
  assert (P0 := sph_k_pos l x Hx). assert (P1 := sph_k_pos (S l) x Hx). assert (E := sph_k_rec l x Hx). assert (X2 : 0 < x ^ 2) by (now apply pow_lt).
  destruct l as [|l].
  - rewrite (sph_k_rec 0), sph_k_1, sph_k_0 by assumption. set (c := PI / 2 * exp (- x) / x).
    assert (C : 0 < c) by (unfold c; apply Rdiv_lt_0_compat; [apply Rmult_lt_0_compat; [generalize PI_RGT_0; lra|apply exp_pos]|assumption]). simpl INR.
    match goal with |- 0 < ?a => replace a with (x ^ 3 / (x + 1) ^ 2 + 2) end.
    + assert (0 < x ^ 3 / (x + 1) ^ 2); [|lra]. apply Rdiv_lt_0_compat; [now apply pow_lt|apply pow_lt; lra].
    + field. repeat split; try lra.
  - assert (T := proj1 (turan_k l x Hx)). assert (E' := sph_k_rec l x Hx). assert (Pm := sph_k_pos l x Hx). rewrite !S_INR in *. assert (N := pos_INR l).
    set (km := sph_k l x) in *. set (k0 := sph_k (S l) x) in *. set (k1 := sph_k (S (S l)) x) in *. set (k2 := sph_k (S (S (S l))) x) in *. set (n := INR l) in *.
    match goal with |- 0 < ?a => replace a with (x ^ 2 * (km * k1 - k0 * k0) / (k1 * k1) + 2 * (n + 2)) end.
    + assert (0 < x ^ 2 * (km * k1 - k0 * k0) / (k1 * k1)); [|lra]. apply Rdiv_lt_0_compat; [apply Rmult_lt_0_compat; lra|now apply Rmult_lt_0_compat].
    + clear T. clearbody km k0 k1 k2 n. subst k2. assert (E3 : km = k1 - (2 * n + 3) / x * k0) by lra. rewrite E3. field. lra.
Qed.
