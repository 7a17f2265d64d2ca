(** * Limits at zero wavenumber *)
From Coq Require Import Reals.
From Coquelicot Require Import Coquelicot.
From Coq Require Import ZArith List Lia Lra.
From Verif Require Import Base Bessel_Model Bessel_Spec Bessel_Proofs Bessel_Proofs2 Bessel_Proofs3 Bessel_Proofs5 Help_Spec Help_Proofs Scat_Model Scat_Spec Scat_Proofs2.
Import ListNotations.
Open Scope R_scope.

Definition lim0 (f : R -> R) (v : R) : Prop := filterlim f (at_right 0) (locally v).
Lemma at_right_pos : at_right 0 (fun k => 0 < k).
Proof. exists (mkposreal 1 Rlt_0_1). intros y _ H. exact H. Qed.
Lemma lim0_ext f g v : (forall k, 0 < k -> f k = g k) -> lim0 f v -> lim0 g v.
Proof.
  intros E H. apply (filterlim_ext_loc f); [|exact H]. apply (filter_imp (fun k => 0 < k)); [exact E|apply at_right_pos].
Qed.
Lemma lim0_const c : lim0 (fun _ => c) c.
Proof. apply filterlim_const. Qed.
Lemma lim0_id : lim0 (fun k => k) 0.
Proof. intros P [eps H]. exists eps. intros y Hy _. now apply H. Qed.
Lemma lim0_plus f g a b : lim0 f a -> lim0 g b -> lim0 (fun k => f k + g k) (a + b).
Proof. intros Hf Hg. apply (filterlim_comp_2 _ _ Rplus Hf Hg). apply (filterlim_plus a b). Qed.
Lemma lim0_mult f g a b : lim0 f a -> lim0 g b -> lim0 (fun k => f k * g k) (a * b).
Proof. intros Hf Hg. apply (filterlim_comp_2 _ _ Rmult Hf Hg). apply (filterlim_mult a b). Qed.
Lemma lim0_comp g f a : continuity_pt g a -> lim0 f a -> lim0 (fun k => g (f k)) (g a).
Proof. intros Hg Hf. apply (filterlim_comp _ _ _ f g _ (locally a)); [exact Hf|]. now apply continuity_pt_filterlim. Qed.
Lemma lim0_opp f a : lim0 f a -> lim0 (fun k => - f k) (- a).
Proof. intros H. apply (lim0_ext (fun k => -1 * f k)); [intros; ring|]. replace (- a) with (-1 * a) by ring. now apply lim0_mult; [apply lim0_const|]. Qed.
Lemma lim0_minus f g a b : lim0 f a -> lim0 g b -> lim0 (fun k => f k - g k) (a - b).
Proof. intros Hf Hg. apply lim0_plus; [assumption|now apply lim0_opp]. Qed.
Lemma lim0_inv f a : a <> 0 -> lim0 f a -> lim0 (fun k => / f k) (/ a).
Proof.
  intros Ha Hf. apply (filterlim_comp _ _ _ f Rinv _ (locally a)); [exact Hf|].
  apply continuity_pt_filterlim. apply continuity_pt_inv; [|assumption]. apply derivable_continuous_pt, derivable_pt_id.
Qed.
Lemma lim0_div f g a b : b <> 0 -> lim0 f a -> lim0 g b -> lim0 (fun k => f k / g k) (a / b).
Proof. intros Hb Hf Hg. apply lim0_mult; [assumption|now apply lim0_inv]. Qed.
Lemma lim0_pow f a n : lim0 f a -> lim0 (fun k => f k ^ n) (a ^ n).
Proof. intros H. induction n as [|n IH]; [apply lim0_const|]. cbn [pow]. now apply lim0_mult. Qed.
Lemma lim0_eq f a b : a = b -> lim0 f a -> lim0 f b.
Proof. now intros ->. Qed.
Lemma lim0_squeeze f g h a : (forall k, 0 < k < 1 -> f k <= g k <= h k) -> lim0 f a -> lim0 h a -> lim0 g a.
Proof.
  intros H Hf Hh. apply (filterlim_le_le f g h (Finite a)); [|exact Hf|exact Hh].
  exists (mkposreal 1 Rlt_0_1). intros y B P. apply H. unfold ball in B; cbn in B; unfold AbsRing_ball, abs, minus, plus, opp in B; cbn in B.
  apply Rabs_def2 in B. lra.
Qed.
(** positive and tending to zero *)
Definition to0 (f : R -> R) : Prop := (forall k, 0 < k -> 0 < f k) /\ lim0 f 0.
Lemma lim0_sub g f v : to0 f -> lim0 g v -> lim0 (fun k => g (f k)) v.
Proof.
  intros [Hp Hf] Hg. apply (filterlim_comp _ _ _ f g _ (at_right 0)); [|exact Hg].
  intros P HP. unfold at_right, within in HP. specialize (Hf _ HP). unfold filtermap in *.
  generalize (filter_and _ _ Hf at_right_pos). apply filter_imp. intros k [H1 H2]. apply H1. now apply Hp.
Qed.

(** ** Bessel functions near zero *)
Lemma lim0_i l : lim0 (fun x => sph_i l x / x ^ l) (/ odd_fact l).
Proof.
  apply (lim0_ext (fun x => PSeries (icoef l) (x ^ 2))).
  { intros x Hx. unfold sph_i. field. apply pow_nonzero. lra. }
  assert (C0 : icoef l 0 = / odd_fact l) by (unfold icoef; rewrite Nat.add_0_r; f_equal; cbn; ring).
  apply lim0_squeeze with (fun x => icoef l 0) (fun x => icoef l 0 + x ^ 2 * (3 * icoef l 1)).
  - intros x Hx. assert (H2 : 0 <= x ^ 2 <= 1) by (split; [apply pow2_ge_0|]; nra).
    destruct (PSeries_tail l 1 (x ^ 2) H2) as [T [HT E]]. cbn [sum_f_R0] in E.
    assert (E' : PSeries (icoef l) (x ^ 2) = icoef l 0 + x ^ 2 * T) by (rewrite E; ring). rewrite E'. nra.
  - rewrite C0. apply lim0_const.
  - rewrite <- C0. apply lim0_eq with (icoef l 0 + 0 ^ 2 * (3 * icoef l 1)); [ring|].
    apply lim0_plus; [apply lim0_const|]. apply lim0_mult; [apply lim0_pow, lim0_id|apply lim0_const].
Qed.
Lemma lim0_k l : lim0 (fun x => sph_k l x * x ^ (l + 1)) (PI / 2 * odd_dfact l).
Proof.
  assert (LE : lim0 (fun x => exp (- x)) 1).
  { rewrite <- exp_0. apply lim0_eq with (exp (- 0)); [now rewrite Ropp_0|].
    apply (lim0_comp exp (fun x => - x)); [apply derivable_continuous_pt, derivable_pt_exp|apply lim0_opp, lim0_id]. }
  assert (H : forall l, lim0 (fun x => sph_k l x * x ^ (l + 1)) (PI / 2 * odd_dfact l) /\ lim0 (fun x => sph_k (S l) x * x ^ (S l + 1)) (PI / 2 * odd_dfact (S l))); [|apply H].
  clear l. induction l as [|l [I1 I2]].
  - split.
    + apply (lim0_ext (fun x => PI / 2 * exp (- x))).
      { intros x Hx. unfold sph_k. cbn. field. lra. }
      apply lim0_mult; [apply lim0_const|exact LE].
    + apply (lim0_ext (fun x => PI / 2 * exp (- x) * (x + 1))).
      { intros x Hx. unfold sph_k. cbn. field. lra. }
      apply lim0_eq with (PI / 2 * 1 * (0 + 1)); [cbn; ring|].
      apply lim0_mult; [apply lim0_mult; [apply lim0_const|exact LE]|apply lim0_plus; [apply lim0_id|apply lim0_const]].
  - split; [exact I2|].
    apply (lim0_ext (fun x => sph_k l x * x ^ (l + 1) * x ^ 2 + (2 * INR l + 3) * (sph_k (S l) x * x ^ (S l + 1)))).
    { intros x Hx. rewrite (sph_k_rec l x Hx). replace (S (S l) + 1)%nat with (l + 1 + 2)%nat by lia. replace (S l + 1)%nat with (l + 1 + 1)%nat by lia.
      rewrite !pow_add. field. lra. }
    apply lim0_eq with (PI / 2 * odd_dfact l * 0 ^ 2 + (2 * INR l + 3) * (PI / 2 * odd_dfact (S l))).
    { cbn [odd_dfact pow]. rewrite !S_INR. ring. }
    apply lim0_plus; [apply lim0_mult; [exact I1|apply lim0_pow, lim0_id]|apply lim0_mult; [apply lim0_const|exact I2]].
Qed.
Lemma odd_fact_dfact l : odd_fact l = (2 * INR l + 1) * odd_dfact l.
Proof. induction l as [|l IH]; [cbn; ring|]. cbn [odd_fact odd_dfact]. rewrite IH, !S_INR. ring. Qed.
Lemma odd_fact_pos l : 0 < odd_fact l.
Proof. rewrite odd_fact_dfact. apply Rmult_lt_0_compat; [generalize (pos_INR l); lra|apply odd_dfact_pos]. Qed.

Lemma lim0_DI l : lim0 (DI l) (INR l + 2).
Proof.
  apply (lim0_ext (fun x => - INR (S l) + (sph_i l x / x ^ l) / (sph_i (S l) x / x ^ (S l)))).
  { intros x Hx. rewrite DIE by assumption. f_equal. assert (H1 := sph_i_pos l x Hx). assert (H2 := sph_i_pos (S l) x Hx).
    cbn [pow]. assert (x ^ l <> 0) by (apply pow_nonzero; lra). field. repeat split; lra || assumption. }
  apply lim0_eq with (- INR (S l) + / odd_fact l / / odd_fact (S l)).
  { cbn [odd_fact]. rewrite S_INR. generalize (odd_fact_pos l) (pos_INR l). intros. field. split; lra. }
  apply lim0_plus; [apply lim0_const|]. apply lim0_div; [|apply lim0_i|apply lim0_i].
  apply Rinv_neq_0_compat. generalize (odd_fact_pos (S l)). lra.
Qed.
Lemma lim0_DK l : lim0 (DK l) (- (INR l + 1)).
Proof.
  apply (lim0_ext (fun x => - INR (S l) - x ^ 2 * ((sph_k l x * x ^ (l + 1)) / (sph_k (S l) x * x ^ (S l + 1))))).
  { intros x Hx. rewrite DKE by assumption. f_equal. assert (H1 := sph_k_pos l x Hx). assert (H2 := sph_k_pos (S l) x Hx).
    replace (S l + 1)%nat with (l + 1 + 1)%nat by lia. rewrite (pow_add x (l + 1) 1). assert (x ^ (l + 1) <> 0) by (apply pow_nonzero; lra). field. repeat split; lra || assumption. }
  generalize PI_RGT_0 (odd_dfact_pos l) (odd_dfact_pos (S l)). intros.
  apply lim0_eq with (- INR (S l) - 0 ^ 2 * (PI / 2 * odd_dfact l / (PI / 2 * odd_dfact (S l)))).
  { rewrite S_INR. ring. }
  apply lim0_minus; [apply lim0_const|]. apply lim0_mult; [apply lim0_pow, lim0_id|]. apply lim0_div; [|apply lim0_k|apply lim0_k].
  apply Rgt_not_eq. apply Rmult_lt_0_compat; lra.
Qed.
(** i_l/k_l *)
Lemma lim0_ratio l : lim0 (fun x => sph_i l x / sph_k l x / x ^ (2 * l + 1)) (2 / PI / ((2 * INR l + 1) * odd_dfact l ^ 2)).
Proof.
  generalize PI_RGT_0 (odd_dfact_pos l) (odd_fact_pos l) (pos_INR l). intros HP HD HF HL.
  apply (lim0_ext (fun x => (sph_i l x / x ^ l) / (sph_k l x * x ^ (l + 1)))).
  { intros x Hx. assert (H2 := sph_k_pos l x Hx). replace (2 * l + 1)%nat with (l + (l + 1))%nat by lia. rewrite (pow_add x l (l + 1)).
    assert (x ^ (l + 1) <> 0) by (apply pow_nonzero; lra). assert (x ^ l <> 0) by (apply pow_nonzero; lra). field. repeat split; lra || assumption. }
  apply lim0_eq with (/ odd_fact l / (PI / 2 * odd_dfact l)).
  { rewrite odd_fact_dfact. field. repeat split; lra. }
  apply lim0_div; [|apply lim0_i|apply lim0_k]. apply Rgt_not_eq. apply Rmult_lt_0_compat; lra.
Qed.
Lemma lim0_ratio_inv l : lim0 (fun x => sph_k l x / sph_i l x * x ^ (2 * l + 1)) (PI / 2 * ((2 * INR l + 1) * odd_dfact l ^ 2)).
Proof.
  generalize PI_RGT_0 (odd_dfact_pos l) (odd_fact_pos l) (pos_INR l). intros HP HD HF HL.
  apply (lim0_ext (fun x => / (sph_i l x / sph_k l x / x ^ (2 * l + 1)))).
  { intros x Hx. assert (H1 := sph_i_pos l x Hx). assert (H2 := sph_k_pos l x Hx).
    assert (x ^ (2 * l + 1) <> 0) by (apply pow_nonzero; lra). field. repeat split; lra || assumption. }
  apply lim0_eq with (/ (2 / PI / ((2 * INR l + 1) * odd_dfact l ^ 2))).
  { field. repeat split; lra. }
  apply lim0_inv; [|apply lim0_ratio]. apply Rgt_not_eq. apply Rdiv_lt_0_compat; [apply Rdiv_lt_0_compat; lra|]. apply Rmult_lt_0_compat; [lra|now apply pow_lt].
Qed.
Lemma cont_of_derive (f : R -> R) w d : is_derive f w d -> continuity_pt f w.
Proof. intros H. apply derivable_continuous_pt. exists d. now apply is_derive_Reals. Qed.
Lemma DI_cont l w : 0 < w -> continuity_pt (DI l) w.
Proof.
  intros Hw. eapply cont_of_derive.
  apply (is_derive_pos_ext _ (fun x => - INR (S l) + x * (sph_i l x * / sph_i (S l) x))); [assumption|intros; now rewrite DIE|].
  apply (dplus (fun _ => - INR (S l)) (fun x => x * (sph_i l x * / sph_i (S l) x))); [apply (is_derive_const (- INR (S l)) w)|].
  apply (dmult (fun x => x) (fun x => sph_i l x * / sph_i (S l) x)); [apply (is_derive_id w)|]. apply (dmult (sph_i l) (fun x => / sph_i (S l) x)); [now apply sph_i_derive|].
  apply (is_derive_inv (sph_i (S l))); [now apply sph_i_derive_down|]. generalize (sph_i_pos (S l) w Hw). lra.
Qed.
Lemma DK_cont l w : 0 < w -> continuity_pt (DK l) w.
Proof.
  intros Hw. eapply cont_of_derive.
  apply (is_derive_pos_ext _ (fun x => - INR (S l) + - (x * (sph_k l x * / sph_k (S l) x)))); [assumption|intros t Ht; rewrite DKE by assumption; unfold Rdiv; ring|].
  apply (dplus (fun _ => - INR (S l)) (fun x => - (x * (sph_k l x * / sph_k (S l) x)))); [apply (is_derive_const (- INR (S l)) w)|]. apply (dopp (fun x => x * (sph_k l x * / sph_k (S l) x))).
  apply (dmult (fun x => x) (fun x => sph_k l x * / sph_k (S l) x)); [apply (is_derive_id w)|]. apply (dmult (sph_k l) (fun x => / sph_k (S l) x)); [now apply sph_k_derive|].
  apply (is_derive_inv (sph_k (S l))); [now apply sph_k_derive|]. generalize (sph_k_pos (S l) w Hw). lra.
Qed.
