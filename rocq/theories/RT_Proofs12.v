(** * Exponential decay of the translation coefficients and of the round trip with the distance *)
From Coq Require Import Reals.
From Coquelicot Require Import Coquelicot.
From Coq Require Import Bool ZArith List Lia Lra.
From Verif Require Import Base Bessel_Model Bessel_Spec Bessel_Proofs Gaunt_Model Scat_Model Scat_Spec Scat_Proofs Trans_Model Trans_Spec Trans_Proofs Trans_Proofs2 Trans_Proofs4 Lin_Model RT_Model RT_Spec RT_Spec2 RT_Proofs2.
Import ListNotations.
Open Scope R_scope.

Lemma k_bound l : exists K, 0 < K /\ forall x, 1 <= x -> x * sph_k l x <= K * exp (- x).
Proof.
  assert (P := PI_RGT_0). cut ((exists K, 0 < K /\ forall x, 1 <= x -> x * sph_k l x <= K * exp (- x)) /\ (exists K, 0 < K /\ forall x, 1 <= x -> x * sph_k (S l) x <= K * exp (- x))); [tauto|].
  induction l as [|l [[K0 [P0 H0]] [K1 [P1 H1]]]].
  - split.
    + exists (PI / 2). split; [lra|]. intros x Hx. rewrite sph_k_0 by lra. right. field. lra.
    + exists PI. split; [lra|]. intros x Hx. rewrite sph_k_1 by lra. generalize (exp_pos (- x)). intros E.
      replace (x * (PI / 2 * exp (- x) / x * (1 + / x))) with (PI / 2 * exp (- x) * (1 + / x)) by (field; lra).
      assert (I : / x <= 1) by (rewrite <- Rinv_1; apply Rinv_le_contravar; lra).
      replace (PI * exp (- x)) with (PI / 2 * exp (- x) * (1 + 1)) by field. apply Rmult_le_compat_l; [apply Rmult_le_pos; lra|lra].
  - split; [exists K1; now split|]. exists (K0 + (2 * INR l + 3) * K1). generalize (pos_INR l). intros Hl. split; [apply Rplus_lt_0_compat; [exact P0|apply Rmult_lt_0_compat; lra]|].
    intros x Hx. rewrite sph_k_rec by lra. replace (x * (sph_k l x + (2 * INR l + 3) / x * sph_k (S l) x)) with (x * sph_k l x + (2 * INR l + 3) * sph_k (S l) x) by (field; lra).
    assert (A : sph_k (S l) x <= x * sph_k (S l) x). { generalize (sph_k_pos (S l) x). intros B. rewrite <- (Rmult_1_l (sph_k (S l) x)) at 1. apply Rmult_le_compat_r; [left; apply B; lra|exact Hx]. }
    generalize (H0 x Hx) (H1 x Hx). intros B0 B1. rewrite (Rmult_plus_distr_r K0). apply Rplus_le_compat; [exact B0|]. rewrite Rmult_assoc. apply Rmult_le_compat_l; lra.
Qed.

(** ** functions bounded by a given one *)
Definition below {X} (D : X -> Prop) (g f : X -> R) : Prop := exists C, 0 <= C /\ forall x, D x -> Rabs (f x) <= C * g x.
Section Below.
  Context {X : Type} (D : X -> Prop) (g : X -> R) (Hg : forall x, D x -> 0 <= g x).
  Lemma below_plus f h : below D g f -> below D g h -> below D g (fun x => f x + h x).
  Proof. intros [C [HC H]] [C' [HC' H']]. exists (C + C'). split; [lra|]. intros x Hx. rewrite Rmult_plus_distr_r. eapply Rle_trans; [apply Rabs_triang|]. apply Rplus_le_compat; auto. Qed.
  Lemma below_scal a f : below D g f -> below D g (fun x => a * f x).
  Proof. intros [C [HC H]]. exists (Rabs a * C). split; [apply Rmult_le_pos; [apply Rabs_pos|exact HC]|]. intros x Hx. rewrite Rabs_mult, Rmult_assoc. apply Rmult_le_compat_l; [apply Rabs_pos|auto]. Qed.
  Lemma below_ext f h : (forall x, D x -> f x = h x) -> below D g f -> below D g h.
  Proof. intros E [C [HC H]]. exists C. split; [exact HC|]. intros x Hx. rewrite <- E by exact Hx. auto. Qed.
  Lemma below_zero : below D g (fun _ => 0).
  Proof. exists 0. split; [lra|]. intros x Hx. rewrite Rabs_R0, Rmult_0_l. lra. Qed.
  Lemma below_sum (F : nat -> X -> R) n : (forall i, (i <= n)%nat -> below D g (F i)) -> below D g (fun x => sum_f_R0 (fun i => F i x) n).
  Proof. induction n as [|n IH]; intros H; cbn [sum_f_R0]; [now apply H|]. apply below_plus; [apply IH; intros; apply H; lia|now apply H]. Qed.
  Lemma below_sumn (F : nat -> X -> R) n : (forall i, (i < n)%nat -> below D g (F i)) -> below D g (fun x => sumn n (fun i => F i x)).
  Proof. induction n as [|n IH]; intros H; cbn [sumn]; [apply below_zero|]. apply below_plus; [apply IH; intros; apply H; lia|apply H; lia]. Qed.
End Below.
Lemma below_mult {X} (D : X -> Prop) g g' f h : below D g f -> below D g' h -> below D (fun x => g x * g' x) (fun x => f x * h x).
Proof.
  intros [C [HC H]] [C' [HC' H']]. exists (C * C'). split; [now apply Rmult_le_pos|]. intros x Hx. rewrite Rabs_mult. replace (C * C' * (g x * g' x)) with (C * g x * (C' * g' x)) by ring.
  apply Rmult_le_compat; try apply Rabs_pos; auto.
Qed.

Section Far.
  Context (mieb : list R -> nat -> Z -> res (list (list R) * list (list R))) (c : config) (m : Z) (k : R) (e u : R -> R).
  Context (Hk : 0 < k) (Hm : has (c_med c) e u) (Hext : c_ext c = true).
  Let x (L : R) := k * L * sqrt (e k).
  Let D (L : R) := 1 <= x L.
  Let g (L : R) := exp (- x L).
  Let rt (L : R) := rt_with mieb (at_distance c L) m k.
  Lemma g_pos L : D L -> 0 <= g L.
  Proof. intros _. left. apply exp_pos. Qed.
  Lemma closed_far F l1 l2 gs : (forall lpp q, exists a, forall b, F lpp b q = a * b) -> below D g (fun L => closed F (fun p => exp (ln (sph_k p (x L)))) gs l1 l2) /\
    below D g (fun L => x L * closed F (fun p => exp (ln (sph_k p (x L)))) gs l1 l2).
  Proof.
    intros H. split; unfold closed.
    - apply below_sum. intros i _. destruct (H (nth i (lpps l1 l2) 0%nat) (nth i gs 0)) as [a Ha]. apply (below_ext D g (fun L => a * sph_k (nth i (lpps l1 l2) 0%nat) (x L))).
      + intros L HL. rewrite exp_ln by (apply sph_k_pos; unfold D in HL; lra). now rewrite Ha.
      + apply below_scal. destruct (k_bound (nth i (lpps l1 l2) 0%nat)) as [K [HK B]]. exists K. split; [lra|]. intros L HL. unfold D in HL.
        assert (P := sph_k_pos (nth i (lpps l1 l2) 0%nat) (x L) ltac:(lra)). rewrite Rabs_pos_eq by lra. eapply Rle_trans; [|apply (B _ HL)]. rewrite <- (Rmult_1_l (sph_k _ _)) at 1. apply Rmult_le_compat_r; lra.
    - apply (below_ext D g (fun L => sum_f_R0 (fun i => x L * F (nth i (lpps l1 l2) 0%nat) (exp (ln (sph_k (nth i (lpps l1 l2) 0%nat) (x L)))) (nth i gs 0)) (Nat.min l1 l2))).
      { intros L HL. rewrite scal_sum. apply sum_eq. intros; ring. }
      apply below_sum. intros i _. destruct (H (nth i (lpps l1 l2) 0%nat) (nth i gs 0)) as [a Ha]. apply (below_ext D g (fun L => a * (x L * sph_k (nth i (lpps l1 l2) 0%nat) (x L)))).
      + intros L HL. rewrite exp_ln by (apply sph_k_pos; unfold D in HL; lra). rewrite Ha. ring.
      + apply below_scal. destruct (k_bound (nth i (lpps l1 l2) 0%nat)) as [K [HK B]]. exists K. split; [lra|]. intros L HL. unfold D in HL.
        assert (P := sph_k_pos (nth i (lpps l1 l2) 0%nat) (x L) ltac:(lra)). rewrite Rabs_pos_eq by (apply Rmult_le_pos; lra). now apply B.
  Qed.
  Lemma V_far i s : (i < n1 c m)%nat -> (s < n2 c m)%nat -> below D g (fun L => V0 (rt L) i s) /\ below D g (fun L => V1 (rt L) i s) /\ below D g (fun L => V2 (rt L) i s) /\ below D g (fun L => V3 (rt L) i s).
  Proof.
    intros Hi Hs. set (l1 := (lmin m + i)%nat). set (l2 := (lmin m + s)%nat).
    assert (H1 : (l1 <= c_lmax c)%nat) by (unfold n1, l1 in *; lia). assert (H2 : (l2 <= c_lssmax c)%nat) by (unfold n2, l2 in *; lia).
    assert (Q : exists gs, forall L, D L -> let sk p := exp (ln (sph_k p (x L))) in
      V0 (rt L) i s = closed (EE_ab true m l1 l2) sk gs l1 l2 /\ V1 (rt L) i s = closed (EE_ba true m l1 l2) sk gs l1 l2 /\
      V2 (rt L) i s = closed (EM_ab true m l1 l2 (x L)) sk gs l1 l2 /\ V3 (rt L) i s = closed (EM_ba true m l1 l2 (x L)) sk gs l1 l2).
    { assert (V : forall L, D L -> exists gs, gaunt (Z.of_nat l1) (Z.of_nat l2) m = Def gs /\ let sk p := exp (ln (sph_k p (x L))) in
      V0 (rt L) i s = closed (EE_ab true m l1 l2) sk gs l1 l2 /\ V1 (rt L) i s = closed (EE_ba true m l1 l2) sk gs l1 l2 /\
      V2 (rt L) i s = closed (EM_ab true m l1 l2 (x L)) sk gs l1 l2 /\ V3 (rt L) i s = closed (EM_ba true m l1 l2 (x L)) sk gs l1 l2).
      { intros L HL. destruct (coefficient_val trans_bessels (c_lmax c) (c_lssmax c) m (c_med c) L true l1 l2 k e u (fun p => ln (sph_k p (x L))) Hm Hk H1 H2) as [gs [Eg [_ [q0 [q1 [q2 q3]]]]]].
        { replace (c_lmax c + c_lssmax c + 2)%nat with (c_lmax c + c_lssmax c + 1 + 1)%nat by lia. apply code_ext. unfold D in HL. fold (x L). lra. }
        exists gs. split; [exact Eg|]. unfold rt, rt_with, at_distance. cbn [V0 V1 V2 V3 c_med c_L c_lmax c_lssmax c_ext]. rewrite Hext. fold l1 l2. now repeat split. }
      assert (S1 : D (/ (k * sqrt (e k)))). { unfold D, x. destruct Hm as [_ [Hp _]]. destruct (Hp k Hk) as [Hp' _]. assert (S := sqrt_lt_R0 _ Hp'). right. field. split; lra. }
      destruct (V _ S1) as [gs [Eg _]]. exists gs. intros L HL. destruct (V L HL) as [gs' [Eg' Q]]. rewrite Eg in Eg'. injection Eg' as <-. exact Q. }
    destruct Q as [gs Q].
    assert (LE : forall lpp q, exists a, forall b, EE_ab true m l1 l2 lpp b q = a * b).
    { intros lpp q. unfold EE_ab, common_ab. eexists. intros b. instantiate (1 := (llp1 l1 + llp1 l2 - llp1 lpp) * (((-1) ^ 1 * sgnZ m * sqrt PI * q * sqrt ((2 * INR lpp + 1) / (llp1 l1 * llp1 l2))) * (2 / PI))). ring. }
    assert (LM : forall lpp q, exists a, forall b, EM_ab true m l1 l2 1 lpp b q = a * b).
    { intros lpp q. unfold EM_ab, common_ab. eexists. intros b. instantiate (1 := (2 * IZR m * 1) * (((-1) ^ 1 * sgnZ m * sqrt PI * q * sqrt ((2 * INR lpp + 1) / (llp1 l1 * llp1 l2))) * (2 / PI))). ring. }
    split; [|split; [|split]].
    - eapply below_ext; [intros L HL; symmetry; apply (Q L HL)|]. now apply closed_far.
    - eapply below_ext; [intros L HL; symmetry; apply (Q L HL)|]. apply closed_far. intros lpp q. destruct (LE lpp q) as [a Ha]. exists (a * (-1) ^ lpp). intros b. unfold EE_ba. rewrite Ha. ring.
    - apply (below_ext D g (fun L => x L * closed (EM_ab true m l1 l2 1) (fun p => exp (ln (sph_k p (x L)))) gs l1 l2)).
      + intros L HL. destruct (Q L HL) as [_ [_ [-> _]]]. unfold closed. rewrite scal_sum. apply sum_eq. intros j _. unfold EM_ab. ring.
      + now apply closed_far.
    - apply (below_ext D g (fun L => x L * closed (EM_ba true m l1 l2 1) (fun p => exp (ln (sph_k p (x L)))) gs l1 l2)).
      + intros L HL. destruct (Q L HL) as [_ [_ [_ ->]]]. unfold closed. rewrite scal_sum. apply sum_eq. intros j _. unfold EM_ba, EM_ab. ring.
      + apply closed_far. intros lpp q. destruct (LM lpp q) as [a Ha]. exists (- a * (-1) ^ lpp). intros b. unfold EM_ba. rewrite Ha. ring.
  Qed.
  (** the four blocks *)
  Lemma blocks_far i j : (i < n1 c m)%nat -> (j < n1 c m)%nat -> let G L := g L * g L in let B L := blocks (n2 c m) (fun _ _ _ => 1) (rt L) in
    below D G (fun L => fst (fst (fst (B L))) i j) /\ below D G (fun L => snd (fst (fst (B L))) i j) /\ below D G (fun L => snd (fst (B L)) i j) /\ below D G (fun L => snd (B L) i j).
  Proof.
    intros Hi Hj G B. unfold B, blocks. cbn [fst snd].
    assert (GP : forall L, D L -> 0 <= G L) by (intros L HL; apply Rmult_le_pos; now apply g_pos).
    assert (T : forall (a b b' : R) (v w v' w' : R -> R), below D g v -> below D g w -> below D g v' -> below D g w' -> below D G (fun L => 1 * a * (v L * b * w L + v' L * b' * w' L))).
    { intros a b b' v w v' w' Hv Hw Hv' Hw'. apply (below_ext D G (fun L => (a * b) * (v L * w L) + (a * b') * (v' L * w' L))); [intros; ring|].
      apply below_plus; apply below_scal; now apply below_mult. }
    split; [|split; [|split]]; apply below_sumn; try exact GP; intros s Hs.
    - destruct (V_far i s Hi Hs) as [a0 [a1 [a2' a3]]]; destruct (V_far j s Hj Hs) as [b0 [b1 [b2' b3]]]. exact (T (aTE (rt 0) i) (bTE (rt 0) s) (bTM (rt 0) s) _ _ _ _ a0 b1 a2' b3).
    - destruct (V_far i s Hi Hs) as [a0 [a1 [a2' a3]]]; destruct (V_far j s Hj Hs) as [b0 [b1 [b2' b3]]]. exact (T (aTE (rt 0) i) (bTE (rt 0) s) (bTM (rt 0) s) _ _ _ _ a0 b3 a2' b1).
    - destruct (V_far i s Hi Hs) as [a0 [a1 [a2' a3]]]; destruct (V_far j s Hj Hs) as [b0 [b1 [b2' b3]]]. exact (T (aTM (rt 0) i) (bTE (rt 0) s) (bTM (rt 0) s) _ _ _ _ a2' b1 a0 b3).
    - destruct (V_far i s Hi Hs) as [a0 [a1 [a2' a3]]]; destruct (V_far j s Hj Hs) as [b0 [b1 [b2' b3]]]. exact (T (aTM (rt 0) i) (bTE (rt 0) s) (bTM (rt 0) s) _ _ _ _ a2' b3 a0 b1).
  Qed.
End Far.
