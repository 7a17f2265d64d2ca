(** * Rules obeyed by the translation coefficients at one wavenumber *)
From Coq Require Import Reals.
From Coquelicot Require Import Coquelicot.
From Coq Require Import Bool ZArith List Lia Lra.
From Verif Require Import Base Mat_Model Mat_Spec Help_Proofs Bessel_Model Bessel_Spec Gaunt_Model Gaunt_Proofs Gaunt_Props
  Scat_Model Scat_Spec Scat_Proofs9 Trans_Model Trans_Spec Trans_Proofs Trans_Proofs4 Trans_Proofs5 Trans_Props Lin_Model RT_Model RT_Spec RT_Proofs2.
Import ListNotations.
Open Scope R_scope.

Lemma coef_parity bes lmax lssmax m med L ext l1 l2 k :
  coefficient v_EEba bes lmax lssmax m med L ext l1 l2 k = sgn2 l1 l2 * coefficient v_EEab bes lmax lssmax m med L ext l1 l2 k /\
  coefficient v_EMba bes lmax lssmax m med L ext l1 l2 k = - (sgn2 l1 l2 * coefficient v_EMab bes lmax lssmax m med L ext l1 l2 k).
Proof.
  unfold coefficient. destruct (translation_init bes lmax lssmax m med L [k] ext false) as [t| |]; [|split; ring|split; ring].
  destruct (get_vl1l2 t l1 l2) as [v| |] eqn:E; [|split; ring|split; ring]. destruct (C44_parity t l1 l2 v E) as [-> ->].
  assert (N : forall a l, nth 0 (map (fun s => a * s) l) 0 = a * nth 0 l 0) by (intros a [|x l]; cbn; ring).
  rewrite N. rewrite (N (- (-1) ^ (l1 + l2))). unfold sgn2. split; ring.
Qed.
Lemma get_indep t t' l1 l2 : t_m t = t_m t' -> t_L t = t_L t' -> t_medium t = t_medium t' -> t_k t = t_k t' -> t_bessels t = t_bessels t' -> t_ext t = t_ext t' ->
  get_vl1l2 t l1 l2 = get_vl1l2 t' l1 l2.
Proof. intros E5 E6 E1 E2 E3 E4. unfold get_vl1l2, get_scaled_bessels. rewrite E1, E2, E3, E4, E5, E6. reflexivity. Qed.
Lemma coef_sym pick bes lmax lssmax m med L ext l1 l2 k :
  coefficient pick bes lssmax lmax m med L ext l2 l1 k = coefficient pick bes lmax lssmax m med L ext l1 l2 k.
Proof.
  unfold coefficient, translation_init. rewrite (Nat.add_comm lssmax).
  destruct (if existsb (fun k => Reqb k 0) [k] then _ else _) as [b| |]; [|reflexivity|reflexivity]. cbn [obind].
  rewrite swap_rows. erewrite get_indep; [reflexivity|reflexivity..].
Qed.
Lemma code_any x n ext : 0 < x -> exists c, trans_bessels [x] (AnInt (Z.of_nat n)) ext = Ok (map (fun l => [c l]) (seq 0 (n + 1))).
Proof.
  intros Hx. destruct (code_table [x] n ext ltac:(discriminate) ltac:(intros t [<-|[]]; exact Hx)) as [f [E H]].
  exists (fun l => nth 0 (f l) 0). rewrite E. f_equal. apply map_ext. intros l. specialize (H l). destruct (f l) as [|a [|b r]]; try discriminate H. reflexivity.
Qed.
Section At.
  Context (lmax lssmax : nat) (m : Z) (med : material) (e u : R -> R) (L : R) (ext : bool) (k : R) (Hh : has med e u) (Hk : 0 < k) (HL : 0 < L).
  Lemma coef_neg l1 l2 : (l1 <= lmax)%nat -> (l2 <= lssmax)%nat ->
    let V pick m := coefficient pick trans_bessels lmax lssmax m med L ext l1 l2 k in
    V v_EEab (- m)%Z = V v_EEab m /\ V v_EEba (- m)%Z = V v_EEba m /\ V v_EMab (- m)%Z = - V v_EMab m /\ V v_EMba (- m)%Z = - V v_EMba m.
  Proof.
    intros H1 H2 V. assert (X : 0 < k * L * sqrt (e k)). { destruct Hh as [_ [Hp _]]. apply Rmult_lt_0_compat; [now apply Rmult_lt_0_compat|]. apply sqrt_lt_R0. now apply Hp. }
    destruct (code_any _ (lmax + lssmax + 1) ext X) as [c Hc]. replace (lmax + lssmax + 1 + 1)%nat with (lmax + lssmax + 2)%nat in Hc by lia.
    destruct (coefficient_val trans_bessels lmax lssmax m med L ext l1 l2 k e u c Hh Hk H1 H2 Hc) as [g [Eg [_ [A [B [C D]]]]]].
    destruct (coefficient_val trans_bessels lmax lssmax (- m) med L ext l1 l2 k e u c Hh Hk H1 H2 Hc) as [g' [Eg' [_ [A' [B' [C' D']]]]]].
    rewrite gaunt_neg, Eg in Eg'. injection Eg' as <-. unfold V. rewrite A, B, C, D, A', B', C', D'. unfold closed.
    assert (SG : sgnZ (- m) = sgnZ m) by (unfold sgnZ; now rewrite Z.even_opp).
    assert (S0 : forall f n, - sum_f_R0 f n = sum_f_R0 (fun i => - f i) n) by (intros f n; induction n; cbn; [reflexivity|]; rewrite <- IHn; ring).
    rewrite !S0. unfold EE_ba, EM_ba, EE_ab, EM_ab, common_ab. rewrite SG, opp_IZR. repeat split; apply sum_eq; intros; ring.
  Qed.
  Lemma coef_zero l1 l2 : (l1 <= lmax)%nat -> (l2 <= lssmax)%nat -> (Z.of_nat (Nat.min l1 l2) < Z.abs m)%Z ->
    let V pick := coefficient pick trans_bessels lmax lssmax m med L ext l1 l2 k in V v_EEab = 0 /\ V v_EEba = 0 /\ V v_EMab = 0 /\ V v_EMba = 0.
  Proof.
    intros H1 H2 Hz V. assert (X : 0 < k * L * sqrt (e k)). { destruct Hh as [_ [Hp _]]. apply Rmult_lt_0_compat; [now apply Rmult_lt_0_compat|]. apply sqrt_lt_R0. now apply Hp. }
    destruct (code_any _ (lmax + lssmax + 1) ext X) as [c Hc]. replace (lmax + lssmax + 1 + 1)%nat with (lmax + lssmax + 2)%nat in Hc by lia.
    destruct (coefficient_val trans_bessels lmax lssmax m med L ext l1 l2 k e u c Hh Hk H1 H2 Hc) as [g [Eg [_ [A [B [C D]]]]]].
    rewrite C29_zero_beyond in Eg by lia. injection Eg as <-. unfold V. rewrite A, B, C, D. unfold closed.
    assert (N : forall i n, nth i (repeat 0 n) 0 = 0). { intros i n. revert i. induction n as [|n IH]; intros [|i]; cbn; auto. }
    assert (Z0 : forall f n, (forall i, f i = 0) -> sum_f_R0 f n = 0) by (intros f n H; induction n as [|n IH]; cbn; rewrite ?IH, H; ring).
    unfold EE_ba, EM_ba, EE_ab, EM_ab, common_ab. repeat split; apply Z0; intros i; rewrite N; ring.
  Qed.
End At.
