(** * Concentric shells: the transfer of the reflection amplitude through an interface *)
From Coq Require Import Reals.
From Coquelicot Require Import Coquelicot.
From Coq Require Import Bool ZArith List Lia Lra Sorted.
From Verif Require Import Base Mat_Model Bessel_Model Bessel_Spec Bessel_Proofs Bessel_Proofs2 Scat_Model Scat_Spec Scat_Proofs Scat_Proofs2.
Import ListNotations.
Open Scope R_scope.

(** ** monotonicity of the radial functions *)
Lemma incr_pos (f df : R -> R) : (forall x, 0 < x -> is_derive f x (df x)) -> (forall x, 0 < x -> 0 < df x) -> forall x y, 0 < x -> x < y -> f x < f y.
Proof.
  intros H1 H2 x y Hx Hy. apply (incr_function f 0 p_infty df); [| |assumption|assumption|exact I].
  - intros z Hz _. now apply H1.
  - intros z Hz _. now apply H2.
Qed.
Lemma i_incr l x y : 0 < x -> x < y -> sph_i (S l) x < sph_i (S l) y.
Proof.
  apply (incr_pos _ (fun x => sph_i (S (S l)) x + INR (S l) / x * sph_i (S l) x)); [intros; now apply sph_i_derive|].
  intros z Hz. generalize (sph_i_pos (S (S l)) z Hz) (sph_i_pos (S l) z Hz). intros A B.
  assert (0 < INR (S l) / z * sph_i (S l) z) by (apply Rmult_lt_0_compat; [apply Rdiv_lt_0_compat; [apply lt_0_INR; lia|assumption]|assumption]). lra.
Qed.
Lemma k_decr l x y : 0 < x -> x < y -> sph_k (S l) y < sph_k (S l) x.
Proof.
  intros Hx Hy. apply Ropp_lt_cancel. revert x y Hx Hy.
  apply (incr_pos (fun x => - sph_k (S l) x) (fun x => - (- sph_k l x - (INR l + 2) / x * sph_k (S l) x))).
  - intros x Hx. apply dopp. now apply sph_k_derive_down.
  - intros z Hz. generalize (sph_k_pos (S l) z Hz) (sph_k_pos l z Hz) (pos_INR l). intros A B C.
    assert (0 < (INR l + 2) / z * sph_k (S l) z) by (apply Rmult_lt_0_compat; [apply Rdiv_lt_0_compat; [lra|assumption]|assumption]). lra.
Qed.
(** (x i)' and (x k)' *)
Definition Id l x := DI l x * sph_i (S l) x.
Definition Kd l x := DK l x * sph_k (S l) x.
Lemma IdE l x : 0 < x -> Id l x = x * sph_i l x - INR (S l) * sph_i (S l) x.
Proof. intros H. unfold Id. rewrite DIE by assumption. generalize (sph_i_pos (S l) x H). intros. field. lra. Qed.
Lemma KdE l x : 0 < x -> Kd l x = - x * sph_k l x - INR (S l) * sph_k (S l) x.
Proof. intros H. unfold Kd. rewrite DKE by assumption. generalize (sph_k_pos (S l) x H). intros. field. lra. Qed.
Lemma did x : is_derive (fun t : R => t) x 1.
Proof. auto_derive; [exact I|reflexivity]. Qed.
Lemma dcst (c x : R) : is_derive (fun _ : R => c) x 0.
Proof. auto_derive; [exact I|reflexivity]. Qed.
Lemma Id_incr l x y : 0 < x -> x < y -> Id l x < Id l y.
Proof.
  apply (incr_pos _ (fun x => (x + INR (S l) * (INR l + 2) / x) * sph_i (S l) x)).
  - clear. intros x Hx. apply (is_derive_pos_ext _ (fun t => t * sph_i l t + (- INR (S l)) * sph_i (S l) t)); [assumption|intros t Ht; rewrite IdE by assumption; ring|].
    eapply deq; [apply dplus; [apply dmult; [apply did|now apply sph_i_derive]|apply is_derive_scal; now apply sph_i_derive_down]|].
    rewrite S_INR. field. lra.
  - clear. intros x Hx. apply Rmult_lt_0_compat; [|now apply sph_i_pos]. generalize (pos_INR l). intros.
    assert (0 < INR (S l) * (INR l + 2) / x) by (apply Rdiv_lt_0_compat; [apply Rmult_lt_0_compat; [apply lt_0_INR; lia|lra]|assumption]). lra.
Qed.
Lemma Kd_incr l x y : 0 < x -> x < y -> Kd l x < Kd l y.
Proof.
  apply (incr_pos _ (fun x => (x + INR (S l) * (INR l + 2) / x) * sph_k (S l) x)).
  - clear. intros x Hx. apply (is_derive_pos_ext _ (fun t => (- 1) * (t * sph_k l t) + (- INR (S l)) * sph_k (S l) t)); [assumption|intros t Ht; rewrite KdE by assumption; ring|].
    eapply deq; [apply dplus; [apply is_derive_scal; apply dmult; [apply did|now apply sph_k_derive]|apply is_derive_scal; now apply sph_k_derive_down]|].
    rewrite S_INR. field. lra.
  - clear. intros x Hx. apply Rmult_lt_0_compat; [|now apply sph_k_pos]. generalize (pos_INR l). intros.
    assert (0 < INR (S l) * (INR l + 2) / x) by (apply Rdiv_lt_0_compat; [apply Rmult_lt_0_compat; [apply lt_0_INR; lia|lra]|assumption]). lra.
Qed.

(** ** radial function i + M h and (r (i + M h))' *)
Definition fval l x M := sph_i (S l) x + M * sph_h (S l) x.
Definition gval l x M := DI l x * sph_i (S l) x + M * (DK l x * sph_h (S l) x).
Definition good l x M := 0 < fval l x M /\ 0 < gval l x M.
Definition weak l x M := 0 <= fval l x M /\ 0 <= gval l x M.
Lemma fg_mu l M : exists mu, forall x, fval l x M = sph_i (S l) x + mu * sph_k (S l) x /\ gval l x M = Id l x + mu * Kd l x.
Proof.
  exists (M * ((-1) ^ (S l + 1) * (2 / PI))). intros x. unfold fval, gval, Id, Kd, sph_h. split; ring.
Qed.
Lemma good_0 l x : 0 < x -> good l x 0.
Proof.
  intros Hx. unfold good, fval, gval. generalize (sph_i_pos (S l) x Hx) (DI_pos l x Hx) (pos_INR l). intros A B C.
  rewrite !Rmult_0_l, !Rplus_0_r. split; [assumption|]. apply Rmult_lt_0_compat; lra.
Qed.
Lemma weak_good l x y M : 0 < x -> x < y -> weak l x M -> good l y M.
Proof.
  intros Hx Hy [H1 H2]. destruct (fg_mu l M) as [mu E]. destruct (E x) as [F1 G1]. destruct (E y) as [F2 G2]. unfold good. rewrite F2, G2.
  rewrite F1 in H1. rewrite G1 in H2. assert (Hy' : 0 < y) by lra.
  generalize (i_incr l x y Hx Hy) (k_decr l x y Hx Hy) (Id_incr l x y Hx Hy) (Kd_incr l x y Hx Hy) (sph_i_pos (S l) y Hy') (sph_k_pos (S l) y Hy'). intros I1 K1 I2 K2 P1 P2.
  assert (Q1 : 0 < Id l y) by (unfold Id; apply Rmult_lt_0_compat; [generalize (DI_pos l y Hy') (pos_INR l); lra|assumption]).
  assert (Q2 : Kd l y < 0).
  { unfold Kd. assert (0 < - DK l y * sph_k (S l) y) by (apply Rmult_lt_0_compat; [generalize (DK_neg l y Hy') (pos_INR l); lra|assumption]). lra. }
  destruct (Rle_lt_dec 0 mu) as [L|L].
  - split.
    + assert (0 <= mu * sph_k (S l) y) by (apply Rmult_le_pos; lra). lra.
    + assert (mu * Kd l x <= mu * Kd l y) by (apply Rmult_le_compat_l; lra). lra.
  - split.
    + assert (- mu * sph_k (S l) y <= - mu * sph_k (S l) x) by (apply Rmult_le_compat_l; lra). lra.
    + assert (0 < - mu * - Kd l y) by (apply Rmult_lt_0_compat; lra). lra.
Qed.
Lemma good_mono l x y M : 0 < x -> x <= y -> good l x M -> good l y M.
Proof. intros Hx [L| <-]; [|tauto]. intros [A B]. apply weak_good with x; [assumption|assumption|]. split; lra. Qed.

(** ** one interface *)
Section Step.
  Context (l : nat) (p2 p3 n2 n3 k r : R) (Hp2 : 0 < p2) (Hp3 : 0 < p3) (Hn2 : 0 < n2) (Hn3 : 0 < n3) (Hk : 0 < k) (Hr : 0 < r).
  Let L := S l.
  Let x2 := n2 * k * r. Let x3 := n3 * k * r.
  Lemma x2_pos : 0 < x2. Proof. unfold x2. repeat apply Rmult_lt_0_compat; assumption. Qed.
  Lemma x3_pos : 0 < x3. Proof. unfold x3. repeat apply Rmult_lt_0_compat; assumption. Qed.
  Context (M : R) (HM : good l x2 M).
  Let f := fval l x2 M. Let g := gval l x2 M.
  Definition step_val : R := - (sph_i L x3 / sph_h L x3) * ((p3 * g - p2 * DI l x3 * f) / (p3 * g - p2 * DK l x3 * f)).
  Definition step_fac : R := (p3 * g - p2 * DK l x3 * f) / (p2 * (sph_i L x3 * (DI l x3 - DK l x3))).
  Lemma den_pos : 0 < p3 * g - p2 * DK l x3 * f.
  Proof.
    destruct HM as [A B]. fold f in A. fold g in B. generalize (DK_neg l x3 x3_pos) (pos_INR l). intros C D.
    assert (0 < p3 * g) by (now apply Rmult_lt_0_compat). assert (0 < p2 * - DK l x3 * f) by (apply Rmult_lt_0_compat; [apply Rmult_lt_0_compat; lra|assumption]). lra.
  Qed.
  Lemma dd_pos : 0 < DI l x3 - DK l x3.
  Proof. generalize (DI_pos l x3 x3_pos) (DK_neg l x3 x3_pos) (pos_INR l). lra. Qed.
  Lemma fac_pos : 0 < step_fac.
  Proof. apply Rdiv_lt_0_compat; [apply den_pos|]. apply Rmult_lt_0_compat; [assumption|]. apply Rmult_lt_0_compat; [apply sph_i_pos, x3_pos|apply dd_pos]. Qed.
  Definition interface (c c' d' : R) : Prop :=
    c * f = c' * sph_i L x3 + d' * sph_h L x3 /\
    c * g / p2 = (c' * (DI l x3 * sph_i L x3) + d' * (DK l x3 * sph_h L x3)) / p3.
  Lemma interface_iff c c' d' : interface c c' d' <-> c' = step_fac * c /\ d' = c' * step_val.
  Proof.
    unfold interface, step_fac, step_val. generalize den_pos dd_pos (sph_i_pos L x3 x3_pos) (sph_h_0 L x3 x3_pos). fold f g. intros D1 D2 Pi Ph.
    set (i3 := sph_i L x3) in *. set (h3 := sph_h L x3) in *. set (di := DI l x3) in *. set (dk := DK l x3) in *. clearbody f g i3 h3 di dk.
    split.
    - intros [H1 H2].
      assert (H3 : p3 * (c * g) = p2 * (c' * (di * i3) + d' * (dk * h3))).
      { apply (f_equal (fun t => t * (p2 * p3))) in H2. replace (c * g / p2 * (p2 * p3)) with (p3 * (c * g)) in H2 by (field; lra). rewrite H2. field. lra. }
      assert (C : c' = (p3 * g - p2 * dk * f) / (p2 * (i3 * (di - dk))) * c).
      { apply Rmult_eq_reg_r with (p2 * (i3 * (di - dk))); [|apply Rgt_not_eq; apply Rmult_lt_0_compat; [assumption|now apply Rmult_lt_0_compat]].
        transitivity (p3 * (c * g) - p2 * dk * (c * f)); [rewrite H3, H1; ring|]. field. repeat split; lra. }
      split; [exact C|].
      apply Rmult_eq_reg_r with h3; [|assumption]. transitivity (c * f - c' * i3); [lra|]. rewrite C. field. repeat split; lra || assumption.
    - intros [-> ->]. split; field; repeat split; lra || assumption.
  Qed.
  Lemma step_good : good l x3 step_val.
  Proof.
    assert (H := proj2 (interface_iff 1 (step_fac * 1) (step_fac * 1 * step_val)) (conj eq_refl eq_refl)). destruct H as [H1 H2].
    generalize fac_pos. intros F. destruct HM as [A B]. fold f in A. fold g in B. unfold good, fval, gval. fold L. split.
    - apply Rmult_lt_reg_l with step_fac; [assumption|]. rewrite Rmult_0_r. lra.
    - apply Rmult_lt_reg_l with step_fac; [assumption|]. rewrite Rmult_0_r.
      assert (E : step_fac * (DI l x3 * sph_i L x3 + step_val * (DK l x3 * sph_h L x3)) = p3 * (g / p2)).
      { rewrite Rmult_1_l in H2. unfold Rdiv at 1 in H2. unfold Rdiv. rewrite H2. field. lra. }
      rewrite E. apply Rmult_lt_0_compat; [assumption|]. now apply Rdiv_lt_0_compat.
  Qed.
  (** the interface conditions in terms of derivatives *)
  Lemma interface_derive c c' d' :
    (let inside s := c * sph_i L (n2 * k * s) + c * M * sph_h L (n2 * k * s) in
     let outside s := c' * sph_i L (n3 * k * s) + d' * sph_h L (n3 * k * s) in
     inside r = outside r /\ Derive (fun s => s * inside s) r / p2 = Derive (fun s => s * outside s) r / p3) <-> interface c c' d'.
  Proof.
    assert (C2 : 0 < n2 * k) by (now apply Rmult_lt_0_compat). assert (C3 : 0 < n3 * k) by (now apply Rmult_lt_0_compat).
    cbv zeta. unfold L. rewrite !derive_combo by assumption. fold x2 x3. unfold interface, f, g, fval, gval. fold L.
    replace (c * (sph_i L x2 + M * sph_h L x2)) with (c * sph_i L x2 + c * M * sph_h L x2) by ring.
    replace (c * (DI l x2 * sph_i L x2 + M * (DK l x2 * sph_h L x2))) with (c * (DI l x2 * sph_i L x2) + c * M * (DK l x2 * sph_h L x2)) by ring. tauto.
  Qed.
End Step.
Lemma step_same l p n k r M : 0 < p -> 0 < n -> 0 < k -> 0 < r -> step_val l p p n n k r M = M.
Proof.
  intros Hp Hn Hk Hr. assert (Hx : 0 < n * k * r) by (repeat apply Rmult_lt_0_compat; assumption). unfold step_val, fval, gval.
  generalize (sph_i_pos (S l) _ Hx) (sph_h_0 (S l) _ Hx) (DI_pos l _ Hx) (DK_neg l _ Hx) (pos_INR l). set (i := sph_i (S l) (n * k * r)). set (h := sph_h (S l) (n * k * r)). set (a := DI l (n * k * r)). set (b := DK l (n * k * r)).
  intros A B C D E. assert (0 < p * (i * (a - b))) by (apply Rmult_lt_0_compat; [assumption|apply Rmult_lt_0_compat; lra]).
  replace (p * (a * i + M * (b * h)) - p * b * (i + M * h)) with (p * (i * (a - b))) by ring.
  replace (p * (a * i + M * (b * h)) - p * a * (i + M * h)) with (- M * (p * (h * (a - b)))) by ring. field. repeat split; lra || assumption.
Qed.
Lemma step_0 l pi pe ni ne k r : 0 < pi -> 0 < pe -> 0 < ni -> 0 < ne -> 0 < k -> 0 < r -> step_val l pi pe ni ne k r 0 = ext_val l pi pe ni ne k r.
Proof.
  intros Hpi Hpe Hni Hne Hk Hr. rewrite ext_valE by assumption. unfold step_val, ratio_ext, fval, gval.
  assert (Hi : 0 < ni * k * r) by (repeat apply Rmult_lt_0_compat; assumption). assert (He : 0 < ne * k * r) by (repeat apply Rmult_lt_0_compat; assumption).
  generalize (sph_i_pos (S l) _ Hi) (sph_h_0 (S l) _ He) (DI_pos l _ Hi) (DK_neg l _ He) (pos_INR l). intros A B C D E.
  set (di := DI l (ni * k * r)) in *. set (ke := DK l (ne * k * r)) in *. set (ii := sph_i (S l) (ni * k * r)) in *.
  assert (0 < pe * di - pi * ke) by (apply dpos; lra).
  field. repeat split; try lra; try assumption.
  replace (pe * (di * ii) - pi * ke * ii) with ((pe * di - pi * ke) * ii) by ring. apply Rgt_not_eq. now apply Rmult_lt_0_compat.
Qed.

(** ** chains of interfaces *)
Fixpoint chain_val (l : nat) (k p n M : R) (layers : list (R * R * R)) : R :=
  match layers with
  | [] => M
  | (r, p', n') :: rest => chain_val l k p' n' (step_val l p p' n n' k r M) rest
  end.
Definition layer_ok (y : R * R * R) : Prop := 0 < fst (fst y) /\ 0 < snd (fst y) /\ 0 < snd y.
(** radii in nondecreasing order, above r0 *)
Fixpoint above (r0 : R) (layers : list (R * R * R)) : Prop :=
  match layers with [] => True | (r, _, _) :: rest => r0 <= r /\ above r rest end.
Lemma good_scale l n k r r' M : 0 < n -> 0 < k -> 0 < r -> r <= r' -> good l (n * k * r) M -> good l (n * k * r') M.
Proof. intros Hn Hk Hr Hr'. apply good_mono; [repeat apply Rmult_lt_0_compat; assumption|]. apply Rmult_le_compat_l; [apply Rmult_le_pos; lra|assumption]. Qed.
Theorem chain_solution l k : 0 < k -> forall layers p n M r0, 0 < p -> 0 < n -> 0 < r0 -> good l (n * k * r0) M -> Forall layer_ok layers -> above r0 layers ->
  forall a, (exists c, strat_match (S l) k p n c (c * M) layers a) <-> a = chain_val l k p n M layers.
Proof.
  intros Hk. induction layers as [|[[r p'] n'] rest IH]; intros p n M r0 Hp Hn Hr0 HG HF HA a.
  - cbn. split; [intros [c [-> H]]; lra|]. intros ->. exists 1. split; [reflexivity|ring].
  - inversion HF as [|? ? H1 H2]; subst. destruct H1 as [H1a [H1b H1c]]. cbn [fst snd] in *. destruct HA as [HA1 HA2].
    assert (G : good l (n * k * r) M) by (now apply good_scale with r0).
    assert (G' := step_good l p p' n n' k r Hp H1b H1c Hk H1a M G).
    cbn [chain_val]. rewrite <- (IH p' n' _ r H1b H1c H1a G' H2 HA2 a). cbn [strat_match]. split.
    + intros [c [c' [d' [E1 [E2 E3]]]]]. exists c'.
      assert (E : interface l p p' n n' k r M c c' d') by (apply interface_derive; try assumption; split; assumption).
      apply interface_iff in E; try assumption. destruct E as [_ <-]. exact E3.
    + intros [c' E3]. generalize (fac_pos l p p' n n' k r Hp H1b H1c Hk H1a M G). intros FP.
      exists (c' / step_fac l p p' n n' k r M), c', (c' * step_val l p p' n n' k r M).
      assert (E : interface l p p' n n' k r M (c' / step_fac l p p' n n' k r M) c' (c' * step_val l p p' n n' k r M)).
      { apply interface_iff; try assumption. split; [field; lra|reflexivity]. }
      apply interface_derive in E; try assumption. destruct E as [E1 E2]. split; [exact E1|split; [exact E2|exact E3]].
Qed.
(** layers of the material in front of them do nothing *)
Lemma chain_app l k : forall y z p n M, chain_val l k p n M (y ++ z) =
  chain_val l k (last (map (fun w => snd (fst w)) y) p) (last (map snd y) n) (chain_val l k p n M y) z.
Proof.
  induction y as [|[[r p'] n'] y IH]; intros z p n M; [reflexivity|]. cbn [app chain_val map fst snd]. rewrite IH.
  destruct y as [|w y]; [reflexivity|]. cbn [map].
  assert (G : forall (u : list R) a b c, last (a :: b :: u) c = last (b :: u) a).
  { clear. intros u. induction u as [|e u IH]; intros a b c; [reflexivity|]. change (last (b :: e :: u) c = last (b :: e :: u) a). rewrite (IH b e c). now rewrite (IH b e a). }
  now rewrite !G.
Qed.
