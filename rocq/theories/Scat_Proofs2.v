(** * Scattering at a sphere: closed form of the arrays, boundary matching *)
From Coq Require Import Reals.
From Coquelicot Require Import Coquelicot.
From Coq Require Import Bool ZArith List Lia Lra.
From Verif Require Import Base Mat_Model Mat_Spec Mat_Proofs Help_Model Bessel_Model Bessel_Spec Bessel_Proofs Bessel_Proofs2 Scat_Model Scat_Spec Scat_Proofs.
Import ListNotations.
Open Scope R_scope.

(** ** exact logarithmic derivatives *)
Definition DI (l : nat) (x : R) : R := dI (S l) x (ln (sph_i l x)) (ln (sph_i (S l) x)).
Definition DK (l : nat) (x : R) : R := dK (S l) x (ln (sph_k l x)) (ln (sph_k (S l) x)).
Lemma exp_ln_diff a b : 0 < a -> 0 < b -> exp (ln a - ln b) = a / b.
Proof. intros. unfold Rminus. rewrite exp_plus, exp_Ropp, !exp_ln by assumption. reflexivity. Qed.
Lemma DIE l x : 0 < x -> DI l x = - INR (S l) + x * (sph_i l x / sph_i (S l) x).
Proof. intros Hx. unfold DI, dI. now rewrite exp_ln_diff by (now apply sph_i_pos). Qed.
Lemma DKE l x : 0 < x -> DK l x = - INR (S l) - x * (sph_k l x / sph_k (S l) x).
Proof. intros Hx. unfold DK, dK. now rewrite exp_ln_diff by (now apply sph_k_pos). Qed.
Lemma DI_pos l x : 0 < x -> INR l + 2 < DI l x.
Proof.
  intros Hx. rewrite DIE by assumption. generalize (sph_i_lower l x Hx). intros H. apply (Rmult_lt_compat_l x) in H; [|assumption].
  replace (x * ((2 * INR l + 3) / x)) with (2 * INR l + 3) in H by (field; lra). rewrite S_INR. lra.
Qed.
Lemma DK_neg l x : 0 < x -> DK l x < - (INR l + 1).
Proof.
  intros Hx. rewrite DKE by assumption. generalize (sph_k_pos l x Hx) (sph_k_pos (S l) x Hx). intros A B.
  assert (0 < x * (sph_k l x / sph_k (S l) x)) by (apply Rmult_lt_0_compat; [assumption|now apply Rdiv_lt_0_compat]). rewrite S_INR. lra.
Qed.
(** the model's expressions are (r f)'/f *)
Lemma derive_scaled (f : R -> R) (c r d : R) : is_derive f (c * r) d -> is_derive (fun s => s * f (c * s)) r (f (c * r) + r * (c * d)).
Proof.
  intros H. assert (I : is_derive (fun s : R => s) r 1) by (auto_derive; [exact Logic.I|reflexivity]).
  assert (Cc : is_derive (fun s : R => c * s) r c) by (auto_derive; [exact Logic.I|ring]).
  eapply deq; [apply (dmult _ _ _ _ _ I (is_derive_comp f (fun s => c * s) r d c H Cc))|].
  unfold scal; simpl. unfold mult; simpl. ring.
Qed.
Lemma derive_i l c r : 0 < c -> 0 < r -> is_derive (fun s => s * sph_i (S l) (c * s)) r (DI l (c * r) * sph_i (S l) (c * r)).
Proof.
  intros Hc Hr. assert (Hx : 0 < c * r) by (now apply Rmult_lt_0_compat). eapply deq; [apply derive_scaled, sph_i_derive_down; assumption|].
  rewrite DIE by assumption. generalize (sph_i_pos (S l) (c * r) Hx). intros P. rewrite S_INR. field. lra.
Qed.
Lemma derive_k l c r : 0 < c -> 0 < r -> is_derive (fun s => s * sph_k (S l) (c * s)) r (DK l (c * r) * sph_k (S l) (c * r)).
Proof.
  intros Hc Hr. assert (Hx : 0 < c * r) by (now apply Rmult_lt_0_compat). eapply deq; [apply derive_scaled, sph_k_derive_down; assumption|].
  rewrite DKE by assumption. generalize (sph_k_pos (S l) (c * r) Hx). intros P. rewrite S_INR. field. lra.
Qed.
Lemma sph_h_0 l x : 0 < x -> sph_h l x <> 0.
Proof.
  intros Hx. unfold sph_h. generalize (sph_k_pos l x Hx) PI_RGT_0. intros A B. apply Rmult_integral_contrapositive. split; [|lra].
  apply Rmult_integral_contrapositive. split; [apply pow_nonzero; lra|]. apply Rgt_not_eq, Rdiv_lt_0_compat; lra.
Qed.
Lemma derive_h l c r : 0 < c -> 0 < r -> is_derive (fun s => s * sph_h (S l) (c * s)) r (DK l (c * r) * sph_h (S l) (c * r)).
Proof.
  intros Hc Hr. apply (is_derive_pos_ext _ (fun s => (-1) ^ (S l + 1) * (2 / PI) * (s * sph_k (S l) (c * s)))); [assumption| |].
  - intros t _. unfold sph_h. ring.
  - eapply deq; [apply is_derive_scal; apply derive_k; assumption|]. unfold sph_h. ring.
Qed.
(** (s (a i + b h))' *)
Lemma derive_combo l c r a b : 0 < c -> 0 < r ->
  Derive (fun s => s * (a * sph_i (S l) (c * s) + b * sph_h (S l) (c * s))) r = a * (DI l (c * r) * sph_i (S l) (c * r)) + b * (DK l (c * r) * sph_h (S l) (c * r)).
Proof.
  intros Hc Hr. apply is_derive_unique. apply (is_derive_pos_ext _ (fun s => a * (s * sph_i (S l) (c * s)) + b * (s * sph_h (S l) (c * s)))); [assumption|intros t _; ring|].
  apply dplus; apply is_derive_scal; [now apply derive_i|now apply derive_h].
Qed.

(** ** boundary matching as linear equations *)
Section Match.
  Context (l : nat) (pi pe ni ne k r : R) (Hpi : 0 < pi) (Hpe : 0 < pe) (Hni : 0 < ni) (Hne : 0 < ne) (Hk : 0 < k) (Hr : 0 < r).
  Let L := S l.
  Let ci := ni * k. Let ce := ne * k.
  Let xi := ci * r. Let xe := ce * r.
  Lemma ci_pos : 0 < ci. Proof. now apply Rmult_lt_0_compat. Qed.
  Lemma ce_pos : 0 < ce. Proof. now apply Rmult_lt_0_compat. Qed.
  Lemma xi_pos : 0 < xi. Proof. apply Rmult_lt_0_compat; [apply ci_pos|assumption]. Qed.
  Lemma xe_pos : 0 < xe. Proof. apply Rmult_lt_0_compat; [apply ce_pos|assumption]. Qed.
  Lemma D_i b : Derive (fun s => s * (b * sph_i L (ci * s))) r = b * (DI l xi * sph_i L xi).
  Proof.
    transitivity (Derive (fun s => s * (b * sph_i L (ci * s) + 0 * sph_h L (ci * s))) r); [apply Derive_ext; intros t; ring|].
    unfold L. rewrite derive_combo by (assumption || apply ci_pos). fold xi. ring.
  Qed.
  Lemma D_ih c (x := c * r) a b : 0 < c -> Derive (fun s => s * (a * sph_i L (c * s) + b * sph_h L (c * s))) r = a * (DI l x * sph_i L x) + b * (DK l x * sph_h L x).
  Proof. intros Hc. unfold L, x. now rewrite derive_combo. Qed.
  Lemma ext_linear a b : matching_ext L pi pe ni ne k r a b <->
    b * sph_i L xi = sph_i L xe + a * sph_h L xe /\ b * (DI l xi * sph_i L xi) / pi = (DI l xe * sph_i L xe + a * (DK l xe * sph_h L xe)) / pe.
  Proof.
    unfold matching_ext. fold ci ce. fold xi xe. rewrite D_i.
    replace (Derive (fun s => s * (sph_i L (ce * s) + a * sph_h L (ce * s))) r) with (DI l xe * sph_i L xe + a * (DK l xe * sph_h L xe)); [tauto|].
    transitivity (Derive (fun s => s * (1 * sph_i L (ce * s) + a * sph_h L (ce * s))) r); [|apply Derive_ext; intros t; ring].
    rewrite D_ih by apply ce_pos. fold xe. ring.
  Qed.
  Lemma int_linear a b : matching_int L pi pe ni ne k r a b <->
    sph_h L xi + a * sph_i L xi = b * sph_h L xe /\ (DK l xi * sph_h L xi + a * (DI l xi * sph_i L xi)) / pi = b * (DK l xe * sph_h L xe) / pe.
  Proof.
    unfold matching_int. fold ci ce. fold xi xe.
    replace (Derive (fun s => s * (sph_h L (ci * s) + a * sph_i L (ci * s))) r) with (DK l xi * sph_h L xi + a * (DI l xi * sph_i L xi)).
    2:{ transitivity (Derive (fun s => s * (a * sph_i L (ci * s) + 1 * sph_h L (ci * s))) r); [|apply Derive_ext; intros t; ring].
        rewrite D_ih by apply ci_pos. fold xi. ring. }
    replace (Derive (fun s => s * (b * sph_h L (ce * s))) r) with (b * (DK l xe * sph_h L xe)); [tauto|].
    transitivity (Derive (fun s => s * (0 * sph_i L (ce * s) + b * sph_h L (ce * s))) r); [|apply Derive_ext; intros t; ring].
    rewrite D_ih by apply ce_pos. fold xe. ring.
  Qed.
  Lemma dpos (di ke : R) : 0 < di -> ke < 0 -> 0 < pe * di - pi * ke.
  Proof. intros A B. assert (0 < pe * di) by (now apply Rmult_lt_0_compat). assert (0 < pi * - ke) by (apply Rmult_lt_0_compat; lra). lra. Qed.
  Lemma nDI c : 0 < c -> 0 < DI l c.
  Proof. intros H. generalize (DI_pos l c H) (pos_INR l). lra. Qed.
  Lemma nDK c : 0 < c -> DK l c < 0.
  Proof. intros H. generalize (DK_neg l c H) (pos_INR l). lra. Qed.
  Lemma pow_m1_sq n : (-1) ^ n * (-1) ^ n = 1.
  Proof. rewrite <- Rpow_mult_distr. replace (-1 * -1) with 1 by ring. apply pow1. Qed.
  (** the value of the model, with its scaling factor *)
  Definition ext_val : R := ratio_ext pi pe (DI l xi) (DI l xe) (DK l xe) * (sgn L * PI * 0.5) * exp (ln (sph_i L xe) - ln (sph_k L xe)).
  Definition int_val : R := ratio_int pi pe (DI l xi) (DK l xi) (DK l xe) * (sgn L * 2 / PI) * exp (ln (sph_k L xi) - ln (sph_i L xi)).
  Lemma h_inv c : 0 < c -> sgn L * PI * 0.5 / sph_k L c = - / sph_h L c.
  Proof.
    intros Hc. generalize (sph_k_pos L c Hc) PI_RGT_0. intros K P. unfold sph_h, sgn. rewrite pow_add, pow_1.
    generalize (pow_m1_sq L) (pow_nonzero (-1) L ltac:(lra)). set (s := (-1) ^ L). clearbody s. intros S0 N. apply Rmult_eq_reg_r with s; [|assumption].
    transitivity (s * s * (PI * 0.5 / sph_k L c)); [field; lra|]. rewrite S0. replace 0.5 with (/ 2) by lra. field. repeat split; lra.
  Qed.
  Lemma h_val c : sgn L * 2 / PI * sph_k L c = - sph_h L c.
  Proof. unfold sph_h, sgn. rewrite pow_add, pow_1. field. generalize PI_RGT_0; lra. Qed.
  Lemma ext_valE : ext_val = - ratio_ext pi pe (DI l xi) (DI l xe) (DK l xe) * (sph_i L xe / sph_h L xe).
  Proof.
    unfold ext_val. generalize xe_pos. intros Hx. rewrite exp_ln_diff by (now apply sph_i_pos || now apply sph_k_pos).
    transitivity (ratio_ext pi pe (DI l xi) (DI l xe) (DK l xe) * sph_i L xe * (sgn L * PI * 0.5 / sph_k L xe)); [unfold Rdiv; ring|].
    rewrite h_inv by assumption. unfold Rdiv. ring.
  Qed.
  Lemma int_valE : int_val = - ratio_int pi pe (DI l xi) (DK l xi) (DK l xe) * (sph_h L xi / sph_i L xi).
  Proof.
    unfold int_val. generalize xi_pos. intros Hx. rewrite exp_ln_diff by (now apply sph_i_pos || now apply sph_k_pos).
    transitivity (ratio_int pi pe (DI l xi) (DK l xi) (DK l xe) * (sgn L * 2 / PI * sph_k L xi) / sph_i L xi); [unfold Rdiv; ring|].
    rewrite h_val. unfold Rdiv. ring.
  Qed.
  Theorem ext_unique a : (exists b, matching_ext L pi pe ni ne k r a b) <-> a = ext_val.
  Proof.
    rewrite ext_valE. generalize xi_pos xe_pos. intros Hi He.
    generalize (sph_i_pos L xi Hi) (sph_i_pos L xe He) (sph_h_0 L xe He) (nDI xi Hi) (nDK xe He). intros Pi Pe Ph PDi PDk.
    generalize (dpos (DI l xi) (DK l xe) PDi PDk). intros Dn. unfold ratio_ext.
    set (di := DI l xi) in *. set (de := DI l xe) in *. set (ke := DK l xe) in *. set (ii := sph_i L xi) in *. set (ie := sph_i L xe) in *. set (he := sph_h L xe) in *.
    split.
    - intros [b H]. apply ext_linear in H. fold di de ke ii ie he in H. destruct H as [H1 H2].
      assert (H3 : pe * (b * ii * di) = pi * (de * ie + a * (ke * he))).
      { replace (b * (di * ii)) with (b * ii * di) in H2 by ring. apply (f_equal (fun t => t * (pi * pe))) in H2.
        replace (b * ii * di / pi * (pi * pe)) with (pe * (b * ii * di)) in H2 by (field; lra). rewrite H2. field. lra. }
      rewrite H1 in H3. apply Rmult_eq_reg_r with (he * (pe * di - pi * ke)); [|apply Rmult_integral_contrapositive; split; [assumption|lra]].
      transitivity (- (pe * di - pi * de) * ie); [|field; split; [assumption|lra]].
      replace (a * (he * (pe * di - pi * ke))) with (pe * ((ie + a * he) * di) - pe * (ie * di) - a * pi * (ke * he)) by ring. rewrite H3. ring.
    - intros ->. exists ((ie + - ((pe * di - pi * de) / (pe * di - pi * ke)) * (ie / he) * he) / ii). apply ext_linear. fold di de ke ii ie he.
      split; [field; lra|]. field. repeat split; lra || assumption.
  Qed.
  Theorem int_unique a : (exists b, matching_int L pi pe ni ne k r a b) <-> a = int_val.
  Proof.
    rewrite int_valE. generalize xi_pos xe_pos. intros Hi He.
    generalize (sph_i_pos L xi Hi) (sph_h_0 L xi Hi) (sph_h_0 L xe He) (nDI xi Hi) (nDK xe He). intros Pi Phi Ph PDi PDk.
    generalize (dpos (DI l xi) (DK l xe) PDi PDk). intros Dn. unfold ratio_int.
    set (di := DI l xi) in *. set (ki := DK l xi) in *. set (ke := DK l xe) in *. set (ii := sph_i L xi) in *. set (hi := sph_h L xi) in *. set (he := sph_h L xe) in *.
    split.
    - intros [b H]. apply int_linear in H. fold di ki ke ii hi he in H. destruct H as [H1 H2].
      assert (H3 : pe * (ki * hi + a * (di * ii)) = pi * (ke * (b * he))).
      { replace (b * (ke * he)) with (ke * (b * he)) in H2 by ring. apply (f_equal (fun t => t * (pi * pe))) in H2.
        replace (ke * (b * he) / pe * (pi * pe)) with (pi * (ke * (b * he))) in H2 by (field; lra). rewrite <- H2. field. lra. }
      rewrite <- H1 in H3. apply Rmult_eq_reg_r with (ii * (pe * di - pi * ke)); [|apply Rmult_integral_contrapositive; split; lra].
      transitivity (- (pe * ki - pi * ke) * hi); [|field; split; lra].
      replace (a * (ii * (pe * di - pi * ke))) with (pe * (ki * hi + a * (di * ii)) - pe * (ki * hi) - a * ii * pi * ke) by ring. rewrite H3. ring.
    - intros ->. exists ((hi + - ((pe * ki - pi * ke) / (pe * di - pi * ke)) * (hi / ii) * ii) / he). apply int_linear. fold di ki ke ii hi he.
      split; [field; repeat split; lra || assumption|]. field. repeat split; lra || assumption.
  Qed.
  (** perfect conductors *)
  Definition pec_scale : R := exp (ln (sph_i L xe) - ln (sph_k L xe)).
  Theorem pec_ext_unique a : (pec_ext_TE L ne k r a <-> a = sgn L * PI * 0.5 * pec_scale) /\
                             (pec_ext_TM L ne k r a <-> a = sgn L * PI * 0.5 * DI l xe / DK l xe * pec_scale).
  Proof.
    generalize xe_pos. intros He. generalize (sph_i_pos L xe He) (sph_h_0 L xe He) (nDK xe He). intros Pe Ph PDk.
    assert (E : sgn L * PI * 0.5 * pec_scale = - (sph_i L xe / sph_h L xe)).
    { unfold pec_scale. rewrite exp_ln_diff by (now apply sph_i_pos || now apply sph_k_pos). transitivity (sph_i L xe * (sgn L * PI * 0.5 / sph_k L xe)); [unfold Rdiv; ring|]. rewrite h_inv by assumption. unfold Rdiv. ring. }
    split.
    - rewrite E. unfold pec_ext_TE. fold ce. fold xe. split; intros H.
      + apply Rmult_eq_reg_r with (sph_h L xe); [|assumption]. transitivity (- sph_i L xe); [lra|field; assumption].
      + rewrite H. field. assumption.
    - replace (sgn L * PI * 0.5 * DI l xe / DK l xe * pec_scale) with (sgn L * PI * 0.5 * pec_scale * (DI l xe / DK l xe)) by (unfold Rdiv; ring). rewrite E.
      unfold pec_ext_TM. fold ce.
      replace (Derive (fun s => s * (sph_i L (ce * s) + a * sph_h L (ce * s))) r) with (DI l xe * sph_i L xe + a * (DK l xe * sph_h L xe)).
      2:{ transitivity (Derive (fun s => s * (1 * sph_i L (ce * s) + a * sph_h L (ce * s))) r); [|apply Derive_ext; intros t; ring].
          rewrite D_ih by apply ce_pos. fold xe. ring. }
      split; intros H.
      + apply Rmult_eq_reg_r with (DK l xe * sph_h L xe); [|apply Rmult_integral_contrapositive; split; [lra|assumption]].
        transitivity (- (DI l xe * sph_i L xe)); [lra|]. field. split; [lra|assumption].
      + rewrite H. field. split; [lra|assumption].
  Qed.
  Definition pec_scale_int : R := exp (ln (sph_k L xi) - ln (sph_i L xi)).
  Theorem pec_int_unique a : (pec_int_TE L ni k r a <-> a = sgn L * 2 / PI * pec_scale_int) /\
                             (pec_int_TM L ni k r a <-> a = sgn L * 2 / PI * (DK l xi / DI l xi) * pec_scale_int).
  Proof.
    generalize xi_pos. intros Hi. generalize (sph_i_pos L xi Hi) (sph_h_0 L xi Hi) (nDI xi Hi). intros Pi Ph PDi.
    assert (E : sgn L * 2 / PI * pec_scale_int = - (sph_h L xi / sph_i L xi)).
    { unfold pec_scale_int. rewrite exp_ln_diff by (now apply sph_i_pos || now apply sph_k_pos). transitivity (sgn L * 2 / PI * sph_k L xi / sph_i L xi); [unfold Rdiv; ring|]. rewrite h_val. unfold Rdiv. ring. }
    split.
    - rewrite E. unfold pec_int_TE. fold ci. fold xi. split; intros H.
      + apply Rmult_eq_reg_r with (sph_i L xi); [|lra]. transitivity (- sph_h L xi); [lra|field; lra].
      + rewrite H. field. lra.
    - replace (sgn L * 2 / PI * (DK l xi / DI l xi) * pec_scale_int) with (sgn L * 2 / PI * pec_scale_int * (DK l xi / DI l xi)) by (unfold Rdiv; ring). rewrite E.
      unfold pec_int_TM. fold ci.
      replace (Derive (fun s => s * (sph_h L (ci * s) + a * sph_i L (ci * s))) r) with (DK l xi * sph_h L xi + a * (DI l xi * sph_i L xi)).
      2:{ transitivity (Derive (fun s => s * (a * sph_i L (ci * s) + 1 * sph_h L (ci * s))) r); [|apply Derive_ext; intros t; ring].
          rewrite D_ih by apply ci_pos. fold xi. ring. }
      split; intros H.
      + apply Rmult_eq_reg_r with (DI l xi * sph_i L xi); [|apply Rmult_integral_contrapositive; split; lra].
        transitivity (- (DK l xi * sph_h L xi)); [lra|]. field. split; lra.
      + rewrite H. field. split; lra.
  Qed.
End Match.

(** ** the arrays *)
Lemma nth_map_in {A B} (f : A -> B) l q d d' : (q < length l)%nat -> nth q (map f l) d = f (nth q l d').
Proof. intros H. rewrite (nth_indep _ d (f d')) by (now rewrite map_length). apply map_nth. Qed.
Lemma tabulate_cell n nk f j q : (j < n)%nat -> (q < nk)%nat -> cell (tabulate n nk f) j q = f j q.
Proof.
  intros Hj Hq. unfold cell, tabulate. rewrite (nth_map_in _ _ j [] 0%nat) by (now rewrite seq_length). rewrite seq_nth by assumption.
  rewrite (nth_map_in _ _ q 0 0%nat) by (now rewrite seq_length). now rewrite seq_nth.
Qed.
Lemma assemble_entries n nk f j q : (j < n)%nat -> (q < nk)%nat ->
  te_at (assemble n nk f) j q = fst (fst (f j q)) /\ tm_at (assemble n nk f) j q = snd (fst (f j q)) /\ scale_at (assemble n nk f) j q = snd (f j q).
Proof. intros Hj Hq. unfold te_at, tm_at, scale_at, assemble. cbn [fst snd]. repeat split; now apply tabulate_cell. Qed.
Lemma index_map e u ks : index (map e ks) (map u ks) = map (refr e u) ks.
Proof. unfold index. now rewrite vmap2_map. Qed.
Lemma times_map (n : R -> R) r ks : times (map (fun k => k * r) ks) (map n ks) = xs n r ks.
Proof. unfold times. now rewrite vmap2_map. Qed.
Lemma xs_nth n r ks q : (q < length ks)%nat -> at_ (xs n r ks) q = nth q ks 0 * r * n (nth q ks 0).
Proof. intros H. unfold at_, xs. now rewrite (nth_map_in _ ks q 0 0). Qed.
Lemma at_map (f : R -> R) ks q : (q < length ks)%nat -> at_ (map f ks) q = f (nth q ks 0).
Proof. intros H. unfold at_. now rewrite (nth_map_in _ ks q 0 0). Qed.

Section Arrays.
  Context (bessels : list R -> nat -> Z -> res (list (list R) * list (list R))).
  Context (ks : list R) (l0 : nat) (lmax : Z) (r : R).
  Context (Hks : forall k, In k ks -> 0 < k).
  Let nk := length ks.
  Let nl := Z.to_nat (lmax - Z.of_nat l0).
  Lemma mie_lossy_run m1 m2 e1 u1 e2 u2 ive kve ivi kvi : has m1 e1 u1 -> has m2 e2 u2 ->
    bessels (xs (refr e2 u2) r ks) l0 lmax = Ok (ive, kve) -> bessels (xs (refr e1 u1) r ks) l0 lmax = Ok (ivi, kvi) ->
    exists c, mie bessels ks l0 lmax r m1 m2 = Val c /\ forall j q, (j < nl)%nat -> (q < nk)%nat ->
      let k := nth q ks 0 in let l := (l0 + 1 + j)%nat in
      let xi := k * r * refr e1 u1 k in let xe := k * r * refr e2 u2 k in
      let id_i := dI l xi (cell ivi j q) (cell ivi (S j) q) in
      let id_e := dI l xe (cell ive j q) (cell ive (S j) q) in
      let kd_e := dK l xe (cell kve j q) (cell kve (S j) q) in
      te_at c j q = ratio_ext (u1 k) (u2 k) id_i id_e kd_e * (sgn l * PI * 0.5) /\
      tm_at c j q = ratio_ext (e1 k) (e2 k) id_i id_e kd_e * (sgn l * PI * 0.5) /\
      scale_at c j q = cell ive (S j) q - cell kve (S j) q.
  Proof.
    intros [H1 [_ P1]] [H2 [_ P2]] Be Bi. destruct (H1 ks Hks) as [E1 U1]. destruct (H2 ks Hks) as [E2 U2].
    eexists. split.
    - unfold mie. rewrite P1. unfold mie_lossy. rewrite E1, U1, E2, U2. cbn [obind]. rewrite !index_map, !times_map, Be, Bi. cbn [of_res obind]. reflexivity.
    - intros j q Hj Hq. fold nl nk. match goal with |- context [assemble nl nk ?f] => destruct (assemble_entries nl nk f j q Hj Hq) as [-> [-> ->]] end.
      cbn [fst snd]. rewrite !xs_nth, !at_map by assumption. repeat split; reflexivity.
  Qed.
  Lemma mie_int_run m1 m2 e1 u1 e2 u2 ive kve ivi kvi : has m1 e1 u1 -> has m2 e2 u2 ->
    bessels (xs (refr e2 u2) r ks) l0 lmax = Ok (ive, kve) -> bessels (xs (refr e1 u1) r ks) l0 lmax = Ok (ivi, kvi) ->
    exists c, mie_internal bessels ks l0 lmax r m1 m2 = Val c /\ forall j q, (j < nl)%nat -> (q < nk)%nat ->
      let k := nth q ks 0 in let l := (l0 + 1 + j)%nat in
      let xi := k * r * refr e1 u1 k in let xe := k * r * refr e2 u2 k in
      let id_i := dI l xi (cell ivi j q) (cell ivi (S j) q) in
      let kd_i := dK l xi (cell kvi j q) (cell kvi (S j) q) in
      let kd_e := dK l xe (cell kve j q) (cell kve (S j) q) in
      te_at c j q = ratio_int (u1 k) (u2 k) id_i kd_i kd_e * (sgn l * 2 / PI) /\
      tm_at c j q = ratio_int (e1 k) (e2 k) id_i kd_i kd_e * (sgn l * 2 / PI) /\
      scale_at c j q = cell kvi (S j) q - cell ivi (S j) q.
  Proof.
    intros [H1 [_ P1]] [H2 [_ P2]] Be Bi. destruct (H1 ks Hks) as [E1 U1]. destruct (H2 ks Hks) as [E2 U2].
    eexists. split.
    - unfold mie_internal. rewrite P2. unfold mie_internal_lossy. rewrite E1, U1, E2, U2. cbn [obind]. rewrite !index_map, !times_map, Be, Bi. cbn [of_res obind]. reflexivity.
    - intros j q Hj Hq. fold nl nk. match goal with |- context [assemble nl nk ?f] => destruct (assemble_entries nl nk f j q Hj Hq) as [-> [-> ->]] end.
      cbn [fst snd]. rewrite !xs_nth, !at_map by assumption. repeat split; reflexivity.
  Qed.
  Lemma mie_pec_run m2 e2 u2 ive kve : has m2 e2 u2 -> bessels (xs (refr e2 u2) r ks) l0 lmax = Ok (ive, kve) ->
    exists c, mie bessels ks l0 lmax r PEC m2 = Val c /\ forall j q, (j < nl)%nat -> (q < nk)%nat ->
      let k := nth q ks 0 in let l := (l0 + 1 + j)%nat in let xe := k * r * refr e2 u2 k in
      te_at c j q = sgn l * PI * 0.5 /\
      tm_at c j q = sgn l * PI * 0.5 * dI l xe (cell ive j q) (cell ive (S j) q) / dK l xe (cell kve j q) (cell kve (S j) q) /\
      scale_at c j q = cell ive (S j) q - cell kve (S j) q.
  Proof.
    intros [H2 [_ P2]] Be. destruct (H2 ks Hks) as [E2 U2]. eexists. split.
    - unfold mie. cbn [is_pec]. unfold miePEC. rewrite E2, U2. cbn [obind]. rewrite !index_map, !times_map, Be. cbn [of_res obind]. reflexivity.
    - intros j q Hj Hq. fold nl nk. match goal with |- context [assemble nl nk ?f] => destruct (assemble_entries nl nk f j q Hj Hq) as [-> [-> ->]] end.
      cbn [fst snd]. rewrite !xs_nth by assumption. repeat split; reflexivity.
  Qed.
  Lemma mie_pec_int_run m1 e1 u1 ivi kvi : has m1 e1 u1 -> bessels (xs (refr e1 u1) r ks) l0 lmax = Ok (ivi, kvi) ->
    exists c, mie_internal bessels ks l0 lmax r m1 PEC = Val c /\ forall j q, (j < nl)%nat -> (q < nk)%nat ->
      let k := nth q ks 0 in let l := (l0 + 1 + j)%nat in let xi := k * r * refr e1 u1 k in
      te_at c j q = sgn l * 2 / PI /\
      tm_at c j q = sgn l * 2 / PI * (dK l xi (cell kvi j q) (cell kvi (S j) q) / dI l xi (cell ivi j q) (cell ivi (S j) q)) /\
      scale_at c j q = cell kvi (S j) q - cell ivi (S j) q.
  Proof.
    intros [H2 [_ P2]] Be. destruct (H2 ks Hks) as [E2 U2]. eexists. split.
    - unfold mie_internal. cbn [is_pec]. unfold miePEC_internal. rewrite E2, U2. cbn [obind]. rewrite !index_map, !times_map, Be. cbn [of_res obind]. reflexivity.
    - intros j q Hj Hq. fold nl nk. match goal with |- context [assemble nl nk ?f] => destruct (assemble_entries nl nk f j q Hj Hq) as [-> [-> ->]] end.
      cbn [fst snd]. rewrite !xs_nth by assumption. repeat split; reflexivity.
  Qed.
End Arrays.

(** exact Bessel arrays *)
Lemma exact_ok x l0 (lmax : Z) : (Z.of_nat l0 <= lmax)%Z -> exists iv kv, exact_bessels x l0 lmax = Ok (iv, kv) /\
  forall j q, (j <= Z.to_nat (lmax - Z.of_nat l0))%nat -> (q < length x)%nat ->
    cell iv j q = ln (sph_i (l0 + j) (nth q x 0)) /\ cell kv j q = ln (sph_k (l0 + j) (nth q x 0)).
Proof.
  intros H. eexists; eexists. split.
  - unfold exact_bessels. replace (lmax <? Z.of_nat l0)%Z with false by (symmetry; apply Z.ltb_ge; lia). reflexivity.
  - intros j q Hj Hq. unfold cell.
    assert (L : (j < S (Z.to_nat lmax) - l0)%nat) by lia.
    rewrite !(nth_map_in _ _ j [] 0%nat) by (now rewrite seq_length). rewrite seq_nth by assumption. rewrite !(nth_map_in _ x q 0 0) by assumption. split; reflexivity.
Qed.
