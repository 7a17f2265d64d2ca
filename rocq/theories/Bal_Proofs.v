(** * Balancing: loops, termination, stopping condition (exact arithmetic) *)
From Coq Require Import Bool Reals List ZArith Arith Lia Lra.
From Verif Require Import Base Lin_Model.
Import ListNotations.
Open Scope R_scope.

(** ** sums *)
Lemma sumn_ext n f g : (forall i, (i < n)%nat -> f i = g i) -> sumn n f = sumn n g.
Proof. induction n as [|n IH]; intros H; cbn; [reflexivity|]. rewrite IH by (intros; apply H; lia). rewrite H by lia. reflexivity. Qed.
Lemma sumn_plus n f g : sumn n (fun i => f i + g i) = sumn n f + sumn n g.
Proof. induction n as [|n IH]; cbn; [ring|]. rewrite IH. ring. Qed.
Lemma sumn_scal n f a : sumn n (fun i => a * f i) = a * sumn n f.
Proof. induction n as [|n IH]; cbn; [ring|]. rewrite IH. ring. Qed.
Lemma sumn_0 n : sumn n (fun _ => 0) = 0.
Proof. induction n as [|n IH]; cbn; [ring|]. rewrite IH. ring. Qed.
Lemma sumn_nonneg n f : (forall i, (i < n)%nat -> 0 <= f i) -> 0 <= sumn n f.
Proof. induction n as [|n IH]; intros H; cbn; [lra|]. specialize (IH ltac:(intros; apply H; lia)). specialize (H n ltac:(lia)). lra. Qed.
Lemma sumn_delta n f i : (i < n)%nat -> sumn n (fun j => if Nat.eqb j i then f j else 0) = f i.
Proof.
  induction n as [|n IH]; intros H; [lia|]. cbn. destruct (Nat.eqb_spec n i) as [->|Hn].
  - rewrite (sumn_ext i _ (fun _ => 0)).
    + rewrite sumn_0. ring.
    + intros j Hj. destruct (Nat.eqb_spec j i); [lia|reflexivity].
  - rewrite IH by lia. ring.
Qed.

Lemma offcol_nonneg n A i : 0 <= offcol n A i.
Proof. apply sumn_nonneg. intros j _. destruct (Nat.eqb j i); [lra|]. apply pow2_ge_0. Qed.
Lemma offrow_nonneg n A i : 0 <= offrow n A i.
Proof. apply sumn_nonneg. intros j _. destruct (Nat.eqb j i); [lra|]. apply pow2_ge_0. Qed.

(** ** the inner loops *)
Definition pow2 (f : R) : Prop := exists z : Z, f = powerRZ 2 z.
Lemma pow2_pos f : pow2 f -> 0 < f.
Proof. intros [z ->]. apply powerRZ_lt. lra. Qed.
Lemma pow2_1 : pow2 1. Proof. exists 0%Z. reflexivity. Qed.
Lemma pow2_mul f g : pow2 f -> pow2 g -> pow2 (f * g).
Proof. intros [z ->] [w ->]. exists (z + w)%Z. symmetry. apply powerRZ_add. lra. Qed.
Lemma pow2_inv f : pow2 f -> pow2 (/ f).
Proof. intros [z ->]. exists (- z)%Z. symmetry. apply powerRZ_neg'. Qed.
Lemma pow2_2 : pow2 2. Proof. exists 1%Z. rewrite powerRZ_1. reflexivity. Qed.
Lemma pow2_dbl f : pow2 f -> pow2 (f * 2).
Proof. intros H. apply pow2_mul; [assumption|apply pow2_2]. Qed.
Lemma pow2_half f : pow2 f -> pow2 (f / 2).
Proof. intros H. apply pow2_mul; [assumption|apply pow2_inv, pow2_2]. Qed.

Lemma loop_up_mono k : forall f c r x, loop_up k f c r = Some x -> forall k', (k <= k')%nat -> loop_up k' f c r = Some x.
Proof.
  induction k as [|k IH]; intros f c r x H k' Hk; [discriminate|]. destruct k' as [|k']; [lia|]. cbn in *.
  destruct (Rltb c (r / 2)); [|assumption]. apply (IH _ _ _ _ H). lia.
Qed.
Lemma loop_down_mono k : forall f c r x, loop_down k f c r = Some x -> forall k', (k <= k')%nat -> loop_down k' f c r = Some x.
Proof.
  induction k as [|k IH]; intros f c r x H k' Hk; [discriminate|]. destruct k' as [|k']; [lia|]. cbn in *.
  destruct (Rleb (r * 2) c); [|assumption]. apply (IH _ _ _ _ H). lia.
Qed.

(** [c] and [r] are rescaled by the same power of two, in opposite directions; the sum of squares
    does not grow *)
Lemma loop_up_inv k : forall f c r f' c' r', 0 < c -> 0 < r -> pow2 f ->
  loop_up k f c r = Some (f', c', r') ->
  pow2 f' /\ c' = c * (f' / f) /\ r' = r / (f' / f) /\ r' / 2 <= c' /\
  (f' <> f -> c' < 2 * r') /\ c' ^ 2 + r' ^ 2 <= c ^ 2 + r ^ 2.
Proof.
  induction k as [|k IH]; intros f c r f' c' r' Hc Hr Hf H; [discriminate|]. cbn in H.
  pose proof (pow2_pos f Hf) as Hf0.
  destruct (Rltb_spec c (r / 2)) as [Hl|Hl].
  - destruct (IH (f * 2) (c * 2) (r / 2) _ _ _ ltac:(lra) ltac:(lra) (pow2_dbl f Hf) H) as (H1 & H2 & H3 & H4 & H5 & H6).
    pose proof (pow2_pos f' H1) as Hf'.
    split; [assumption|]. split; [rewrite H2; field; lra|]. split; [rewrite H3; field; lra|].
    split; [assumption|]. split.
    + intros _. destruct (Req_EM_T f' (f * 2)) as [E|E].
      * rewrite H2, H3, E. replace (f * 2 / (f * 2)) with 1 by (field; lra). lra.
      * now apply H5.
    + refine (Rle_trans _ _ _ H6 _). assert (0 <= (r / 2 - c) * (r / 2 + c)) by (apply Rmult_le_pos; lra). lra.
  - injection H as <- <- <-. split; [assumption|]. replace (f / f) with 1 by (field; lra).

    split; [ring|]. split; [unfold Rdiv; rewrite Rinv_1; ring|]. split; [lra|]. split; [congruence|lra].
Qed.

Lemma loop_down_inv k : forall f c r f' c' r', 0 < c -> 0 < r -> pow2 f -> r / 2 <= c ->
  loop_down k f c r = Some (f', c', r') ->
  pow2 f' /\ c' = c * (f' / f) /\ r' = r / (f' / f) /\ r' / 2 <= c' /\ c' < 2 * r' /\
  c' ^ 2 + r' ^ 2 <= c ^ 2 + r ^ 2.
Proof.
  induction k as [|k IH]; intros f c r f' c' r' Hc Hr Hf Hb H; [discriminate|]. cbn in H.
  pose proof (pow2_pos f Hf) as Hf0.
  destruct (Rleb_spec (r * 2) c) as [Hl|Hl].
  - destruct (IH (f / 2) (c / 2) (r * 2) _ _ _ ltac:(lra) ltac:(lra) (pow2_half f Hf) ltac:(lra) H) as (H1 & H2 & H3 & H4 & H5 & H6).
    pose proof (pow2_pos f' H1) as Hf'.
    split; [assumption|]. split; [rewrite H2; field; lra|]. split; [rewrite H3; field; lra|].
    split; [assumption|]. split; [assumption|].
    refine (Rle_trans _ _ _ H6 _). assert (0 <= (c / 2 - r) * (c / 2 + r)) by (apply Rmult_le_pos; lra). lra.
  - injection H as <- <- <-. split; [assumption|]. replace (f / f) with 1 by (field; lra).
    split; [ring|]. split; [unfold Rdiv; rewrite Rinv_1; ring|]. repeat split; lra.
Qed.

Lemma pow4_unbounded a : exists k : nat, a < 4 ^ k.
Proof.
  destruct (archimed (Rmax a 1)) as [H _]. set (z := up (Rmax a 1)) in *.
  exists (Z.to_nat z). assert (0 < IZR z) by (pose proof (Rmax_r a 1); lra). apply lt_IZR in H0.
  assert (G : forall n : nat, INR n < 4 ^ n).
  { induction n as [|n IH]; [cbn; lra|]. rewrite S_INR. cbn [pow].
    assert (1 <= 4 ^ n) by (apply pow_R1_Rle; lra). lra. }
  specialize (G (Z.to_nat z)). rewrite INR_IZR_INZ, Z2Nat.id in G by lia. pose proof (Rmax_l a 1). lra.
Qed.

Lemma loop_up_terminates f c r : 0 < c -> 0 < r -> exists k x, loop_up k f c r = Some x.
Proof.
  intros Hc Hr. destruct (pow4_unbounded (r / c)) as [k Hk].
  assert (H : r / 2 <= c * 4 ^ k).
  { assert (r = c * (r / c)) by (field; lra). assert (r < c * 4 ^ k) by (rewrite H; apply Rmult_lt_compat_l; lra). lra. }
  clear Hk. exists (S k). revert f c r Hc Hr H.
  induction k as [|k IH]; intros f c r Hc Hr H.
  - cbn in *. destruct (Rltb_spec c (r / 2)); [lra|]. eauto.
  - remember (S k) as k1. cbn [loop_up]. destruct (Rltb_spec c (r / 2)); [|eauto].
    subst k1. apply IH; [lra|lra|]. cbn [pow] in H. lra.
Qed.
Lemma loop_down_terminates f c r : 0 < c -> 0 < r -> exists k x, loop_down k f c r = Some x.
Proof.
  intros Hc Hr. destruct (pow4_unbounded (c / r)) as [k Hk].
  assert (H : c < r * 2 * 4 ^ k).
  { assert (c = r * (c / r)) by (field; lra). assert (c < r * 4 ^ k) by (rewrite H; apply Rmult_lt_compat_l; lra). lra. }
  clear Hk. exists (S k). revert f c r Hc Hr H.
  induction k as [|k IH]; intros f c r Hc Hr H.
  - cbn in *. destruct (Rleb_spec (r * 2) c); [lra|]. eauto.
  - remember (S k) as k1. cbn [loop_down]. destruct (Rleb_spec (r * 2) c); [|eauto].
    subst k1. apply IH; [lra|lra|]. cbn [pow] in H. lra.
Qed.

(** ** one index *)
Definition negligible (n : nat) (A : mat) (i : nat) : Prop := offrow n A i <= 1e-320 \/ offcol n A i <= 1e-320.

Definition rescale (A : mat) (i : nat) (f : R) : mat := scale_row (scale_col A i f) i f.

(** the outcome of the inner loops for a non-negligible index *)
Lemma balance_index_inv k conv n A i ch B : balance_index k conv n A i = Some (ch, B) ->
  (negligible n A i /\ ch = false /\ B = A) \/
  (~ negligible n A i /\ exists f, pow2 f /\
    offrow n A i / f ^ 2 <= 4 * (offcol n A i * f ^ 2) /\ offcol n A i * f ^ 2 <= 4 * (offrow n A i / f ^ 2) /\
    offcol n A i * f ^ 2 + offrow n A i / f ^ 2 <= offcol n A i + offrow n A i /\
    ((ch = true /\ B = rescale A i f /\
      offcol n A i * f ^ 2 + offrow n A i / f ^ 2 < conv * (offcol n A i + offrow n A i)) \/
     (ch = false /\ B = A /\
      conv * (offcol n A i + offrow n A i) <= offcol n A i * f ^ 2 + offrow n A i / f ^ 2))).
Proof.
  unfold balance_index. intros H.
  pose proof (offrow_nonneg n A i) as Hr0. pose proof (offcol_nonneg n A i) as Hc0.
  rewrite !Rabs_pos_eq in H by assumption.
  set (r := offrow n A i) in *. set (c := offcol n A i) in *.
  destruct (Rleb_spec r 1e-320) as [Hr|Hr]; [cbn [orb] in H; injection H as <- <-; left; split; [now left|auto]|].
  destruct (Rleb_spec c 1e-320) as [Hc|Hc]; [cbn [orb] in H; injection H as <- <-; left; split; [now right|auto]|].
  cbn [orb] in H. right.
  split; [intros [Hx|Hx]; unfold r, c in *; lra|].
  assert (0 < sqrt c) by (apply sqrt_lt_R0; lra). assert (0 < sqrt r) by (apply sqrt_lt_R0; lra).
  assert (Ec : sqrt c ^ 2 = c) by (cbn [pow]; rewrite Rmult_1_r; apply sqrt_sqrt; lra).
  assert (Er : sqrt r ^ 2 = r) by (cbn [pow]; rewrite Rmult_1_r; apply sqrt_sqrt; lra).
  destruct (loop_up k 1 (sqrt c) (sqrt r)) as [[[f1 c1] r1]|] eqn:E1; [|discriminate].
  destruct (loop_up_inv _ _ _ _ _ _ _ H0 H1 pow2_1 E1) as (P1 & C1 & R1 & B1 & _ & S1).
  pose proof (pow2_pos f1 P1) as Hf1. unfold Rdiv in C1, R1. rewrite Rinv_1, Rmult_1_r in C1, R1.
  assert (0 < c1) by (rewrite C1; apply Rmult_lt_0_compat; lra).
  assert (0 < r1) by (rewrite R1; apply Rmult_lt_0_compat; [lra|apply Rinv_0_lt_compat; lra]).
  destruct (loop_down k f1 c1 r1) as [[[f c'] r']|] eqn:E2; [|discriminate].
  destruct (loop_down_inv _ _ _ _ _ _ _ H2 H3 P1 B1 E2) as (P2 & C2 & R2 & B2 & B3 & S2).
  pose proof (pow2_pos f P2) as Hf.
  assert (Ec' : c' ^ 2 = c * f ^ 2). { rewrite C2, C1. transitivity (sqrt c ^ 2 * f ^ 2); [field; lra|now rewrite Ec]. }
  assert (Er' : r' ^ 2 = r / f ^ 2). { rewrite R2, R1. transitivity (sqrt r ^ 2 / f ^ 2); [field; lra|now rewrite Er]. }
  assert (0 < r') by lra. assert (0 < c') by lra.
  exists f. split; [assumption|]. rewrite <- Ec', <- Er'.
  split; [nra|]. split; [nra|]. split; [rewrite Ec, Er in *; lra|].
  destruct (Rltb_spec (c' ^ 2 + r' ^ 2) (conv * (c + r))) as [Hl|Hl]; injection H as <- <-.
  - left. split; [reflexivity|]. split; [reflexivity|]. assumption.
  - right. split; [reflexivity|]. split; [reflexivity|]. lra.
Qed.

Lemma balance_index_mono k conv n A i x : balance_index k conv n A i = Some x ->
  forall k', (k <= k')%nat -> balance_index k' conv n A i = Some x.
Proof.
  unfold balance_index. intros H k' Hk. destruct (_ || _); [assumption|].
  destruct (loop_up k _ _ _) as [[[f1 c1] r1]|] eqn:E1; [|discriminate].
  rewrite (loop_up_mono _ _ _ _ _ E1 k' Hk).
  destruct (loop_down k _ _ _) as [[[f2 c2] r2]|] eqn:E2; [|discriminate].
  rewrite (loop_down_mono _ _ _ _ _ E2 k' Hk). assumption.
Qed.
Lemma balance_index_terminates conv n A i : exists k x, balance_index k conv n A i = Some x.
Proof.
  unfold balance_index. pose proof (offrow_nonneg n A i) as Hr0. pose proof (offcol_nonneg n A i) as Hc0.
  rewrite !Rabs_pos_eq by assumption.
  destruct (Rleb_spec (offrow n A i) 1e-320); [exists 0%nat; eexists; reflexivity|].
  destruct (Rleb_spec (offcol n A i) 1e-320); [exists 0%nat; eexists; reflexivity|]. cbn [orb].
  assert (Hc : 0 < sqrt (offcol n A i)) by (apply sqrt_lt_R0; lra).
  assert (Hr : 0 < sqrt (offrow n A i)) by (apply sqrt_lt_R0; lra).
  destruct (loop_up_terminates 1 _ _ Hc Hr) as (k1 & [[f1 c1] r1] & E1).
  destruct (loop_up_inv _ _ _ _ _ _ _ Hc Hr pow2_1 E1) as (P1 & C1 & R1 & B1 & _).
  pose proof (pow2_pos f1 P1) as Hf1. unfold Rdiv in C1, R1. rewrite Rinv_1, Rmult_1_r in C1, R1.
  assert (0 < c1) by (rewrite C1; apply Rmult_lt_0_compat; lra).
  assert (0 < r1) by (rewrite R1; apply Rmult_lt_0_compat; [lra|apply Rinv_0_lt_compat; lra]).
  destruct (loop_down_terminates f1 c1 r1 H H0) as (k2 & [[f2 c2] r2] & E2).
  exists (max k1 k2). rewrite (loop_up_mono _ _ _ _ _ E1) by lia. rewrite (loop_down_mono _ _ _ _ _ E2) by lia.
  destruct (Rltb _ _); eauto.
Qed.

(** ** sweeps *)
Lemma sweep_mono k conv n : forall is A x, balance_sweep k conv n A is = Some x ->
  forall k', (k <= k')%nat -> balance_sweep k' conv n A is = Some x.
Proof.
  induction is as [|i is IH]; intros A x H k' Hk; cbn in *; [assumption|].
  destruct (balance_index k conv n A i) as [[ch A1]|] eqn:E1; [|discriminate].
  rewrite (balance_index_mono _ _ _ _ _ _ E1 k' Hk).
  destruct (balance_sweep k conv n A1 is) as [[ch' A2]|] eqn:E2; [|discriminate].
  rewrite (IH _ _ E2 k' Hk). assumption.
Qed.
Lemma sweep_terminates conv n : forall is A, exists k x, balance_sweep k conv n A is = Some x.
Proof.
  induction is as [|i is IH]; intros A; cbn.
  - exists 0%nat. eauto.
  - destruct (balance_index_terminates conv n A i) as (k1 & [ch A1] & E1).
    destruct (IH A1) as (k2 & [ch' A2] & E2). exists (max k1 k2).
    rewrite (balance_index_mono _ _ _ _ _ _ E1) by lia. rewrite (sweep_mono _ _ _ _ _ _ E2) by lia. eauto.
Qed.

(** ** the norm of the off-diagonal part *)
Definition offnorm (n : nat) (A : mat) : R := sumn n (fun i => offrow n A i).

Lemma sumn_swap n : forall m f, sumn m (fun a => sumn n (fun b => f a b)) = sumn n (fun b => sumn m (fun a => f a b)).
Proof.
  induction m as [|m IH]; intros f; cbn; [now rewrite sumn_0|]. rewrite IH. now rewrite sumn_plus.
Qed.

Definition restnorm (n : nat) (A : mat) (i : nat) : R :=
  sumn n (fun a => sumn n (fun b => if Nat.eqb b a || Nat.eqb a i || Nat.eqb b i then 0 else Rabs (A a b) ^ 2)).

Lemma offnorm_split n A i : (i < n)%nat -> offnorm n A = offrow n A i + offcol n A i + restnorm n A i.
Proof.
  intros Hi. unfold offnorm, restnorm.
  transitivity (sumn n (fun a => (if Nat.eqb a i then offrow n A a else 0) +
     (if Nat.eqb a i then 0 else Rabs (A a i) ^ 2) +
     sumn n (fun b => if Nat.eqb b a || Nat.eqb a i || Nat.eqb b i then 0 else Rabs (A a b) ^ 2))).
  - apply sumn_ext. intros a Ha. destruct (Nat.eqb_spec a i) as [->|Hai].
    + rewrite (sumn_ext n _ (fun _ => 0)); [rewrite sumn_0; ring|]. intros b _. now rewrite orb_true_r.
    + unfold offrow.
      rewrite (sumn_ext n (fun j => if Nat.eqb j a then 0 else Rabs (A a j) ^ 2)
        (fun b => (if Nat.eqb b i then Rabs (A a b) ^ 2 else 0) +
                  (if Nat.eqb b a || false || Nat.eqb b i then 0 else Rabs (A a b) ^ 2))).
      * rewrite sumn_plus, (sumn_delta n (fun b => Rabs (A a b) ^ 2) i Hi). ring.
      * intros b Hb. destruct (Nat.eqb_spec b a), (Nat.eqb_spec b i); cbn [orb]; subst; try congruence; ring.
  - rewrite !sumn_plus. rewrite (sumn_delta n (fun a => offrow n A a) i Hi). reflexivity.
Qed.

Lemma rescale_row_other A i f a b : a <> i -> b <> i -> rescale A i f a b = A a b.
Proof.
  intros Ha Hb. unfold rescale, scale_row, scale_col.
  destruct (Nat.eqb_spec a i); [contradiction|]. destruct (Nat.eqb_spec b i); [contradiction|]. reflexivity.
Qed.
Lemma rescale_col A i f a : a <> i -> rescale A i f a i = A a i * f.
Proof. intros Ha. unfold rescale, scale_row, scale_col. destruct (Nat.eqb_spec a i); [contradiction|]. now rewrite Nat.eqb_refl. Qed.
Lemma rescale_row A i f b : b <> i -> rescale A i f i b = A i b / f.
Proof. intros Hb. unfold rescale, scale_row, scale_col. rewrite Nat.eqb_refl. destruct (Nat.eqb_spec b i); [contradiction|reflexivity]. Qed.

Lemma Rabs_sq x : Rabs x ^ 2 = x ^ 2.
Proof. rewrite RPow_abs. apply Rabs_pos_eq. apply pow2_ge_0. Qed.

Lemma offcol_rescale n A i f : 0 < f -> offcol n (rescale A i f) i = offcol n A i * f ^ 2.
Proof.
  intros Hf. unfold offcol. rewrite Rmult_comm, <- sumn_scal. apply sumn_ext. intros j _.
  destruct (Nat.eqb_spec j i); [ring|]. rewrite rescale_col by assumption. rewrite !Rabs_sq. ring.
Qed.
Lemma offrow_rescale n A i f : 0 < f -> offrow n (rescale A i f) i = offrow n A i / f ^ 2.
Proof.
  intros Hf. unfold offrow, Rdiv. rewrite Rmult_comm, <- sumn_scal. apply sumn_ext. intros j _.
  destruct (Nat.eqb_spec j i); [ring|]. rewrite rescale_row by assumption. rewrite !Rabs_sq. field. lra.
Qed.
Lemma restnorm_rescale n A i f : restnorm n (rescale A i f) i = restnorm n A i.
Proof.
  apply sumn_ext. intros a _. apply sumn_ext. intros b _.
  destruct (Nat.eqb_spec b a), (Nat.eqb_spec a i), (Nat.eqb_spec b i); cbn [orb]; try reflexivity.
  now rewrite rescale_row_other.
Qed.

Lemma offnorm_nonneg n A : 0 <= offnorm n A.
Proof. apply sumn_nonneg. intros. apply offrow_nonneg. Qed.

Lemma index_decrease k conv n A i ch B : conv < 1 -> (i < n)%nat -> balance_index k conv n A i = Some (ch, B) ->
  offnorm n B <= offnorm n A - (if ch then (1 - conv) * 2e-320 else 0).
Proof.
  intros Hc Hi H. destruct (balance_index_inv _ _ _ _ _ _ _ H) as [(_ & -> & ->)|(Hn & f & Pf & _ & _ & _ & [(-> & -> & Hs)|(-> & -> & _)])];
    try lra.
  pose proof (pow2_pos f Pf) as Hf.
  rewrite (offnorm_split n (rescale A i f) i Hi), (offnorm_split n A i Hi), restnorm_rescale, offcol_rescale, offrow_rescale by assumption.
  assert (1e-320 < offrow n A i) by (apply Rnot_le_lt; intros ?; apply Hn; now left).
  assert (1e-320 < offcol n A i) by (apply Rnot_le_lt; intros ?; apply Hn; now right).
  assert ((1 - conv) * 2e-320 <= (1 - conv) * (offcol n A i + offrow n A i)) by (apply Rmult_le_compat_l; lra).
  lra.
Qed.

Lemma sweep_decrease k conv n : conv < 1 -> forall is A ch B, (forall i, In i is -> (i < n)%nat) ->
  balance_sweep k conv n A is = Some (ch, B) ->
  offnorm n B <= offnorm n A - (if ch then (1 - conv) * 2e-320 else 0).
Proof.
  intros Hc. assert (0 < (1 - conv) * 2e-320) by (apply Rmult_lt_0_compat; lra).
  induction is as [|i is IH]; intros A ch B Hi H'; cbn in H'.
  - injection H' as <- <-. lra.
  - destruct (balance_index k conv n A i) as [[ch1 A1]|] eqn:E1; [|discriminate].
    destruct (balance_sweep k conv n A1 is) as [[ch2 A2]|] eqn:E2; [|discriminate]. injection H' as <- <-.
    pose proof (index_decrease _ _ _ _ _ _ _ Hc (Hi i (or_introl eq_refl)) E1).
    pose proof (IH _ _ _ (fun j Hj => Hi j (or_intror Hj)) E2).
    destruct ch1, ch2; cbn [orb]; lra.
Qed.

Lemma loop_mono o k conv n : forall A B, balance_loop o k conv n A = Some B ->
  forall o' k', (o <= o')%nat -> (k <= k')%nat -> balance_loop o' k' conv n A = Some B.
Proof.
  induction o as [|o IH]; intros A B H o' k' Ho Hk; [discriminate|]. destruct o' as [|o']; [lia|]. cbn in *.
  destruct (balance_sweep k conv n A (seq 0 n)) as [[ch A1]|] eqn:E1; [|discriminate].
  rewrite (sweep_mono _ _ _ _ _ _ E1 k' Hk). destruct ch; [|assumption]. apply (IH _ _ H); lia.
Qed.

Theorem balance_terminates conv n A : conv < 1 ->
  exists N B, forall fuel, (N <= fuel)%nat -> balance fuel conv n A = Some B.
Proof.
  intros Hc. set (d := (1 - conv) * 2e-320). assert (Hd : 0 < d) by (apply Rmult_lt_0_compat; lra).
  assert (G : forall K A, offnorm n A < INR K * d -> exists o k B, balance_loop o k conv n A = Some B).
  { induction K as [|K IH]; intros A0 HA.
    - pose proof (offnorm_nonneg n A0). cbn in HA. lra.
    - destruct (sweep_terminates conv n (seq 0 n) A0) as (k1 & [ch A1] & E1).
      destruct ch.
      + pose proof (sweep_decrease k1 conv n Hc (seq 0 n) A0 true A1 ltac:(intros i Hi; apply in_seq in Hi; lia) E1) as D. cbv iota in D. fold d in D.
        rewrite S_INR in HA. destruct (IH A1 ltac:(lra)) as (o & k2 & B & E2).
        exists (S o), (max k1 k2), B. cbn. rewrite (sweep_mono _ _ _ _ _ _ E1) by lia.
        apply (loop_mono _ _ _ _ _ _ E2); lia.
      + exists 1%nat, k1, A1. cbn. rewrite E1. reflexivity. }
  destruct (archimed (offnorm n A / d)) as [Ha _].
  set (z := up (offnorm n A / d)) in *.
  destruct (G (Z.to_nat z) A) as (o & k & B & E).
  { assert (0 <= offnorm n A / d) by (apply Rmult_le_pos; [apply offnorm_nonneg|left; now apply Rinv_0_lt_compat]).
    assert (0 < IZR z) by lra. apply lt_IZR in H0. rewrite INR_IZR_INZ, Z2Nat.id by lia.
    apply Rmult_lt_reg_r with (/ d); [now apply Rinv_0_lt_compat|]. rewrite Rmult_assoc, Rinv_r, Rmult_1_r by lra. exact Ha. }
  exists (max o k), B. intros fuel Hf. unfold balance. apply (loop_mono _ _ _ _ _ _ E); lia.
Qed.

(** ** similarity by powers of two *)
Definition dsim (A B : mat) : Prop :=
  exists z : nat -> Z, forall a b, B a b = A a b * powerRZ 2 (z b) / powerRZ 2 (z a).
Lemma dsim_refl A : dsim A A.
Proof. exists (fun _ => 0%Z). intros. cbn. field. Qed.
Lemma dsim_trans A B C : dsim A B -> dsim B C -> dsim A C.
Proof.
  intros (z & E) (w & E'). exists (fun i => (z i + w i)%Z). intros a b. rewrite E', E, !powerRZ_add by lra.
  pose proof (powerRZ_lt 2 (z a) ltac:(lra)). pose proof (powerRZ_lt 2 (w a) ltac:(lra)). field. lra.
Qed.
Lemma dsim_rescale A i f : pow2 f -> dsim A (rescale A i f).
Proof.
  intros [z ->]. pose proof (powerRZ_lt 2 z ltac:(lra)). exists (fun j => if Nat.eqb j i then z else 0%Z).
  intros a b. unfold rescale, scale_row, scale_col.
  destruct (Nat.eqb a i), (Nat.eqb b i); change (powerRZ 2 0) with 1; field; lra.
Qed.
Lemma index_dsim k conv n A i ch B : balance_index k conv n A i = Some (ch, B) -> dsim A B.
Proof.
  intros H. destruct (balance_index_inv _ _ _ _ _ _ _ H) as [(_ & _ & ->)|(Hn & f & Pf & _ & _ & _ & [(_ & -> & _)|(_ & -> & _)])];
    try apply dsim_refl. now apply dsim_rescale.
Qed.
Lemma sweep_dsim k conv n : forall is A ch B, balance_sweep k conv n A is = Some (ch, B) -> dsim A B.
Proof.
  induction is as [|i is IH]; intros A ch B H; cbn in H.
  - injection H as _ <-. apply dsim_refl.
  - destruct (balance_index k conv n A i) as [[ch1 A1]|] eqn:E1; [|discriminate].
    destruct (balance_sweep k conv n A1 is) as [[ch2 A2]|] eqn:E2; [|discriminate]. injection H as _ <-.
    eapply dsim_trans; [exact (index_dsim _ _ _ _ _ _ _ E1)|exact (IH _ _ _ E2)].
Qed.
Lemma loop_dsim k conv n : forall o A B, balance_loop o k conv n A = Some B -> dsim A B.
Proof.
  induction o as [|o IH]; intros A B H; [discriminate|]. cbn in H.
  destruct (balance_sweep k conv n A (seq 0 n)) as [[ch A1]|] eqn:E1; [|discriminate].
  pose proof (sweep_dsim _ _ _ _ _ _ _ E1). destruct ch.
  - eapply dsim_trans; [eassumption|now apply IH].
  - injection H as <-. assumption.
Qed.
Theorem balance_dsim fuel conv n A B : balance fuel conv n A = Some B -> dsim A B.
Proof. apply loop_dsim. Qed.

(** ** the stopping condition *)
Lemma index_unchanged k conv n A i B : balance_index k conv n A i = Some (false, B) -> B = A.
Proof.
  intros H. destruct (balance_index_inv _ _ _ _ _ _ _ H) as [(_ & _ & ->)|(Hn & f & Pf & _ & _ & _ & [(H1 & _)|(_ & -> & _)])]; auto.
  discriminate.
Qed.
Lemma sweep_unchanged k conv n : forall is A B, balance_sweep k conv n A is = Some (false, B) ->
  B = A /\ forall i, In i is -> balance_index k conv n A i = Some (false, A).
Proof.
  induction is as [|i is IH]; intros A B H; cbn in H.
  - injection H as <-. split; [reflexivity|intros i []].
  - destruct (balance_index k conv n A i) as [[ch1 A1]|] eqn:E1; [|discriminate].
    destruct (balance_sweep k conv n A1 is) as [[ch2 A2]|] eqn:E2; [|discriminate]. injection H as Hch <-.
    apply orb_false_iff in Hch. destruct Hch as [-> ->]. pose proof (index_unchanged _ _ _ _ _ _ E1) as ->.
    destruct (IH _ _ E2) as [-> H]. split; [reflexivity|]. intros j [<-|Hj]; [assumption|now apply H].
Qed.
Lemma loop_stop k conv n : forall o A B, balance_loop o k conv n A = Some B ->
  balance_sweep k conv n B (seq 0 n) = Some (false, B).
Proof.
  induction o as [|o IH]; intros A B H; [discriminate|]. cbn in H.
  destruct (balance_sweep k conv n A (seq 0 n)) as [[[] A1]|] eqn:E1; [now apply (IH A1)| |discriminate].
  injection H as <-. destruct (sweep_unchanged _ _ _ _ _ _ E1) as [-> _]. assumption.
Qed.

Lemma pow4_z z : powerRZ 2 z ^ 2 = powerRZ 4 z.
Proof.
  replace 4 with (2 * 2) by ring. cbn [pow]. rewrite Rmult_1_r, <- powerRZ_add by lra.
  destruct z as [|p|p]; cbn [Z.add powerRZ].
  - reflexivity.
  - rewrite Rpow_mult_distr, Pos2Nat.inj_add, pow_add. reflexivity.
  - rewrite Rpow_mult_distr, Pos2Nat.inj_add, pow_add. reflexivity.
Qed.

(** a balanced pair cannot be improved by any power of two *)
Lemma balanced_optimal c r f : 0 < c -> 0 < r -> r <= 4 * c -> c <= 4 * r -> pow2 f -> c + r <= c * f ^ 2 + r / f ^ 2.
Proof.
  intros Hc Hr H1 H2 [z ->]. rewrite pow4_z.
  destruct z as [|p|p]; cbn [powerRZ]; [lra| |].
  - set (q := 4 ^ Pos.to_nat p). assert (Hq : 4 <= q).
    { unfold q. pose proof (Pos2Nat.is_pos p). destruct (Pos.to_nat p) as [|m]; [lia|]. cbn.
      assert (1 <= 4 ^ m) by (apply pow_R1_Rle; lra). lra. }
    assert (0 < / q <= / 4) by (split; [apply Rinv_0_lt_compat; lra|apply Rinv_le_contravar; lra]).
    assert (E : c * q + r / q - (c + r) = (c - r * / q) * (q - 1)) by (field; lra).
    assert (0 <= (c - r * / q) * (q - 1)) by (apply Rmult_le_pos; nra). lra.
  - set (q := 4 ^ Pos.to_nat p). assert (Hq : 4 <= q).
    { unfold q. pose proof (Pos2Nat.is_pos p). destruct (Pos.to_nat p) as [|m]; [lia|]. cbn.
      assert (1 <= 4 ^ m) by (apply pow_R1_Rle; lra). lra. }
    assert (0 < / q <= / 4) by (split; [apply Rinv_0_lt_compat; lra|apply Rinv_le_contravar; lra]).
    assert (E : c * / q + r / / q - (c + r) = (r - c * / q) * (q - 1)) by (field; lra).
    assert (0 <= (r - c * / q) * (q - 1)) by (apply Rmult_le_pos; nra). lra.
Qed.

Lemma optimal_any c r f g : 0 < c -> 0 < r -> pow2 f -> pow2 g ->
  r / f ^ 2 <= 4 * (c * f ^ 2) -> c * f ^ 2 <= 4 * (r / f ^ 2) ->
  c * f ^ 2 + r / f ^ 2 <= c * g ^ 2 + r / g ^ 2.
Proof.
  intros Hc Hr Pf Pg H1 H2. pose proof (pow2_pos f Pf). pose proof (pow2_pos g Pg).
  assert (0 < f ^ 2) by (apply pow_lt; lra).
  assert (0 < c * f ^ 2) by (apply Rmult_lt_0_compat; lra).
  assert (0 < r / f ^ 2) by (apply Rdiv_lt_0_compat; lra).
  pose proof (balanced_optimal (c * f ^ 2) (r / f ^ 2) (g * / f) H4 H5 H1 H2 (pow2_mul _ _ Pg (pow2_inv _ Pf))) as O.
  replace (c * f ^ 2 * (g * / f) ^ 2) with (c * g ^ 2) in O by (field; lra).
  replace (r / f ^ 2 / (g * / f) ^ 2) with (r / g ^ 2) in O by (field; lra). exact O.
Qed.

Theorem balance_stop fuel conv n A B i : balance fuel conv n A = Some B -> (i < n)%nat ->
  negligible n B i \/
  forall g, pow2 g -> conv * (offcol n B i + offrow n B i) <= offcol n B i * g ^ 2 + offrow n B i / g ^ 2.
Proof.
  intros H Hi. apply loop_stop in H. destruct (sweep_unchanged _ _ _ _ _ _ H) as [_ Hs].
  specialize (Hs i ltac:(apply in_seq; lia)).
  destruct (balance_index_inv _ _ _ _ _ _ _ Hs) as [(Hn & _)|(Hn & f & Pf & H1 & H2 & _ & [(D & _)|(_ & _ & H3)])];
    [now left|discriminate|].
  right. intros g Pg.
  assert (1e-320 < offrow n B i) by (apply Rnot_le_lt; intros ?; apply Hn; now left).
  assert (1e-320 < offcol n B i) by (apply Rnot_le_lt; intros ?; apply Hn; now right).
  pose proof (optimal_any (offcol n B i) (offrow n B i) f g ltac:(lra) ltac:(lra) Pf Pg H1 H2). lra.
Qed.

(** ** conv > 1: two by two matrices with both off-diagonal elements never end *)
Definition both_big (A : mat) : Prop := 1e-320 < A 0%nat 1%nat ^ 2 /\ 1e-320 < A 1%nat 0%nat ^ 2.
Lemma off2 A : offrow 2 A 0 = A 0%nat 1%nat ^ 2 /\ offcol 2 A 0 = A 1%nat 0%nat ^ 2 /\
  offrow 2 A 1 = A 1%nat 0%nat ^ 2 /\ offcol 2 A 1 = A 0%nat 1%nat ^ 2.
Proof.
  unfold offrow, offcol. cbn [sumn Nat.eqb]. rewrite !Rabs_sq. repeat split; ring.
Qed.

Lemma scaled_big c r f t : t < c -> t < r -> 0 < t -> pow2 f -> r / f ^ 2 <= 4 * (c * f ^ 2) -> c * f ^ 2 <= 4 * (r / f ^ 2) ->
  t < c * f ^ 2 /\ t < r / f ^ 2.
Proof.
  intros Hc Hr Ht [z ->] H1 H2. rewrite pow4_z in *.
  destruct z as [|p|p]; cbn [powerRZ] in *; [lra| |].
  - set (q := 4 ^ Pos.to_nat p) in *. assert (Hq : 4 <= q).
    { unfold q. pose proof (Pos2Nat.is_pos p). destruct (Pos.to_nat p) as [|m]; [lia|]. cbn.
      assert (1 <= 4 ^ m) by (apply pow_R1_Rle; lra). lra. }
    split; [nra|]. assert (c * q <= 4 * (r / q)) by assumption. assert (4 * t < c * q) by nra. lra.
  - set (q := 4 ^ Pos.to_nat p) in *. assert (Hq : 4 <= q).
    { unfold q. pose proof (Pos2Nat.is_pos p). destruct (Pos.to_nat p) as [|m]; [lia|]. cbn.
      assert (1 <= 4 ^ m) by (apply pow_R1_Rle; lra). lra. }
    replace (r / / q) with (r * q) in * by (field; lra).
    split; [|nra]. assert (4 * t < r * q) by nra. lra.
Qed.

Lemma index_big k conv A i ch B : 1 < conv -> (i < 2)%nat -> both_big A -> balance_index k conv 2 A i = Some (ch, B) ->
  ch = true /\ both_big B.
Proof.
  intros Hc Hi [Ha Hb] H. destruct (off2 A) as (O1 & O2 & O3 & O4).
  assert (Hor : 1e-320 < offrow 2 A i /\ 1e-320 < offcol 2 A i).
  { destruct i as [|[|i]]; [rewrite O1, O2|rewrite O3, O4|lia]; lra. }
  destruct (balance_index_inv _ _ _ _ _ _ _ H) as [([?|?] & _)|(Hn & f & Pf & H1 & H2 & H3 & [(-> & -> & Hs)|(_ & _ & Hs)])].
  - lra.
  - lra.
  - split; [reflexivity|].
    destruct (scaled_big _ _ f 1e-320 (proj2 Hor) (proj1 Hor) ltac:(lra) Pf H1 H2) as [G1 G2].
    pose proof (pow2_pos f Pf) as Hf.
    rewrite <- (offcol_rescale 2 A i f Hf) in G1. rewrite <- (offrow_rescale 2 A i f Hf) in G2.
    destruct (off2 (rescale A i f)) as (P1 & P2 & P3 & P4).
    unfold both_big. destruct i as [|[|i]]; [rewrite P1, P2 in *|rewrite P3, P4 in *|lia]; split; assumption.
  - exfalso. assert (conv * (offcol 2 A i + offrow 2 A i) > 1 * (offcol 2 A i + offrow 2 A i)) by (apply Rmult_gt_compat_r; lra). lra.
Qed.

Theorem balance_diverges conv A fuel : 1 < conv -> both_big A -> balance fuel conv 2 A = None.
Proof.
  intros Hc. unfold balance. generalize fuel at 1 as o. intros o. revert A.
  induction o as [|o IH]; intros A HA; [reflexivity|]. cbn [balance_loop].
  destruct (balance_sweep fuel conv 2 A (seq 0 2)) as [[ch B]|] eqn:E; [|reflexivity].
  cbn [seq balance_sweep] in E.
  destruct (balance_index fuel conv 2 A 0) as [[c1 A1]|] eqn:E1; [|discriminate].
  destruct (index_big fuel conv A 0%nat c1 A1 Hc ltac:(lia) HA E1) as [-> H1].
  destruct (balance_index fuel conv 2 A1 1) as [[c2 A2]|] eqn:E2; [|discriminate].
  destruct (index_big fuel conv A1 1%nat c2 A2 Hc ltac:(lia) H1 E2) as [-> H2].
  injection E as <- <-. now apply IH.
Qed.

Theorem balance_again fuel conv n A B : balance fuel conv n A = Some B -> balance fuel conv n B = Some B.
Proof.
  unfold balance. destruct fuel as [|k]; [discriminate|]. intros H. apply loop_stop in H. cbn [balance_loop]. now rewrite H.
Qed.
