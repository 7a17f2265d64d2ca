(** * Round-trip matrices exist, and are the round-trip operator of the coefficients *)
From Coq Require Import Reals.
From Coquelicot Require Import Coquelicot.
From Coq Require Import Bool ZArith List Lia Lra Sorted.
From Verif Require Import Base Mat_Model Mat_Spec Mat_Proofs Help_Proofs Bessel_Model Bessel_Spec
  Scat_Model Scat_Spec Scat_Proofs Scat_Proofs2 Scat_Proofs6 Scat_Proofs9 Trans_Model Trans_Spec Trans_Props Lin_Model RT_Model RT_Spec RT_Proofs RT_Proofs2.
Import ListNotations.
Open Scope R_scope.

Lemma tidy1 n r k : tidy (xs n r [k]).
Proof. left. cbn [xs map]. constructor; [constructor|constructor]. Qed.
Lemma only k : 0 < k -> forall k', In k' [k] -> 0 < k'.
Proof. intros H k' [<-|[]]. exact H. Qed.
Lemma mie_val m1 m2 e u r lmax k : solid_ok m1 -> has m2 e u -> 0 < r -> 0 < k -> exists A, mie mie_bessels [k] 0 (Z.of_nat lmax) r m1 m2 = Val A.
Proof.
  intros H1 H2 Hr Hk. assert (NE : [k] <> []) by discriminate. destruct H1 as [->|[e1 [u1 H1]]].
  - destruct (actual_cells [k] 0 lmax r (only k Hk) NE (Nat.le_0_l _) Hr e u (proj1 (proj2 H2))) as [iv [kv [B _]]].
    destruct (mie_pec_run mie_bessels [k] 0 (Z.of_nat lmax) r (only k Hk) m2 e u _ _ H2 B) as [c [E _]]. now exists c.
  - destruct (mie_defined [k] 0 lmax r (only k Hk) NE (Nat.le_0_l _) Hr m1 m2 e1 u1 e u H1 H2 (tidy1 _ _ _)) as [c [E _]]. now exists c.
Qed.
Lemma mie_int_val m1 m2 e u r lmax k : solid_ok m2 -> has m1 e u -> 0 < r -> 0 < k -> exists A, mie_internal mie_bessels [k] 0 (Z.of_nat lmax) r m1 m2 = Val A.
Proof.
  intros H1 H2 Hr Hk. assert (NE : [k] <> []) by discriminate. destruct H1 as [->|[e1 [u1 H1]]].
  - destruct (actual_cells [k] 0 lmax r (only k Hk) NE (Nat.le_0_l _) Hr e u (proj1 (proj2 H2))) as [iv [kv [B _]]].
    destruct (mie_pec_int_run mie_bessels [k] 0 (Z.of_nat lmax) r (only k Hk) m1 e u _ _ H2 B) as [c [E _]]. now exists c.
  - destruct (mie_internal_defined [k] 0 lmax r (only k Hk) NE (Nat.le_0_l _) Hr m1 m2 e u e1 u1 H2 H1 (tidy1 _ _ _)) as [c [E _]]. now exists c.
Qed.
Lemma static_solid m : static_sphere m -> solid_ok m.
Proof.
  intros [->|[[e [b H]]|[e [b H]]]]; [now left| |]; right; exists (eps_spec e), (mu_val b); [apply insulator_flags in H|apply drude_flags in H]; tauto.
Qed.

(** coefficients with the scale factors put back *)
Definition same_coefs (n ns : nat) (E E' : roundtrip) : Prop :=
  (forall i, (i < n)%nat -> aTE E i * exp (a2 E i) = aTE E' i * exp (a2 E' i) /\ aTM E i * exp (a2 E i) = aTM E' i * exp (a2 E' i)) /\
  (forall s, (s < ns)%nat -> bTE E s * exp (b2 E s) = bTE E' s * exp (b2 E' s) /\ bTM E s * exp (b2 E s) = bTM E' s * exp (b2 E' s)) /\
  (forall i s, (i < n)%nat -> (s < ns)%nat ->
     V0 E i s * exp (V4 E i s) = V0 E' i s * exp (V4 E' i s) /\ V1 E i s * exp (V4 E i s) = V1 E' i s * exp (V4 E' i s) /\
     V2 E i s * exp (V4 E i s) = V2 E' i s * exp (V4 E' i s) /\ V3 E i s * exp (V4 E i s) = V3 E' i s * exp (V4 E' i s)).

Lemma elements_val mieb c m k A B e u : mieA mieb c [k] = Val A -> mieB mieb c [k] = Val B -> has (c_med c) e u -> 0 < c_L c -> 0 < k ->
  exists E, elements mieb trans_bessels c m [k] = Val E /\ same_coefs (n1 c m) (n2 c m) (E 0%nat) (rt_with mieb c m k).
Proof.
  intros EA EB Hh HL Hk. unfold elements. rewrite EA, EB. cbn [obind]. unfold trans.
  destruct (C44_defined (c_lmax c) (c_lssmax c) m (c_med c) e u (c_L c) [k] (c_ext c) Hh HL ltac:(discriminate) (only k Hk)) as [t [V [E1 [E2 [_ H]]]]].
  rewrite E1. cbn [obind]. rewrite E2. cbn [obind]. eexists. split; [reflexivity|]. unfold rt_with, pack, same_coefs. cbn [aTE aTM a2 bTE bTM b2 V0 V1 V2 V3 V4].
  rewrite exp_0. split; [|split].
  - intros i Hi. unfold entry. rewrite EA. rewrite !Rmult_1_r. split; reflexivity.
  - intros i Hi. unfold entry. rewrite EB. rewrite !Rmult_1_r. split; reflexivity.
  - intros i s Hi Hs. unfold n1, n2, lmin in *. destruct (H i ltac:(lia)) as [_ Hj]. destruct (Hj s ltac:(lia)) as [v [Ev [G _]]].
    unfold vget. rewrite Ev. unfold coefficient. rewrite E1. unfold lmin. rewrite G. rewrite !Rmult_1_r. repeat split; reflexivity.
Qed.

(** ** perfect reflectors: the diagonal of the static blocks grows with the radii *)
Lemma sgn_sq l : sgn l * sgn l = 1.
Proof. unfold sgn. rewrite <- Rpow_mult_distr. replace (-1 * -1) with 1 by ring. apply pow1. Qed.
Lemma sgn_sgn2 a b : sgn2 a b = sgn a * sgn b.
Proof. unfold sgn2, sgn. apply pow_add. Qed.
Lemma nth_map_seq (f : nat -> R) n j : (j < n)%nat -> at_ (map f (seq (0 + 1) (n - 0))) j = f (S j).
Proof.
  intros H. unfold at_. rewrite (nth_indep _ 0 (f 0%nat)) by (rewrite map_length, seq_length; lia). rewrite map_nth, seq_nth by lia. reflexivity.
Qed.
Lemma pec_rows med e b lmax r te tm cm : insulator med e b -> mie_k0 PEC med 0 lmax r = Val (te, tm, cm) ->
  forall j, (j < lmax)%nat -> exists p p', 0 < p /\ 0 < p' /\ at_ te j * exp (at_ cm j) = sgn (S j) * p /\ at_ tm j * exp (at_ cm j) = - sgn (S j) * p'.
Proof.
  intros H E j Hj. destruct (insulator_flags _ _ _ H) as [F1 [F2 [F3 [Hb Hh]]]]. destruct H as [E2 [HP [HN _]]].
  revert E. unfold mie_k0. rewrite F1, F2. rewrite E2, mu_of_0, eps_of_0 by assumption. cbn [obind negb of_res is_pec].
  intros E. injection E as <- <- <-. rewrite !nth_map_seq by exact Hj.
  set (x := exp _). assert (0 < x) by apply exp_pos. exists x, ((INR (S j) + 1) / INR (S j) * x).
  assert (0 < INR (S j)) by (apply lt_0_INR; lia).
  split; [assumption|]. split; [apply Rmult_lt_0_compat; [apply Rdiv_lt_0_compat; lra|assumption]|]. split; ring.
Qed.
Lemma sumn_lt n f g : (0 < n)%nat -> (forall s, (s < n)%nat -> f s < g s) -> sumn n f < sumn n g.
Proof.
  intros Hn H. assert (K : forall k, (k < n)%nat -> sumn (S k) f < sumn (S k) g).
  { induction k as [|k IH]; intros Hk; cbn [sumn]; [specialize (H 0%nat Hk); lra|]. specialize (IH ltac:(lia)). cbn [sumn] in IH. specialize (H (S k) Hk). lra. }
  destruct n as [|n]; [lia|]. apply K. lia.
Qed.
Section Mono.
  Context (c : config) (ra rb : R) (m : Z) (Hra : 0 < ra) (Hrb : 0 < rb) (HL : 0 < c_L c) (al be : nat -> R) (sg : R) (Hsg : sg * sg = 1).
  Context (Hal : forall i, (i < n1 c m)%nat -> exists p, 0 < p /\ al i = sg * sgn (lmin m + i) * p) (Hbe : forall s, (s < n2 c m)%nat -> exists p, 0 < p /\ be s = sg * sgn (lmin m + s) * p).
  Lemma sblock_mono q q' i : 0 < q < q' -> (0 < n2 c m)%nat -> (i < n1 c m)%nat -> sblock c ra rb m q al be i i < sblock c ra rb m q' al be i i.
  Proof.
    intros Hq Hn Hi. unfold sblock. apply sumn_lt; [exact Hn|]. intros s Hs. destruct (Hal i Hi) as [p [Hp ->]]. destruct (Hbe s Hs) as [p' [Hp' ->]].
    assert (V : static_value (trans_k0_ext m (lmin m + i) (lmin m + s)) <> 0) by apply static_value_pos. set (v := static_value _) in *.
    assert (0 < v ^ 2) by nra. set (a := (lmin m + i)%nat) in *. set (d := (lmin m + s)%nat) in *.
    assert (R1 : 0 < ra / c_L c) by now apply Rdiv_lt_0_compat. assert (R2 : 0 < rb / c_L c) by now apply Rdiv_lt_0_compat.
    assert (F : forall t, sgn2 d a * v * v * (sg * sgn a * p) * (sg * sgn d * p') * (t * (ra / c_L c)) ^ (a + a + 1) * (t * (rb / c_L c)) ^ (2 * d + 1) =
       v ^ 2 * p * p' * ((t * (ra / c_L c)) ^ (a + a + 1) * (t * (rb / c_L c)) ^ (2 * d + 1))).
    { intros t. rewrite sgn_sgn2. transitivity ((sg * sg) * (sgn d * sgn d) * (sgn a * sgn a) * (v ^ 2 * p * p' * ((t * (ra / c_L c)) ^ (a + a + 1) * (t * (rb / c_L c)) ^ (2 * d + 1)))); [ring|]. rewrite Hsg, !sgn_sq. ring. }
    rewrite !F. apply Rmult_lt_compat_l; [apply Rmult_lt_0_compat; [apply Rmult_lt_0_compat; assumption|assumption]|].
    assert (X : forall r n, 0 < r -> 0 < (q * r) ^ (n + 1) < (q' * r) ^ (n + 1)).
    { intros r n Hr. assert (0 < q * r) by (apply Rmult_lt_0_compat; lra). assert (q * r < q' * r) by (apply Rmult_lt_compat_r; lra). split; [now apply pow_lt|].
      rewrite Nat.add_1_r. induction n as [|n IH]; [rewrite !pow_1; lra|]. change (q * r * (q * r) ^ S n < q' * r * (q' * r) ^ S n). apply Rmult_gt_0_lt_compat; [now apply pow_lt|lra|lra|exact IH]. }
    destruct (X _ (a + a)%nat R1). destruct (X _ (2 * d)%nat R2). apply Rmult_gt_0_lt_compat; lra.
  Qed.
  Lemma trace_mono q q' : 0 < q < q' -> (0 < n2 c m)%nat -> (0 < n1 c m)%nat -> mtrace (n1 c m) (sblock c ra rb m q al be) < mtrace (n1 c m) (sblock c ra rb m q' al be).
  Proof. intros Hq Hn Hn1. apply sumn_lt; [exact Hn1|]. intros i Hi. now apply sblock_mono. Qed.
End Mono.
