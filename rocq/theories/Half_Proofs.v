(** * Proofs: sums over m whose terms tend to limits stop where the limiting sum stops *)
From Coq Require Import Reals.
From Coquelicot Require Import Coquelicot.
From Coq Require Import List Lia Lra.
From Verif Require Import Base Geo_Spec Scat_Spec Scat_Proofs7 Run_Spec Run_Proofs4 Half_Spec.
Import ListNotations.
Open Scope R_scope.

Lemma close_real a b p : b <> 0 -> rel_close (Fin a) (Fin b) p <-> Rabs (Rabs (a / b) - 1) < p.
Proof.
  intros Hb. unfold rel_close. cbn [xdiv]. destruct (Reqb_spec b 0) as [H|_]; [contradiction|].
  cbn [xabs xsub xneg xadd xltb]. replace (Rabs (a / b) + - (1)) with (Rabs (a / b) - 1) by reflexivity.
  destruct (Rltb_spec (Rabs (Rabs (a / b) - 1)) p); split; intros; [assumption|reflexivity|discriminate|contradiction].
Qed.
Lemma only_one x : largest_at [Fin x] 0.
Proof.
  split; [cbn; lia|]. right. repeat split.
  - intros i Hi. cbn in Hi. replace i with 0%nat by lia. cbn. discriminate.
  - intros i Hi. cbn in Hi. replace i with 0%nat by lia. cbn [nth xabs xltb]. destruct (Rltb_spec (Rabs x) (Rabs x)); [lra|reflexivity].
  - intros i Hi. lia.
Qed.

Section Lim.
  Context (f : nat -> R -> R) (L : nat -> R) (lmax : nat).
  Context (Hf : forall m, (m <= lmax)%nat -> lim0 (f m) (L m)).

  Lemma Rsum_limit l : (forall m, In m l -> (m <= lmax)%nat) -> lim0 (fun k => Rsum (map (fun m => f m k) l)) (Rsum (map L l)).
  Proof.
    induction l as [|m l IH]; intros H; [apply lim0_const|].
    apply lim0_plus; [apply Hf, H; now left|apply IH; intros; apply H; now right].
  Qed.
  Lemma rsum_limit j : (j <= lmax)%nat -> lim0 (fun k => rsum (fun m => f m k) j) (rsum L j).
  Proof.
    intros Hj. apply lim0_plus; [apply Hf; lia|]. apply lim0_mult; [apply lim0_const|]. apply Rsum_limit. intros m Hm. apply in_seq in Hm. lia.
  Qed.
  Lemma change_limit j : (j <= lmax)%nat -> rsum L (j - 1) <> 0 -> lim0 (fun k => change (fun m => f m k) j) (change L j).
  Proof.
    intros Hj H0. unfold change. apply (lim0_comp Rabs); [apply Rcontinuity_abs|]. apply lim0_minus; [|apply lim0_const].
    apply (lim0_comp Rabs); [apply Rcontinuity_abs|]. apply lim0_div; [exact H0|apply rsum_limit; lia|apply rsum_limit; lia].
  Qed.

  (** near enough to zero all comparisons come out as in the limit *)
  Lemma ev_lt (g : R -> R) v a : lim0 g v -> v < a -> at_right 0 (fun k => g k < a).
  Proof. intros H Hv. apply (H (fun t => t < a)). exact (open_lt a v Hv). Qed.
  Lemma ev_gt (g : R -> R) v a : lim0 g v -> a < v -> at_right 0 (fun k => a < g k).
  Proof. intros H Hv. apply (H (fun t => a < t)). exact (open_gt a v Hv). Qed.
  Lemma ev_neq0 (g : R -> R) v : lim0 g v -> v <> 0 -> at_right 0 (fun k => g k <> 0).
  Proof. intros H Hv. apply (H (fun t => t <> 0)). exact (open_neq 0 v Hv). Qed.
  Lemma ev_all n (P : nat -> R -> Prop) : (forall j, (j < n)%nat -> at_right 0 (P j)) -> at_right 0 (fun k => forall j, (j < n)%nat -> P j k).
  Proof.
    induction n as [|n IH]; intros H.
    - apply (filter_imp (fun k => 0 < k)); [intros; lia|apply at_right_pos].
    - assert (A : at_right 0 (fun k => (forall j, (j < n)%nat -> P j k) /\ P n k)) by (apply filter_and; [apply IH; intros; apply H; lia|apply H; lia]).
      revert A. apply filter_imp. intros k [A B] j Hj. destruct (Nat.eq_dec j n) as [->|]; [exact B|apply A; lia].
  Qed.

  Lemma stops_there precision M : settled precision lmax L M ->
    at_right 0 (fun k => (forall g, (forall m, (m <= lmax)%nat -> g m k = Fin (f m k)) -> forall M', stops_at precision lmax g [k] M' -> M' = M)).
  Proof.
    intros [HM [H0 [H1 H2]]].
    assert (E0 : at_right 0 (fun k => forall j, (j < S M)%nat -> rsum (fun m => f m k) j <> 0)).
    { apply ev_all. intros j Hj. apply (ev_neq0 _ (rsum L j)); [apply rsum_limit; lia|apply H0; lia]. }
    assert (E1 : at_right 0 (fun k => forall j, (j < M)%nat -> (0 < j)%nat -> precision <= 0 \/ precision / 10 < change (fun m => f m k) j)).
    { apply ev_all. intros j Hj. destruct (Nat.eq_dec j 0) as [->|Hn]; [apply (filter_imp (fun k => 0 < k)); [intros; lia|apply at_right_pos]|].
      destruct (H1 j ltac:(lia)) as [Hp|Hc]; [apply (filter_imp (fun k => 0 < k)); [auto|apply at_right_pos]|].
      assert (A : at_right 0 (fun k => precision / 10 < change (fun m => f m k) j)) by (apply (ev_gt _ (change L j)); [apply change_limit; [lia|apply H0; lia]|exact Hc]).
      revert A. apply filter_imp. auto. }
    assert (E2 : at_right 0 (fun k => (M < lmax)%nat -> (0 < M)%nat /\ change (fun m => f m k) M < precision / 10)).
    { destruct (Nat.lt_ge_cases M lmax) as [Hlt|Hge]; [|apply (filter_imp (fun k => 0 < k)); [intros; lia|apply at_right_pos]].
      destruct (H2 Hlt) as [P Q]. assert (A : at_right 0 (fun k => change (fun m => f m k) M < precision / 10)) by (apply (ev_lt _ (change L M)); [apply change_limit; [lia|apply H0; lia]|exact Q]).
      revert A. apply filter_imp. auto. }
    generalize (filter_and _ _ E0 (filter_and _ _ E1 E2)). apply filter_imp. intros k [K0 [K1 K2]] g Hg M' [S1 [S2 S3]].
    assert (V : forall j, (j <= lmax)%nat -> nth 0 (map (fun k0 : R => msum (fun m => g m k0) j) [k]) NaN = Fin (rsum (fun m => f m k) j)).
    { intros j Hj. cbn [map nth]. apply msum_fin. intros m Hm. apply Hg. lia. }
    destruct (Nat.lt_trichotomy M' M) as [Hlt|[->|Hgt]]; [exfalso|reflexivity|exfalso].
    - destruct (S3 ltac:(lia)) as [Z|[P [i [Q1 Q2]]]].
      + specialize (Z 0%nat ltac:(cbn; lia)). rewrite (V M') in Z by lia. injection Z as Z. apply (K0 M'); [lia|exact Z].
      + assert (i = 0%nat) by (destruct Q1 as [Q1 _]; cbn in Q1; lia). subst i. rewrite (V M'), (V (M' - 1)%nat) in Q2 by lia.
        apply close_real in Q2; [|apply K0; lia]. assert (Q := K1 M' Hlt P). unfold change in Q. assert (Q0 := Rabs_pos (Rabs (rsum (fun m => f m k) M' / rsum (fun m => f m k) (M' - 1)) - 1)). lra.
    - destruct (K2 ltac:(lia)) as [P Q]. destruct (S2 M Hgt) as [_ N]. apply (N P 0%nat).
      + assert (X := V (M - 1)%nat ltac:(lia)). cbn [map nth] in X. cbn [map]. rewrite X. apply only_one.
      + rewrite (V M), (V (M - 1)%nat) by lia. apply close_real; [apply K0; lia|exact Q].
  Qed.
End Lim.

(** the two ways to measure the change agree on all sums of this kind *)
Lemma settled_k0 precision lmax f M M0 : settled precision lmax f M -> (forall j, (0 < j <= M)%nat -> (change_k0 f j < precision / 10 <-> change f j < precision / 10)) ->
  stops_at_k0 precision lmax (fun m => Fin (f m)) M0 -> M0 = M.
Proof.
  intros [HM [H0 [H1 H2]]] E [S1 [S2 S3]].
  assert (V : forall j, msum (fun m => Fin (f m)) j = Fin (rsum f j)) by (intros j; now apply msum_fin).
  destruct (Nat.lt_trichotomy M0 M) as [Hlt|[->|Hgt]]; [exfalso|reflexivity|exfalso].
  - destruct (S3 ltac:(lia)) as [P Q]. rewrite !V in Q. apply close_real in Q; [|apply H0; lia].
    assert (A : change f M0 < precision / 10) by (apply E; [lia|exact Q]). assert (B := H1 M0 ltac:(lia)). assert (Q0 := Rabs_pos (Rabs (rsum f M0 / rsum f (M0 - 1)) - 1)). unfold change in A, B. lra.
  - destruct (H2 ltac:(lia)) as [P Q]. apply (S2 M ltac:(lia)). rewrite !V. apply close_real; [apply H0; lia|]. apply E; [lia|exact Q].
Qed.
(** no precision asked for: all terms *)
Lemma settled_all precision lmax f : precision <= 0 -> (forall j, (j <= lmax)%nat -> rsum f j <> 0) -> settled precision lmax f lmax.
Proof.
  intros Hp H0. split; [lia|]. split; [exact H0|]. split; [|lia]. intros j Hj. now left.
Qed.
(** terms of one sign: a shrinking relative change of the second kind is at most that of the first, and at least that over one plus that *)
Lemma change_same_sign f j : (0 < j)%nat -> (0 < rsum f (j - 1) <= rsum f j \/ rsum f j <= rsum f (j - 1) < 0) -> change_k0 f j = change f j / (1 + change f j).
Proof.
  intros Hj H. unfold change_k0, change. set (a := rsum f (j - 1)) in *. set (b := rsum f j) in *.
  assert (Q : 1 <= b / a). { destruct H as [[h1 h2]|[h1 h2]].
    - apply (Rmult_le_reg_r a); [lra|]. unfold Rdiv. rewrite Rmult_assoc, Rinv_l by lra. lra.
    - apply (Rmult_le_reg_r (- a)); [lra|]. replace (b / a * - a) with (- b) by (field; lra). lra. }
  assert (E : a / b = / (b / a)) by (field; destruct H; lra). rewrite E, (Rabs_pos_eq (b / a)) by lra.
  assert (P : 0 < / (b / a)) by (apply Rinv_0_lt_compat; lra). assert (P1 : / (b / a) <= 1) by (rewrite <- Rinv_1; apply Rinv_le_contravar; lra).
  rewrite (Rabs_pos_eq (/ (b / a))) by lra. rewrite (Rabs_pos_eq (b / a - 1)) by lra. rewrite Rabs_left1 by lra. field. lra.
Qed.
Lemma near_zero (P : R -> Prop) : at_right 0 (fun k => 0 < k /\ P k) -> exists k1, 0 < k1 /\ forall k, 0 < k < k1 -> P k.
Proof.
  intros [d h]. exists d. split; [apply cond_pos|]. intros k [hk hd]. refine (proj2 (h k _ hk)). change (Rabs (k + - 0) < d). rewrite Ropp_0, Rplus_0_r, Rabs_pos_eq; lra.
Qed.
