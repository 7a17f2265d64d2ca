(** * Bounds of the sums over m and over the frequencies for spheres that repel each other *)
From Coq Require Import Reals.
From Coquelicot Require Import Coquelicot.
From Coq Require Import Bool ZArith List Lia Lra.
From Verif Require Import Base Geo_Model Geo_Spec Mat_Model Mat_Spec Scat_Model Scat_Spec Scat_Proofs Scat_Proofs4 Trans_Model Lin_Model RT_Model RT_Spec Run_Spec Run_Proofs Run_Proofs4 Run_Proofs7 Run_Proofs9
  Conv_Spec Conv_Spec2 Conv_Proofs8 Conv_Proofs9 Rep_Spec.
Import ListNotations.
Open Scope R_scope.

Lemma reach_height th e u m k ra rb L : reach th e u m k ra rb L = height th e u k ra rb L * rate th e u k ra rb L ^ (2 * lmin m).
Proof. unfold reach, height, Rdiv. ring. Qed.
Lemma rsum_pos (f : nat -> R) M : (forall m, (m <= M)%nat -> 0 < f m) -> 0 < rsum f M.
Proof. intros H. rewrite <- (rsum_zero M). now apply rsum_lt. Qed.
Lemma rsum_le (f g : nat -> R) M : (forall m, (m <= M)%nat -> f m <= g m) -> rsum f M <= rsum g M.
Proof.
  intros H. unfold rsum. assert (H0 := H 0%nat (Nat.le_0_l _)). assert (X : Rsum (map f (seq 1 M)) <= Rsum (map g (seq 1 M))); [|lra].
  apply Rsum_map_le. intros j Hj. apply in_seq in Hj. apply H. lia.
Qed.
Lemma rsum_opp (f : nat -> R) n : rsum (fun j => - f j) n = - rsum f n.
Proof.
  unfold rsum. assert (X : Rsum (map (fun j => - f j) (seq 1 n)) = - Rsum (map f (seq 1 n))); [|rewrite X; ring].
  induction (seq 1 n) as [|a l IH]; [cbn; ring|]. cbn [map]. change (- f a + Rsum (map (fun j => - f j) l) = - (f a + Rsum (map f l))). rewrite IH. ring.
Qed.
Lemma rsum_upper (f : nat -> R) N K q : 0 <= K -> 0 <= q < 1 -> (forall m, (m <= N)%nat -> f m <= K * q ^ (2 * Nat.max 1 m)) -> rsum f N <= 3 * K * (q ^ 2 / (1 - q ^ 2)).
Proof.
  intros HK Hq H. set (p := q ^ 2). assert (P : 0 <= p < 1) by (unfold p; cbn [pow]; split; nra). unfold rsum.
  assert (H0 : f 0%nat <= K * p) by (assert (X := H 0%nat (Nat.le_0_l _)); exact X).
  assert (A : Rsum (map f (seq 1 N)) <= Rsum (map (fun m => (K * p) * p ^ (m - 1)) (seq 1 N))).
  { apply Rsum_map_le. intros j Hj. apply in_seq in Hj. assert (X := H j ltac:(lia)). rewrite pow_mult in X. fold p in X. replace (Nat.max 1 j) with (S (j - 1)) in X by lia. cbn [pow] in X. lra. }
  rewrite Rsum_map_scal in A. assert (G := geo_map p N 1 P). assert (I : 1 <= / (1 - p)) by (rewrite <- Rinv_1 at 1; apply Rinv_le_contravar; lra).
  assert (KP : 0 <= K * p) by (apply Rmult_le_pos; lra).
  assert (B : K * p * Rsum (map (fun m => p ^ (m - 1)) (seq 1 N)) <= K * p * / (1 - p)) by (apply Rmult_le_compat_l; lra).
  assert (D : K * p * 1 <= K * p * / (1 - p)) by (apply Rmult_le_compat_l; lra). unfold Rdiv. replace (3 * K * (p * / (1 - p))) with (3 * (K * p * / (1 - p))) by ring. lra.
Qed.

(** ** sums over the frequencies *)
Lemma matsubara_scal c g k0 dT n i : matsubara (fun k => c * g k) k0 dT n i = c * matsubara g k0 dT n i.
Proof. unfold matsubara. rewrite (Rsum_map_scal c (fun j => g (INR j * (INR i * dT)))). field. Qed.
Lemma matsubara_opp g k0 dT n i : matsubara (fun k => - g k) k0 dT n i = - matsubara g k0 dT n i.
Proof.
  transitivity (matsubara (fun k => (-1) * g k) k0 dT n i); [|rewrite matsubara_scal; ring]. unfold matsubara. do 2 f_equal; [f_equal; ring|]. f_equal. apply map_ext. intros j. ring.
Qed.
Lemma matsubara_more (g g' : R -> R) k0 dT n n' i : 0 < dT -> 0 < k0 -> (1 <= i)%nat -> (n <= n')%nat -> (forall k, 0 < k -> g k <= g' k) -> (forall k, 0 < k -> 0 <= g' k) -> matsubara g k0 dT n i <= matsubara g' k0 dT n' i.
Proof.
  intros HT H0 Hi Hn H H'. assert (X := matsubara_less (fun k => - g k) (fun k => - g' k) k0 dT n n' i HT H0 Hi Hn). rewrite !matsubara_opp in X.
  apply Ropp_le_cancel, X; intros k Hk; [specialize (H k Hk)|specialize (H' k Hk)]; lra.
Qed.
Lemma matsubara_upper (g : R -> R) (C d k0 dT : R) n i : 0 < C -> 0 < d -> 0 < dT -> 0 < k0 -> (1 <= i)%nat -> (forall k, 0 < k -> g k <= C * exp (- (d * k))) ->
  let T := INR i * dT in let r := exp (- (d * T)) in matsubara g k0 dT n i <= C * T * (1 / 2 + r / (1 - r)).
Proof.
  intros HC Hd HT H0 Hi H T r. assert (X := matsubara_lower (fun k => - (4 / C) * g k) d k0 dT n i Hd HT H0 Hi).
  assert (P : 0 < 4 / C) by (apply Rdiv_lt_0_compat; lra).
  assert (Y : forall k, 0 < k -> - (4 * exp (- (d * k))) <= - (4 / C) * g k).
  { intros k Hk. assert (Z := Rmult_le_compat_l (4 / C) _ _ (Rlt_le _ _ P) (H k Hk)). replace (4 / C * (C * exp (- (d * k)))) with (4 * exp (- (d * k))) in Z by (field; lra). lra. }
  specialize (X Y). rewrite matsubara_scal in X. fold T in X. fold r in X.
  assert (W : 4 / C * matsubara g k0 dT n i <= T * (2 + 4 * (r / (1 - r)))) by lra.
  apply Rmult_le_reg_l with (4 / C); [exact P|]. apply Rle_trans with (1 := W). right. replace (4 / C * (C * T * (1 / 2 + r / (1 - r)))) with (4 / C * C * (T * (1 / 2 + r / (1 - r)))) by ring.
  replace (4 / C * C) with 4 by (field; lra). lra.
Qed.
Lemma matsubara_pos g k0 dT n i : 0 < dT -> 0 < k0 -> (1 <= i)%nat -> (forall k, 0 < k -> 0 < g k) -> 0 < matsubara g k0 dT n i.
Proof.
  intros HT H0 Hi H. unfold matsubara. assert (Pi : 0 < INR i) by (apply lt_0_INR; lia). assert (PT : 0 < INR i * dT) by (now apply Rmult_lt_0_compat). apply Rmult_lt_0_compat; [exact PT|].
  assert (X : 0 <= Rsum (map (fun j => g (INR j * (INR i * dT))) (seq 1 (n / i)))).
  { apply Rsum_nonneg. intros y Hy. apply in_map_iff in Hy. destruct Hy as [j [<- Hj]]. apply in_seq in Hj. left. apply H, Rmult_lt_0_compat; [apply lt_0_INR; lia|exact PT]. }
  specialize (H k0 H0). lra.
Qed.

(** ** with positive terms and a precision that is not positive the sum over m is never cut short *)
Lemma no_stop_pos precision lmax (g : nat -> R -> R) f ks M : precision <= 0 -> ks <> [] ->
  (forall m k, (m <= lmax)%nat -> In k ks -> f m k = Fin (g m k) /\ 0 < g m k) -> stops_at precision lmax f ks M -> M = lmax.
Proof.
  intros Hp Hne H [HM [_ HS]]. destruct (Nat.eq_dec M lmax) as [|Hn]; [assumption|exfalso].
  destruct (HS ltac:(lia)) as [Z|[_ [i [_ C]]]].
  - destruct ks as [|k ks]; [now apply Hne|]. specialize (Z 0%nat ltac:(cbn; lia)). cbn [map nth] in Z.
    rewrite (msum_fin _ (fun m => g m k)) in Z; [|intros m Hm; apply H; [lia|now left]].
    injection Z as Z. assert (X : 0 < rsum (fun m => g m k) M) by (apply rsum_pos; intros m Hm; apply H; [lia|now left]). lra.
  - refine (never_close _ _ _ _ C). lra.
Qed.

(** ** centres more than two sums of radii apart *)
Section Two.
  Context (e u : R -> R) (k ra rb L : R) (He : 0 < e k) (Hu : u k = 1) (Hk : 0 < k) (Ha : 0 < ra) (Hb : 0 < rb) (HL : 2 * (ra + rb) < L).
  Let x := way e k L.
  Let a := ra / L.
  Let b := rb / L.
  Lemma two_base : 0 < x /\ 0 < a /\ 0 < b /\ a + b < 1 / 2 /\ size e u k ra = a * x /\ size e u k rb = b * x /\ (ra + rb) / L = a + b.
  Proof.
    assert (SP := sqrt_lt_R0 _ He). assert (LP : 0 < L) by lra. assert (IL : 0 < / L) by now apply Rinv_0_lt_compat.
    assert (A : 0 < a) by (now apply Rmult_lt_0_compat). assert (B : 0 < b) by (now apply Rmult_lt_0_compat).
    split; [unfold x, way; apply Rmult_lt_0_compat; [now apply Rmult_lt_0_compat|assumption]|]. do 2 (split; [assumption|]).
    split; [apply (Rmult_lt_reg_r L); [assumption|]; replace ((a + b) * L) with (ra + rb) by (unfold a, b; field; lra); lra|].
    split; [unfold size, refr, a, x, way; rewrite Hu, Rmult_1_r; field; lra|]. split; [unfold size, refr, b, x, way; rewrite Hu, Rmult_1_r; field; lra|]. unfold a, b. field. lra.
  Qed.
  Lemma two_rate : rate (1 / 2) e u k ra rb L = (2 * ((ra + rb) / L)) ^ 2 /\ 0 < rate (1 / 2) e u k ra rb L < 1.
  Proof.
    destruct two_base as [X [A [B [AB [E1 [E2 E3]]]]]]. assert (E : rate (1 / 2) e u k ra rb L = (2 * ((ra + rb) / L)) ^ 2).
    { unfold rate. fold x. rewrite E1, E2, E3. f_equal. field. lra. }
    split; [exact E|]. rewrite E, E3. cbn [pow]. split; nra.
  Qed.
  Lemma two_total : 0 < decay ra rb L /\ 0 < factor ra rb L /\ total (1 / 2) e u k ra rb L <= factor ra rb L * exp (- (decay ra rb L * x)).
  Proof.
    destruct two_base as [X [A [B [AB [E1 [E2 E3]]]]]]. destruct two_rate as [Eq [q0 q1]].
    set (d := decay ra rb L). assert (D : d = (1 - 2 * (a + b)) / 2) by (unfold d, decay; now rewrite E3). assert (D0 : 0 < d < 1 / 2) by lra.
    set (c := 4 / d). assert (C1 : 1 <= c). { unfold c. apply (Rmult_le_reg_r d); [lra|]. unfold Rdiv. rewrite Rmult_assoc, Rinv_l; lra. }
    assert (KF : 0 < kfac (1 / 2) (a * x) (b * x) x <= 16 * c ^ 4 * exp (- (d * x))).
    { unfold kfac. assert (T1 : 0 < 1 + x <= c * exp (x / c)) by (destruct (lin_exp c x); lra). set (y := c * exp (x / c)) in *.
      assert (AX : 0 < a * x) by (now apply Rmult_lt_0_compat). assert (BX : 0 < b * x) by (now apply Rmult_lt_0_compat). assert (AX1 : a * x <= x) by nra. assert (BX1 : b * x <= x) by nra.
      set (w := exp (2 * (a * x + b * x) - 2 * ((1 - 1 / 2) * x))). assert (WP : 0 < w) by apply exp_pos.
      assert (W : w = exp (- (d * x)) * exp (- (d * x))). { unfold w. rewrite <- exp_plus. f_equal. rewrite D. lra. }
      assert (Y4 : y ^ 4 * exp (- (d * x)) = c ^ 4).
      { unfold y. rewrite Rpow_mult_distr. assert (exp (x / c) ^ 4 * exp (- (d * x)) = 1); [|rewrite Rmult_assoc; rewrite H; ring].
        cbn [pow]. rewrite Rmult_1_r, <- !exp_plus. replace (x / c + (x / c + (x / c + x / c)) + - (d * x)) with 0; [apply exp_0|]. unfold c. field. lra. }
      split; [repeat apply Rmult_lt_0_compat; try lra; apply pow_lt; lra|].
      assert (P : 4 * (1 + x) ^ 2 * (2 + a * x) * (2 + b * x) <= 16 * y ^ 4).
      { assert (S1 : (1 + x) ^ 2 <= y ^ 2) by (apply pow_incr; lra). assert (S2 : (2 + a * x) * (2 + b * x) <= (2 * y) * (2 * y)) by (apply Rmult_le_compat; lra).
        assert (S0 : 0 <= (1 + x) ^ 2) by (apply pow_le; lra). assert (S3 : 0 <= (2 + a * x) * (2 + b * x)) by (apply Rmult_le_pos; lra).
        assert (S4 := Rmult_le_compat _ _ _ _ S0 S3 S1 S2). replace (16 * y ^ 4) with (4 * (y ^ 2 * (2 * y * (2 * y)))) by ring. lra. }
      rewrite W. apply Rle_trans with (16 * y ^ 4 * (exp (- (d * x)) * exp (- (d * x)))).
      - apply Rmult_le_compat_r; [|exact P]. left. apply Rmult_lt_0_compat; apply exp_pos.
      - right. replace (16 * y ^ 4 * (exp (- (d * x)) * exp (- (d * x)))) with (16 * (y ^ 4 * exp (- (d * x))) * exp (- (d * x))) by ring. rewrite Y4. ring. }
    unfold total, height, factor. cbv zeta. fold d. fold c. fold x. rewrite E1, E2. set (q := (2 * ((ra + rb) / L)) ^ 2). rewrite Eq in q0, q1 |- *. fold q in q0, q1 |- *.
    replace (a * x / x) with a by (field; lra). replace (b * x / x) with b by (field; lra). fold a. fold b.
    assert (Q1 : 0 < / (1 - q) ^ 2) by (apply Rinv_0_lt_compat, pow_lt; lra). assert (Q2 : 0 < q ^ 2 / (1 - q ^ 2)) by (apply Rdiv_lt_0_compat; [apply pow_lt; lra|cbn [pow]; nra]).
    assert (C4 : 0 < c ^ 4) by (apply pow_lt; lra).
    split; [lra|]. set (w := q ^ 2 / (1 - q ^ 2)) in *. set (v := / (1 - q) ^ 2) in *. clearbody c w a b. unfold Rdiv. fold v. clearbody v.
    split; [repeat apply Rmult_lt_0_compat; lra|].
    assert (F : 0 <= 12 * a * b * v * w) by (left; repeat apply Rmult_lt_0_compat; lra).
    assert (Z := Rmult_le_compat_l _ _ _ F (proj2 KF)). lra.
  Qed.
End Two.
