(** * Strict signs of the Mie coefficients; bounds of sums over m and over the frequencies *)
From Coq Require Import Reals.
From Coquelicot Require Import Coquelicot.
From Coq Require Import Bool ZArith List Lia Lra.
From Verif Require Import Base Mat_Model Mat_Spec Help_Proofs Bessel_Model Bessel_Spec Scat_Model Scat_Spec Scat_Proofs Scat_Proofs2 Scat_Proofs3 Scat_Proofs4 Scat_Proofs9 Scat_Proofs11
  Trans_Model Trans_Spec Lin_Model RT_Model RT_Spec RT_Spec2 RT_Proofs10 Run_Spec Run_Proofs4 Run_Proofs7 Run_Proofs9 Conv_Spec2.
Import ListNotations.
Open Scope R_scope.

Lemma sharp_contrast s m e u k : sharp s m e u k -> contrast s m e u k.
Proof.
  intros [H|[e1 [u1 [H1 [[-> [A B]]|[-> [A B]]]]]]]; [now left|right|right]; exists e1, u1; (split; [exact H1|]).
  - left. split; [reflexivity|]. split; lra.
  - right. split; [reflexivity|]. split; lra.
Qed.
Section Strict.
  Context (lmax : nat) (r : R) (Hr : 0 < r) (m : material) (e u : R -> R) (Hm : has m e u) (k : R) (Hk : 0 < k).
  Let x := refr e u k * k * r.
  Let Hx : 0 < x.
  Proof. destruct Hm as [_ [P _]]. destruct (P k Hk). unfold x. apply Rmult_lt_0_compat; [apply Rmult_lt_0_compat; [now apply refr_pos|assumption]|assumption]. Qed.
  Lemma with_sign_lt s q c t j : 0 < c -> 0 < s * q -> t = q * ((-1) ^ (j + 1) * c) -> 0 < s * (-1) ^ (j + 1) * t.
  Proof.
    intros Hc Hq ->. replace (s * (-1) ^ (j + 1) * (q * ((-1) ^ (j + 1) * c))) with ((s * q) * c * ((-1) ^ (j + 1) * (-1) ^ (j + 1))) by ring. rewrite m1_sq, Rmult_1_r. now apply Rmult_lt_0_compat.
  Qed.
  Lemma arg_lt e1 u1 e2 u2 : 0 <= e1 k * u1 k -> e1 k * u1 k < e2 k * u2 k -> refr e1 u1 k * k * r < refr e2 u2 k * k * r.
  Proof. intros H0 H. apply Rmult_lt_compat_r; [assumption|]. apply Rmult_lt_compat_r; [assumption|]. apply sqrt_lt_1_alt. lra. Qed.
  Lemma ext_strict s m1 j : sharp s m1 e u k -> (j < lmax)%nat -> 0 < s * (-1) ^ (j + 1) * entry TE (fun ks => mie exact_bessels ks 0 (Z.of_nat lmax) r m1 m) j k.
  Proof.
    intros H Hj. assert (Kx : DK j x < 0) by (now apply nDK). assert (Ix : 0 < DI j x) by (now apply nDI). generalize pi_half. intros HPI.
    destruct H as [[-> ->]|[e1 [u1 [H1 H]]]].
    - destruct (entry_pec 0 lmax r Hr (Nat.le_0_l _) m e u j k Hm ltac:(lia) Hk) as [-> _]. rewrite sgnE. cbn [Nat.add]. set (q := pec_scale _ _ _ _). assert (0 < q) by apply exp_pos.
      apply (with_sign_lt 1 1 (PI * 0.5 * q)); [now apply Rmult_lt_0_compat|lra|ring].
    - destruct (entry_ext 0 lmax r Hr (Nat.le_0_l _) m1 m e1 u1 e u j k H1 Hm ltac:(lia) Hk) as [-> _]. cbn [Nat.add]. unfold ext_val. fold x. rewrite sgnE.
      destruct H1 as [_ [P1 _]]. destruct (P1 k Hk) as [Pe1 Pu1]. destruct Hm as [_ [P _]]. destruct (P k Hk) as [Pe Pu].
      set (y := refr e1 u1 k * k * r) in *. assert (Hy : 0 < y) by (apply Rmult_lt_0_compat; [apply Rmult_lt_0_compat; [now apply refr_pos|assumption]|assumption]).
      assert (Iy : 0 < DI j y) by (now apply nDI). set (q := exp _). assert (Q : 0 < PI * 0.5 * q) by (apply Rmult_lt_0_compat; [assumption|apply exp_pos]).
      assert (B1 : 0 < u k * DI j y - u1 k * DK j x) by (now apply dpos).
      assert (E0 : 0 < e k * u k) by (now apply Rmult_lt_0_compat). assert (E1 : 0 < e1 k * u1 k) by (now apply Rmult_lt_0_compat).
      assert (C : 0 < s * (u k * DI j y - u1 k * DI j x)).
      { destruct H as [[-> [D1 D2]]|[-> [D1 D2]]].
        - assert (D : DI j x < DI j y) by (apply DI_incr; [assumption|apply arg_lt; lra]).
          assert (u1 k * DI j x <= u k * DI j x) by (apply Rmult_le_compat_r; lra). assert (u k * DI j x < u k * DI j y) by (now apply Rmult_lt_compat_l). lra.
        - assert (D : DI j y < DI j x) by (apply DI_incr; [assumption|apply arg_lt; lra]).
          assert (u k * DI j y <= u1 k * DI j y) by (apply Rmult_le_compat_r; lra). assert (u1 k * DI j y < u1 k * DI j x) by (now apply Rmult_lt_compat_l). lra. }
      apply (with_sign_lt s (ratio_ext (u1 k) (u k) (DI j y) (DI j x) (DK j x)) (PI * 0.5 * q)); [assumption| |ring].
      unfold ratio_ext. replace (s * (_ / _)) with ((s * (u k * DI j y - u1 k * DI j x)) / (u k * DI j y - u1 k * DK j x)) by (unfold Rdiv; ring). now apply Rdiv_lt_0_compat.
  Qed.
End Strict.

(** ** sums over m *)
Lemma geo_map q n a : 0 <= q < 1 -> Rsum (map (fun m => q ^ (m - a)) (seq a n)) <= / (1 - q).
Proof.
  intros H. assert (E : Rsum (map (fun m => q ^ (m - a)) (seq a n)) * (1 - q) = 1 - q ^ n).
  { induction n as [|n IH]; [cbn; ring|]. rewrite seq_S, map_app, Rsum_app, Rmult_plus_distr_r, IH. cbn [map]. replace (a + n - a)%nat with n by lia. change (Rsum [q ^ n]) with (q ^ n + 0). cbn [pow]. ring. }
  apply Rmult_le_reg_r with (1 - q); [lra|]. rewrite E, Rinv_l by lra. assert (0 <= q ^ n) by (apply pow_le; lra). lra.
Qed.
Lemma Rsum_map_le (f g : nat -> R) l : (forall j, In j l -> f j <= g j) -> Rsum (map f l) <= Rsum (map g l).
Proof.
  intros H. induction l as [|a l IH]; [right; reflexivity|]. cbn [map].
  change (f a + Rsum (map f l) <= g a + Rsum (map g l)). apply Rplus_le_compat; [apply H; now left|apply IH]. intros j Hj. apply H. now right.
Qed.
Lemma Rsum_map_scal (c : R) (f : nat -> R) l : Rsum (map (fun j => c * f j) l) = c * Rsum (map f l).
Proof.
  induction l as [|a l IH]; [cbn; ring|]. cbn [map]. change (c * f a + Rsum (map (fun j => c * f j) l) = c * (f a + Rsum (map f l))). rewrite IH. ring.
Qed.
Lemma rsum_lower (f : nat -> R) N E : 0 <= E -> (forall m, (m <= N)%nat -> - ((1 / 81) ^ (Nat.max 1 m - 1) * E) <= f m) -> - (4 * E) <= rsum f N.
Proof.
  intros HE H. unfold rsum. assert (H0 := H 0%nat (Nat.le_0_l _)). cbn [Nat.max Nat.sub pow] in H0.
  assert (A : Rsum (map (fun m => (- E) * (1 / 81) ^ (m - 1)) (seq 1 N)) <= Rsum (map f (seq 1 N))).
  { apply Rsum_map_le. intros j Hj. apply in_seq in Hj. assert (Hf := H j ltac:(lia)). replace (Nat.max 1 j) with j in Hf by lia. lra. }
  rewrite Rsum_map_scal in A. assert (G := geo_map (1 / 81) N 1 ltac:(lra)). replace (/ (1 - 1 / 81)) with (81 / 80) in G by field.
  assert (E * Rsum (map (fun m => (1 / 81) ^ (m - 1)) (seq 1 N)) <= E * (81 / 80)) by (apply Rmult_le_compat_l; lra). lra.
Qed.

(** ** sums over the frequencies *)
Lemma sliced_matsubara g0 (g : nat -> R -> R) (h : R -> R) k0 dT nmax i : (1 <= i)%nat -> g0 = h k0 -> (forall n, (1 <= n)%nat /\ (n <= nmax)%nat -> g (n / 50)%nat (dT * INR n) = h (dT * INR n)) ->
  sliced_sum g0 g dT nmax i = matsubara h k0 dT nmax i.
Proof.
  intros Hi -> H. unfold sliced_sum, matsubara. do 3 f_equal. apply map_ext_in. intros j Hj. apply in_seq in Hj.
  replace (INR j * (INR i * dT)) with (dT * INR (i * j)) by (rewrite mult_INR; ring). apply H. split; [nia|]. assert (i * (nmax / i) <= nmax)%nat by (apply Nat.mul_div_le; lia). nia.
Qed.
Lemma matsubara_less (g g' : R -> R) k0 dT n n' i : 0 < dT -> 0 < k0 -> (1 <= i)%nat -> (n <= n')%nat -> (forall k, 0 < k -> g' k <= g k) -> (forall k, 0 < k -> g' k <= 0) -> matsubara g' k0 dT n' i <= matsubara g k0 dT n i.
Proof.
  intros HT H0 Hi Hn H H'. unfold matsubara. assert (Pi : 0 < INR i) by (apply lt_0_INR; lia). assert (PT : 0 < INR i * dT) by (now apply Rmult_lt_0_compat).
  apply Rmult_le_compat_l; [lra|]. assert (D : (n / i <= n' / i)%nat) by (apply Nat.div_le_mono; lia). replace (n' / i)%nat with (n / i + (n' / i - n / i))%nat by lia. rewrite seq_app, map_app.
  assert (P : forall j, (1 <= j)%nat -> 0 < INR j * (INR i * dT)) by (intros j Hj; apply Rmult_lt_0_compat; [apply lt_0_INR; lia|assumption]).
  assert (A : Rsum (map (fun j => g' (INR j * (INR i * dT))) (seq 1 (n / i))) <= Rsum (map (fun j => g (INR j * (INR i * dT))) (seq 1 (n / i)))).
  { apply Rsum_map_le. intros j Hj. apply in_seq in Hj. apply H, P. lia. }
  match goal with |- _ / 2 + Rsum (?a ++ ?b) <= _ => assert (B : Rsum (a ++ b) <= Rsum a) end.
  { apply Rsum_app_nonpos. intros y Hy. apply in_map_iff in Hy. destruct Hy as [j [<- Hj]]. apply in_seq in Hj. apply H', P. lia. }
  specialize (H k0 H0). lra.
Qed.
Lemma matsubara_lower (g : R -> R) (d k0 dT : R) n i : 0 < d -> 0 < dT -> 0 < k0 -> (1 <= i)%nat -> (forall k, 0 < k -> - (4 * exp (- (d * k))) <= g k) ->
  - (INR i * dT * (2 + 4 * (exp (- (d * (INR i * dT))) / (1 - exp (- (d * (INR i * dT))))))) <= matsubara g k0 dT n i.
Proof.
  intros Hd HT H0 Hi H. unfold matsubara. assert (Pi : 0 < INR i) by (apply lt_0_INR; lia). assert (PT : 0 < INR i * dT) by (now apply Rmult_lt_0_compat). set (h := INR i * dT) in *.
  set (r := exp (- (d * h))). assert (DH : 0 < d * h) by (now apply Rmult_lt_0_compat). assert (R1 : 0 < r < 1).
  { split; [apply exp_pos|]. unfold r. rewrite <- exp_0. apply exp_increasing. lra. }
  rewrite Ropp_mult_distr_r. apply Rmult_le_compat_l; [lra|].
  assert (G0 : -4 <= g k0). { assert (X := H k0 H0). assert (exp (- (d * k0)) < 1); [|lra]. rewrite <- exp_0. apply exp_increasing. assert (0 < d * k0) by (now apply Rmult_lt_0_compat). lra. }
  assert (A : Rsum (map (fun j => (- (4 * r)) * r ^ (j - 1)) (seq 1 (n / i))) <= Rsum (map (fun j => g (INR j * h)) (seq 1 (n / i)))).
  { apply Rsum_map_le. intros j Hj. apply in_seq in Hj. assert (PJ : 0 < INR j * h) by (apply Rmult_lt_0_compat; [apply lt_0_INR; lia|assumption]).
    apply Rle_trans with (2 := H _ PJ). right. replace (- (d * (INR j * h))) with (INR j * - (d * h)) by ring.
    assert (E : forall q, exp (INR q * - (d * h)) = r ^ q).
    { induction q as [|q IH]; [rewrite Rmult_0_l; apply exp_0|]. rewrite S_INR. replace ((INR q + 1) * - (d * h)) with (INR q * - (d * h) + - (d * h)) by ring. rewrite exp_plus, IH. fold r. cbn [pow]. ring. }
    rewrite E. replace j with (S (j - 1)) at 2 by lia. cbn [pow]. ring. }
  rewrite Rsum_map_scal in A. assert (G := geo_map r (n / i) 1 ltac:(lra)).
  assert (4 * r * Rsum (map (fun j => r ^ (j - 1)) (seq 1 (n / i))) <= 4 * r * / (1 - r)) by (apply Rmult_le_compat_l; lra).
  unfold Rdiv at 2. fold r. lra.
Qed.
Lemma rsum_less (f g : nat -> R) N N' : (N <= N')%nat -> (forall m, (m <= N)%nat -> f m <= g m) -> (forall m, (m <= N')%nat -> f m <= 0) -> rsum f N' <= rsum g N.
Proof.
  intros HN H H'. unfold rsum. replace N' with (N + (N' - N))%nat by lia. rewrite seq_app, map_app.
  assert (X : Rsum (map f (seq 1 N) ++ map f (seq (1 + N) (N' - N))) <= Rsum (map f (seq 1 N))).
  { apply Rsum_app_nonpos. intros x Hx. apply in_map_iff in Hx. destruct Hx as [j [<- Hj]]. apply in_seq in Hj. apply H'. lia. }
  assert (Y : Rsum (map f (seq 1 N)) <= Rsum (map g (seq 1 N))) by (apply Rsum_map_le; intros j Hj; apply in_seq in Hj; apply H; lia).
  assert (Z := H 0%nat (Nat.le_0_l _)). lra.
Qed.
Lemma matsubara_tail (g : R -> R) (d k0 dT : R) n n' i : 0 < d -> 0 < dT -> (1 <= i)%nat -> (n <= n')%nat -> (forall k, 0 < k -> - (4 * exp (- (d * k))) <= g k) ->
  matsubara g k0 dT n i - 4 * (INR i * dT) * exp (- (d * (INR i * dT))) ^ (n / i + 1) / (1 - exp (- (d * (INR i * dT)))) <= matsubara g k0 dT n' i.
Proof.
  intros Hd HT Hi Hn H. unfold matsubara. assert (Pi : 0 < INR i) by (apply lt_0_INR; lia). assert (PT : 0 < INR i * dT) by (now apply Rmult_lt_0_compat). set (h := INR i * dT) in *.
  set (r := exp (- (d * h))). assert (DH : 0 < d * h) by (now apply Rmult_lt_0_compat). assert (R1 : 0 < r < 1).
  { split; [apply exp_pos|]. unfold r. rewrite <- exp_0. apply exp_increasing. lra. }
  assert (D : (n / i <= n' / i)%nat) by (apply Nat.div_le_mono; lia). replace (n' / i)%nat with (n / i + (n' / i - n / i))%nat by lia. rewrite seq_app, map_app, Rsum_app. set (a := (n / i)%nat) in *. set (b := (n' / i - a)%nat).
  assert (A : Rsum (map (fun j => (- (4 * r ^ (a + 1))) * r ^ (j - (1 + a))) (seq (1 + a) b)) <= Rsum (map (fun j => g (INR j * h)) (seq (1 + a) b))).
  { apply Rsum_map_le. intros j Hj. apply in_seq in Hj. assert (PJ : 0 < INR j * h) by (apply Rmult_lt_0_compat; [apply lt_0_INR; lia|assumption]).
    apply Rle_trans with (2 := H _ PJ). right. replace (- (d * (INR j * h))) with (INR j * - (d * h)) by ring.
    assert (E : forall q, exp (INR q * - (d * h)) = r ^ q).
    { induction q as [|q IH]; [rewrite Rmult_0_l; apply exp_0|]. rewrite S_INR. replace ((INR q + 1) * - (d * h)) with (INR q * - (d * h) + - (d * h)) by ring. rewrite exp_plus, IH. fold r. cbn [pow]. ring. }
    rewrite E. assert (J : r ^ j = r ^ (a + 1) * r ^ (j - (1 + a))) by (rewrite <- pow_add; f_equal; lia). rewrite J. ring. }
  rewrite Rsum_map_scal in A. assert (G := geo_map r b (1 + a) ltac:(lra)). assert (Q : 0 <= r ^ (a + 1)) by (apply pow_le; lra).
  assert (B : 4 * r ^ (a + 1) * Rsum (map (fun j => r ^ (j - (1 + a))) (seq (1 + a) b)) <= 4 * r ^ (a + 1) * / (1 - r)) by (apply Rmult_le_compat_l; lra).
  set (s1 := Rsum (map (fun j => g (INR j * h)) (seq 1 a))) in *. set (s2 := Rsum (map (fun j => g (INR j * h)) (seq (1 + a) b))) in *.
  assert (C : - (4 * r ^ (a + 1) * / (1 - r)) <= s2) by lra. apply (Rmult_le_compat_l h) in C; [|lra]. unfold Rdiv. lra.
Qed.
