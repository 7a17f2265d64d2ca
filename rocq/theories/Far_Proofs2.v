(** * Limits of inequalities and bounds of sums over the frequencies *)
From Coq Require Import Reals.
From Coquelicot Require Import Coquelicot.
From Coq Require Import Bool ZArith List Lia Lra.
From Verif Require Import Base Scat_Proofs7 Scat_Proofs10 Run_Spec Run_Proofs4 Run_Proofs9 Conv_Spec2 Conv_Proofs9.
Import ListNotations.
Open Scope R_scope.

Lemma lim0_le f g a b : (forall k, 0 < k -> f k <= g k) -> lim0 f a -> lim0 g b -> a <= b.
Proof.
  intros H Hf Hg. assert (X : Rbar_le (Finite a) (Finite b)); [|exact X]. apply (filterlim_le (F := at_right 0) f g); [|exact Hf|exact Hg].
  exists (mkposreal 1 Rlt_0_1). intros k _ Hk. now apply H.
Qed.
(** positive numbers between exp of two functions *)
Lemma lim0_between f lo hi d a b : (forall k, 0 < k -> 0 < f k /\ lo k <= ln (f k) <= hi k) -> lim0 f d -> lim0 lo a -> lim0 hi b -> 0 < d /\ a <= ln d <= b.
Proof.
  intros H Hf Ha Hb. assert (E : forall g v, lim0 g v -> lim0 (fun k => exp (g k)) (exp v)) by (intros g v Hg; apply (lim0_comp exp); [apply derivable_continuous_pt, derivable_pt_exp|exact Hg]).
  assert (X1 : forall x y, x <= y -> exp x <= exp y) by (intros x y [h| ->]; [left; now apply exp_increasing|apply Rle_refl]).
  assert (A : exp a <= d). { apply (lim0_le (fun k => exp (lo k)) f); [|now apply E|exact Hf]. intros k Hk. destruct (H k Hk) as [P [Q _]]. rewrite <- (exp_ln (f k)) by exact P. now apply X1. }
  assert (B : d <= exp b). { apply (lim0_le f (fun k => exp (hi k))); [|exact Hf|now apply E]. intros k Hk. destruct (H k Hk) as [P [_ Q]]. rewrite <- (exp_ln (f k)) by exact P. now apply X1. }
  assert (P := exp_pos a). split; [lra|]. assert (Y : forall x y, 0 < x -> x <= y -> ln x <= ln y) by (intros x y hx [h| ->]; [left; now apply ln_increasing|apply Rle_refl]).
  rewrite <- (ln_exp a), <- (ln_exp b). split; apply Y; lra.
Qed.
Lemma lim0_below f d : (forall k, 0 < k -> 1 <= f k) -> lim0 f d -> 1 <= d.
Proof. intros H Hf. exact (lim0_le (fun _ => 1) f 1 d H (lim0_const 1) Hf). Qed.

Lemma sliced_less g0 g0' g g' dT nmax i : 0 < dT -> (1 <= i)%nat -> g0 <= g0' ->
  (forall n, (1 <= n <= nmax)%nat -> g (n / 50)%nat (dT * INR n) <= g' (n / 50)%nat (dT * INR n)) -> sliced_sum g0 g dT nmax i <= sliced_sum g0' g' dT nmax i.
Proof.
  intros HT Hi H0 H. unfold sliced_sum. assert (Pi : 0 < INR i) by (apply lt_0_INR; lia). apply Rmult_le_compat_l; [apply Rmult_le_pos; lra|].
  apply Rplus_le_compat; [lra|]. apply Rsum_map_le. intros j Hj. apply in_seq in Hj.
  assert (i * (nmax / i) <= nmax)%nat by (apply Nat.mul_div_le; lia).
  replace (INR j * (INR i * dT)) with (dT * INR (i * j)) by (rewrite mult_INR; ring). apply H. nia.
Qed.
Lemma sliced_lower g0 (g : nat -> R -> R) (d dT : R) n i : 0 < d -> 0 < dT -> (1 <= i)%nat -> -4 <= g0 -> (forall j, (1 <= j <= n)%nat -> - (4 * exp (- (d * (dT * INR j)))) <= g (j / 50)%nat (dT * INR j)) ->
  let T := INR i * dT in - (T * (2 + 4 * (exp (- (d * T)) / (1 - exp (- (d * T)))))) <= sliced_sum g0 g dT n i.
Proof.
  intros Hd HT Hi H0 H T. assert (Pi : 0 < INR i) by (apply lt_0_INR; lia). assert (PT : 0 < T) by (now apply Rmult_lt_0_compat).
  set (h := fun k => - (4 * exp (- (d * k)))).
  apply Rle_trans with (sliced_sum (-4) (fun _ => h) dT n i); [|apply sliced_less; assumption].
  unfold sliced_sum. fold T. set (r := exp (- (d * T))). assert (DH : 0 < d * T) by (now apply Rmult_lt_0_compat). assert (R1 : 0 < r < 1).
  { split; [apply exp_pos|]. unfold r. rewrite <- exp_0. apply exp_increasing. lra. }
  rewrite Ropp_mult_distr_r. apply Rmult_le_compat_l; [lra|].
  assert (A : Rsum (map (fun j => (- (4 * r)) * r ^ (j - 1)) (seq 1 (n / i))) <= Rsum (map (fun j => h (INR j * T)) (seq 1 (n / i)))).
  { apply Rsum_map_le. intros j Hj. apply in_seq in Hj. right. unfold h. replace (- (d * (INR j * T))) with (INR j * - (d * T)) by ring.
    assert (E : forall q, exp (INR q * - (d * T)) = r ^ q).
    { induction q as [|q IH]; [rewrite Rmult_0_l; apply exp_0|]. rewrite S_INR. replace ((INR q + 1) * - (d * T)) with (INR q * - (d * T) + - (d * T)) by ring. rewrite exp_plus, IH. fold r. cbn [pow]. ring. }
    rewrite E. replace j with (S (j - 1)) at 2 by lia. cbn [pow]. ring. }
  rewrite Rsum_map_scal in A. assert (G := geo_map r (n / i) 1 ltac:(lra)).
  assert (4 * r * Rsum (map (fun j => r ^ (j - 1)) (seq 1 (n / i))) <= 4 * r * / (1 - r)) by (apply Rmult_le_compat_l; lra).
  change (seq 1 (n / i)) with (seq 1 (n / i)%nat) in *. unfold Rdiv at 1. fold r. lra.
Qed.
(** one frequency with a negative contribution *)
Lemma sliced_neg_some g0 g dT nmax i : 0 < dT -> (1 <= i <= nmax)%nat -> g0 <= 0 ->
  (forall n, (1 <= n <= nmax)%nat -> g (n / 50)%nat (dT * INR n) < 0) -> sliced_sum g0 g dT nmax i < 0.
Proof.
  intros HT Hi H0 H. unfold sliced_sum. assert (Pi : 0 < INR i) by (apply lt_0_INR; lia). assert (PT : 0 < INR i * dT) by (now apply Rmult_lt_0_compat).
  assert (Q : (1 <= nmax / i)%nat) by (apply Nat.div_le_lower_bound; lia). replace (nmax / i)%nat with (S (nmax / i - 1))%nat by lia.
  assert (D : (i * (nmax / i) <= nmax)%nat) by (apply Nat.mul_div_le; lia).
  assert (A : forall j, (1 <= j <= nmax / i)%nat -> g (i * j / 50)%nat (INR j * (INR i * dT)) < 0).
  { intros j Hj. replace (INR j * (INR i * dT)) with (dT * INR (i * j)) by (rewrite mult_INR; ring). apply H. nia. }
  assert (S0 : forall l, (forall x, In x l -> x <= 0) -> Rsum l <= 0). { intros l Hl. exact (Rsum_app_nonpos [] l Hl). }
  cbn [seq map]. match goal with |- _ * (_ + Rsum (?a :: ?l)) < 0 => assert (E : Rsum (a :: l) = a + Rsum l) by reflexivity; rewrite E; assert (X : a < 0) by (apply A; lia); assert (Y : Rsum l <= 0) end.
  { apply S0. intros x Hx. apply in_map_iff in Hx. destruct Hx as [j [<- Hj]]. apply in_seq in Hj. left. apply A. lia. }
  match goal with |- ?a * ?b < 0 => assert (b < 0) by lra; nra end.
Qed.
Lemma choose_upto {A : Type} (P : nat -> A -> Prop) (a : A) N : (forall m, (m <= N)%nat -> exists d, P m d) -> exists f, forall m, (m <= N)%nat -> P m (f m).
Proof.
  induction N as [|N IH]; intros H.
  - destruct (H 0%nat (Nat.le_refl _)) as [d Hd]. exists (fun _ => d). intros m Hm. now replace m with 0%nat by lia.
  - destruct IH as [f Hf]; [intros m Hm; apply H; lia|]. destruct (H (S N) (Nat.le_refl _)) as [d Hd].
    exists (fun m => if Nat.eqb m (S N) then d else f m). intros m Hm. destruct (Nat.eqb_spec m (S N)) as [->|Hn]; [exact Hd|apply Hf; lia].
Qed.
