(** * Matsubara sums, distances, and the force between spheres *)
From Coq Require Import Reals.
From Coquelicot Require Import Coquelicot.
From Coq Require Import Bool ZArith List Lia Lra Psatz.
From Verif Require Import Base Mat_Model Mat_Spec Bessel_Model Scat_Model Scat_Spec Scat_Proofs Scat_Proofs2 PFA_Model PFA_Spec PFA_Proofs PFA_Proofs2.
Import ListNotations.
Open Scope R_scope.

Lemma omapl_val {A} (f : A -> out R) (g : A -> R) l : (forall a, In a l -> f a = Val (g a)) -> omapl f l = Val (map g l).
Proof.
  induction l as [|a l IH]; intros H; [reflexivity|]. cbn [omapl]. rewrite (H a (or_introl eq_refl)). cbn [obind].
  rewrite IH by (intros; apply H; now right). reflexivity.
Qed.
Lemma weighted_val f I T k0 ks s : (forall k, In k (k0 :: ks) -> f k = Val (I k)) ->
  weighted f T (k0 :: ks) s = Val ((if s then 0 else 0.5 * (T * I k0)) :: map (fun k => T * I k) ks).
Proof.
  intros H. unfold weighted. rewrite (omapl_val f I) by assumption. cbn [obind map set0]. rewrite map_map. destruct s; reflexivity.
Qed.
Lemma asum_terms (I : R -> R) T n : asum (map (fun k => T * I k) (map (fun i => INR i * T) (seq 1 n))) = T * sum_f_R0 (fun i => if Nat.eqb i 0 then 0 else I (INR i * T)) n.
Proof.
  rewrite map_map. induction n as [|n IH]; [unfold asum; cbn; ring|].
  assert (A : forall a b, asum (a ++ b) = asum a + asum b) by (intros a b; unfold asum; induction a as [|x a IHa]; cbn [app fold_right]; lra).
  rewrite seq_S, map_app, A, IH, tech5. unfold asum. cbn [map fold_right Nat.add Nat.eqb]. ring.
Qed.
Lemma primed_val f I k0 T n s : (forall k, In k (matsubaras k0 T n) -> f k = Val (I k)) ->
  (let! v := weighted f T (matsubaras k0 T n) s in Val (asum v)) = Val (primed_sum (if s then 0 else / 2) I k0 T (Z.to_nat n)).
Proof.
  intros H. unfold matsubaras in *. rewrite (weighted_val f I) by assumption. cbn [obind]. f_equal. change (asum (?a :: ?l)) with (a + asum l).
  unfold asum at 1. cbn [fold_right]. change (fold_right Rplus 0 ?l) with (asum l). rewrite asum_terms. unfold primed_sum. destruct s; lra.
Qed.
Lemma terms_val c T L : T * L <> 0 -> terms c T L = Val (trunc (c / (T * L))).
Proof. intros H. unfold terms. now rewrite mdiv_val. Qed.

(** the omitted terms *)
Lemma trunc_gt x : 0 <= x -> x < IZR (trunc x) + 1.
Proof.
  intros H. unfold trunc. destruct (Rleb_spec 0 x); [|lra]. destruct (base_Int_part x). lra.
Qed.
Lemma omitted c n2 T L q (n : nat) : 0 < c -> 0 < T -> 0 < L -> (trunc (c / (T * L)) < Z.of_nat n)%Z -> 1 <= n2 (INR n * T) ->
  exp (-2 * kz n2 q (INR n * T) * L) < exp (-2 * c).
Proof.
  intros Hc HT HL Hn H1. assert (0 < T * L) by now apply Rmult_lt_0_compat. assert (P : 0 < c / (T * L)) by now apply Rdiv_lt_0_compat.
  assert (G := trunc_gt _ (Rlt_le _ _ P)). assert (N : c / (T * L) < INR n).
  { rewrite INR_IZR_INZ. apply Rlt_le_trans with (1 := G). rewrite <- plus_IZR. apply IZR_le. lia. }
  assert (B : c < INR n * T * L). { apply (Rmult_lt_compat_r (T * L)) in N; [|assumption]. unfold Rdiv in N. rewrite Rmult_assoc, Rinv_l in N by lra. lra. }
  apply exp_increasing. assert (K : INR n * T <= kz n2 q (INR n * T)).
  { unfold kz. assert (0 < INR n * T). { apply Rmult_lt_reg_r with L; [assumption|]. lra. }
    rewrite <- (sqrt_pow2 (INR n * T)) at 1 by lra. apply sqrt_le_1_alt. pose proof (pow2_ge_0 q). assert (0 < (INR n * T) ^ 2) by now apply pow_lt. nra. }
  nra.
Qed.

(** ** distances *)
Lemma half_chord0 r : 0 < r -> half_chord r 0 = Val r.
Proof. intros H. rewrite half_chord_val; [|assumption|rewrite Rabs_R0; lra]. f_equal. replace (r ^ 2 - 0 ^ 2) with (r ^ 2) by ring. apply sqrt_pow2. lra. Qed.
Lemma distance_ext r1 r2 d rho : 0 < r1 -> 0 < r2 -> r1 + r2 < d -> Rabs rho <= Rmin r1 r2 ->
  distance r1 r2 d rho = Val (d - sqrt (r1 ^ 2 - rho ^ 2) - sqrt (r2 ^ 2 - rho ^ 2)).
Proof.
  intros H1 H2 Hd Hr. unfold distance. destruct (Rltb_spec (r1 + r2) d); [|lra]. pose proof (Rmin_l r1 r2). pose proof (Rmin_r r1 r2).
  rewrite !half_chord_val by lra. reflexivity.
Qed.
Lemma distance_int r1 r2 d rho : 0 < r1 -> 0 < r2 -> d <= r1 + r2 -> Rabs rho <= Rmin r1 r2 ->
  distance r1 r2 d rho = Val (sqrt (r2 ^ 2 - rho ^ 2) - d - sqrt (r1 ^ 2 - rho ^ 2)).
Proof.
  intros H1 H2 Hd Hr. unfold distance. destruct (Rltb_spec (r1 + r2) d); [lra|]. pose proof (Rmin_l r1 r2). pose proof (Rmin_r r1 r2).
  rewrite !half_chord_val by lra. reflexivity.
Qed.
Lemma distance_out r1 r2 d rho : 0 < r1 -> 0 < r2 -> Rmin r1 r2 < Rabs rho -> distance r1 r2 d rho = Exc ValueError.
Proof.
  intros H1 H2 Hr. assert (X : half_chord r1 rho = Exc ValueError \/ half_chord r2 rho = Exc ValueError).
  { destruct (Rle_lt_dec r1 r2); [rewrite Rmin_left in Hr by assumption; left|rewrite Rmin_right in Hr by lra; right]; now apply half_chord_out. }
  assert (Y : forall r, 0 < r -> half_chord r rho = Exc ValueError \/ exists v, half_chord r rho = Val v).
  { intros r Hr'. destruct (Rle_lt_dec (Rabs rho) r); [right; eexists; now apply half_chord_val|left; now apply half_chord_out]. }
  unfold distance. destruct X as [X|X].
  - destruct (Y r2 H2) as [Z|[v Z]]; rewrite ?X, ?Z; cbn [obind]; rewrite ?X; destruct (Rltb _ _); reflexivity.
  - destruct (Y r1 H1) as [Z|[v Z]]; rewrite ?X, ?Z; cbn [obind]; rewrite ?X; destruct (Rltb _ _); reflexivity.
Qed.
Lemma chord_decr r a b : 0 <= a < b -> b <= r -> sqrt (r ^ 2 - b ^ 2) < sqrt (r ^ 2 - a ^ 2).
Proof. intros [Ha Hab] Hb. apply sqrt_lt_1_alt. nra. Qed.
(** differences of chords grow *)
Lemma chord_diff r1 r2 a b : 0 < r1 < r2 -> 0 <= a < b -> b <= r1 ->
  sqrt (r2 ^ 2 - a ^ 2) - sqrt (r1 ^ 2 - a ^ 2) < sqrt (r2 ^ 2 - b ^ 2) - sqrt (r1 ^ 2 - b ^ 2).
Proof.
  intros [H1 H12] [Ha Hab] Hb.
  assert (P : forall t, 0 <= t <= r1 -> 0 < sqrt (r2 ^ 2 - t ^ 2) + sqrt (r1 ^ 2 - t ^ 2)).
  { intros t Ht. assert (0 < sqrt (r2 ^ 2 - t ^ 2)) by (apply sqrt_lt_R0; nra). pose proof (sqrt_pos (r1 ^ 2 - t ^ 2)). lra. }
  assert (E : forall t, 0 <= t <= r1 -> sqrt (r2 ^ 2 - t ^ 2) - sqrt (r1 ^ 2 - t ^ 2) = (r2 ^ 2 - r1 ^ 2) / (sqrt (r2 ^ 2 - t ^ 2) + sqrt (r1 ^ 2 - t ^ 2))).
  { intros t Ht. pose proof (P t Ht). apply Rmult_eq_reg_r with (sqrt (r2 ^ 2 - t ^ 2) + sqrt (r1 ^ 2 - t ^ 2)); [|lra].
    assert (S2 : sqrt (r2 ^ 2 - t ^ 2) ^ 2 = r2 ^ 2 - t ^ 2) by (apply pow2_sqrt; nra). assert (S1 : sqrt (r1 ^ 2 - t ^ 2) ^ 2 = r1 ^ 2 - t ^ 2) by (apply pow2_sqrt; nra).
    unfold Rdiv. rewrite Rmult_assoc, Rinv_l by lra. nra. }
  rewrite (E a), (E b) by lra. unfold Rdiv. apply Rmult_lt_compat_l; [nra|].
  assert (sqrt (r1 ^ 2 - b ^ 2) < sqrt (r1 ^ 2 - a ^ 2)) by (apply chord_decr; lra). assert (sqrt (r2 ^ 2 - b ^ 2) < sqrt (r2 ^ 2 - a ^ 2)) by (apply chord_decr; lra).
  apply Rinv_lt_contravar; [|lra]. apply Rmult_lt_0_compat; apply P; lra.
Qed.
