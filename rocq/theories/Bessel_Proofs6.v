(** * Arrays of arguments: which rows depend on the other arguments *)
From Coq Require Import Reals Factorial.
From Coquelicot Require Import Coquelicot.
From Coq Require Import Bool ZArith List Lia Lra Sorted Permutation.
From Verif Require Import Base Bessel_Model Bessel_Spec Bessel_Proofs Bessel_Proofs2 Bessel_Proofs3 Bessel_Proofs4 Bessel_Proofs5.
Import ListNotations.
Open Scope R_scope.

Lemma is_small_lt t : is_small t = true <-> t < 1e-3.
Proof. unfold is_small. destruct (Rltb_spec t 1e-3) as [H|H]; split; intros; try reflexivity; try assumption; [discriminate|lra]. Qed.
Lemma is_small_ge t : is_small t = false <-> 1e-3 <= t.
Proof. unfold is_small. destruct (Rltb_spec t 1e-3) as [H|H]; split; intros; try reflexivity; try assumption; [discriminate|lra|lra]. Qed.
Lemma filter_all {B} (f : B -> bool) l : (forall t, In t l -> f t = true) -> filter f l = l.
Proof. induction l as [|a l IH]; intros H; [reflexivity|]. cbn. rewrite (H a) by (now left). f_equal. apply IH. intros t Ht. apply H. now right. Qed.
Lemma filter_none {B} (f : B -> bool) l : (forall t, In t l -> f t = false) -> filter f l = [].
Proof. induction l as [|a l IH]; intros H; [reflexivity|]. cbn. rewrite (H a) by (now left). apply IH. intros t Ht. apply H. now right. Qed.

Lemma i01_large x : (forall t, In t x -> 1e-3 <= t) -> i01 x = (map i0lg x, map i1lg x).
Proof.
  intros H. unfold i01. rewrite (filter_none is_small) by (intros t Ht; apply is_small_ge; now apply H).
  rewrite (filter_all (fun t => negb (is_small t))) by (intros t Ht; apply negb_true_iff, is_small_ge; now apply H).
  destruct x; reflexivity.
Qed.
Lemma i01_small x : (forall t, In t x -> t < 1e-3) -> i01 x = (map i0sm x, map i1sm x).
Proof.
  intros H. unfold i01. rewrite (filter_all is_small) by (intros t Ht; apply is_small_lt; now apply H).
  rewrite (filter_none (fun t => negb (is_small t))) by (intros t Ht; apply negb_false_iff, is_small_lt; now apply H).
  destruct x; reflexivity.
Qed.
Definition row0_mixed t := if is_small t then i0sm_mixed t else i0lg t.
Definition row1_mixed t := if is_small t then i1sm_mixed t else i1lg t.
Definition small_first (x : list R) : list R := filter is_small x ++ filter (fun t => negb (is_small t)) x.
Lemma map_filter_t (f g : R -> R) p (x : list R) : (forall t, p t = true -> f t = g t) -> map f (filter p x) = map g (filter p x).
Proof. intros H. apply map_ext_in. intros t Ht. apply filter_In in Ht. apply H. tauto. Qed.
Lemma i01_mixed x : (exists t, In t x /\ t < 1e-3) -> (exists t, In t x /\ 1e-3 <= t) ->
  i01 x = (map row0_mixed (small_first x), map row1_mixed (small_first x)).
Proof.
  intros [s [Hs Ss]] [b [Hb Bb]]. unfold i01, small_first. rewrite !map_app.
  rewrite (map_filter_t row0_mixed i0sm_mixed is_small), (map_filter_t row1_mixed i1sm_mixed is_small) by (intros t E; unfold row0_mixed, row1_mixed; now rewrite E).
  rewrite (map_filter_t row0_mixed i0lg (fun t => negb (is_small t))), (map_filter_t row1_mixed i1lg (fun t => negb (is_small t)))
    by (intros t E; apply negb_true_iff in E; unfold row0_mixed, row1_mixed; now rewrite E).
  assert (I1 : In s (filter is_small x)) by (apply filter_In; split; [assumption|now apply is_small_lt]).
  assert (I2 : In b (filter (fun t => negb (is_small t)) x)) by (apply filter_In; split; [assumption|apply negb_true_iff; now apply is_small_ge]).
  destruct (filter is_small x); [destruct I1|]. destruct (filter (fun t => negb (is_small t)) x); [destruct I2|]. reflexivity.
Qed.
Lemma small_first_perm x : Permutation (small_first x) x.
Proof.
  unfold small_first. induction x as [|a x IH]; [constructor|]. cbn [filter]. destruct (is_small a); cbn [negb].
  - cbn. now constructor.
  - apply Permutation_trans with (a :: filter is_small x ++ filter (fun t => negb (is_small t)) x); [|now constructor].
    apply Permutation_sym, Permutation_middle.
Qed.
Lemma small_first_sorted x : StronglySorted Rle x -> small_first x = x.
Proof.
  intros H. unfold small_first. induction H as [|a x Hs IH Ha]; [reflexivity|]. cbn [filter]. destruct (is_small a) eqn:E; cbn [negb].
  - cbn. now rewrite IH.
  - rewrite (filter_none is_small); [|].
    + cbn. f_equal. apply filter_all. intros t Ht. apply negb_true_iff, is_small_ge. apply is_small_ge in E. rewrite Forall_forall in Ha. specialize (Ha t Ht). lra.
    + intros t Ht. apply is_small_ge. apply is_small_ge in E. rewrite Forall_forall in Ha. specialize (Ha t Ht). lra.
Qed.

(** the two values that may be returned for order 0 / 1 of one argument are both accurate *)
Definition acc0 t v := (1e-3 <= t -> v = ln (sph_i 0 t)) /\ (t < 1e-3 -> Rabs (v - ln (sph_i 0 t)) <= t ^ 6 / 1000).
Definition acc1 t v := (1e-3 <= t -> v = ln (sph_i 1 t)) /\ (t < 1e-3 -> Rabs (v - ln (sph_i 1 t)) <= t ^ 4 / 600).
Lemma F2_map (P : R -> R -> Prop) f x : (forall t, In t x -> P t (f t)) -> Forall2 P x (map f x).
Proof. induction x as [|a x IH]; intros H; constructor; [apply H; now left|]. apply IH. intros t Ht. apply H. now right. Qed.
Lemma pow_mul_le t k c : 0 < t <= 1e-3 -> 0 <= c -> t ^ S k * c <= t ^ k * c.
Proof. intros H Hc. apply Rmult_le_compat_r; [assumption|]. generalize (pow_lt t k ltac:(lra)). intros. cbn [pow]. rewrite <- (Rmult_1_l (t ^ k)) at 2. apply Rmult_le_compat_r; lra. Qed.
Lemma mixed0 t : 0 < t -> acc0 t (row0_mixed t).
Proof.
  intros Hp. unfold acc0, row0_mixed. split; intros H.
  - rewrite (proj2 (is_small_ge t) H). now apply i0lg_exact.
  - rewrite (proj2 (is_small_lt t) H). destruct (small_0 t) as [_ E]; [lra|]. apply Rle_trans with (1 := E).
    generalize (pow_mul_le t 7 (/ 5000) ltac:(lra) ltac:(lra)) (pow_mul_le t 6 (/ 5000) ltac:(lra) ltac:(lra)) (pow_lt t 6 Hp). lra.
Qed.
Lemma mixed1 t : 0 < t -> acc1 t (row1_mixed t).
Proof.
  intros Hp. unfold acc1, row1_mixed. split; intros H.
  - rewrite (proj2 (is_small_ge t) H). now apply i1lg_exact.
  - rewrite (proj2 (is_small_lt t) H). destruct (small_1 t) as [_ E]; [lra|]. apply Rle_trans with (1 := E).
    generalize (pow_mul_le t 5 (/ 1000) ltac:(lra) ltac:(lra)) (pow_mul_le t 4 (/ 1000) ltac:(lra) ltac:(lra)) (pow_lt t 4 Hp). lra.
Qed.
Definition one_sided (x : list R) := (forall t, In t x -> 1e-3 <= t) \/ (forall t, In t x -> t < 1e-3).
Lemma side_dec x : {forall t, In t x -> t < 1e-3} + {exists t, In t x /\ 1e-3 <= t}.
Proof.
  destruct (existsb (fun t => negb (is_small t)) x) eqn:E; [right|left].
  - apply existsb_exists in E. destruct E as [t [H1 H2]]. exists t. split; [assumption|]. now apply is_small_ge, negb_true_iff.
  - intros t Ht. apply is_small_lt. destruct (is_small t) eqn:F; [reflexivity|].
    assert (G : existsb (fun t => negb (is_small t)) x = true) by (apply existsb_exists; exists t; now rewrite F). congruence.
Qed.
Lemma side_dec2 x : {forall t, In t x -> 1e-3 <= t} + {exists t, In t x /\ t < 1e-3}.
Proof.
  destruct (existsb is_small x) eqn:E; [right|left].
  - apply existsb_exists in E. destruct E as [t [H1 H2]]. exists t. split; [assumption|]. now apply is_small_lt.
  - intros t Ht. apply is_small_ge. destruct (is_small t) eqn:F; [|reflexivity].
    assert (G : existsb is_small x = true) by (apply existsb_exists; exists t; now rewrite F). congruence.
Qed.
Theorem i01_accurate x : pos_all x -> StronglySorted Rle x \/ one_sided x ->
  Forall2 acc0 x (fst (i01 x)) /\ Forall2 acc1 x (snd (i01 x)).
Proof.
  intros Hp Hx.
  assert (L : (forall t, In t x -> 1e-3 <= t) -> Forall2 acc0 x (fst (i01 x)) /\ Forall2 acc1 x (snd (i01 x))).
  { intros L. rewrite i01_large by assumption. cbn [fst snd]. split; apply F2_map; intros t Ht; (split; intros H; [|specialize (L t Ht); lra]).
    - apply i0lg_exact; now apply Hp.
    - apply i1lg_exact; now apply Hp. }
  assert (S : (forall t, In t x -> t < 1e-3) -> Forall2 acc0 x (fst (i01 x)) /\ Forall2 acc1 x (snd (i01 x))).
  { intros S. rewrite i01_small by assumption. cbn [fst snd].
    split; apply F2_map; intros t Ht; (split; intros H; [specialize (S t Ht); lra|]); specialize (Hp t Ht).
    - apply small_0. lra.
    - apply small_1. lra. }
  destruct Hx as [Hx|[Hx|Hx]]; [|now apply L|now apply S].
  destruct (side_dec x) as [H1|H1]; [now apply S|]. destruct (side_dec2 x) as [H2|H2]; [now apply L|].
  rewrite i01_mixed by assumption. rewrite small_first_sorted by assumption. cbn [fst snd].
  split; apply F2_map; intros t Ht; [apply mixed0|apply mixed1]; now apply Hp.
Qed.

(** in a mixed array that is not sorted the rows of orders 0 and 1 are exchanged *)
Lemma permuted_pair a b : 1e-2 <= a -> 0 < b < 1e-3 ->
  i01 [a; b] = ([i0sm_mixed b; i0lg a], [i1sm_mixed b; i1lg a]) /\ 1e-5 < ln (sph_i 0 a) - i0sm_mixed b.
Proof.
  intros Ha Hb. split.
  - rewrite i01_mixed; [|exists b; split; [right; now left|lra]|exists a; split; [now left|lra]].
    unfold small_first. cbn [filter]. rewrite (proj2 (is_small_ge a)) by lra. rewrite (proj2 (is_small_lt b)) by lra. cbn [negb app map].
    unfold row0_mixed, row1_mixed. rewrite (proj2 (is_small_ge a)) by lra. rewrite (proj2 (is_small_lt b)) by lra. reflexivity.
  - assert (E : 1 + 1e-4 / 6 <= sph_i 0 a).
    { unfold sph_i. rewrite pow_O, Rmult_1_l. unfold PSeries.
      assert (EX : ex_series (fun k => icoef 0 k * (a ^ 2) ^ k)) by (apply ex_pseries_R, ex_icoef, pow2_ge_0).
      rewrite Series_incr_1 by assumption. rewrite Series_incr_1 by (now apply ex_series_incr_1 in EX).
      destruct ic0 as [C0 [C1 _]]. rewrite C0, C1. cbn [pow].
      assert (0 <= Series (fun k => icoef 0 (S (S k)) * (a * (a * 1)) ^ S (S k))).
      { apply Rle_trans with (Series (fun k => 0 * (icoef 0 (S (S k)) * (a * (a * 1)) ^ S (S k)))); [rewrite Series_scal_l; lra|].
        assert (P : forall k, 0 <= icoef 0 k * (a * (a * 1)) ^ k).
        { intros k. apply Rmult_le_pos; [left; apply icoef_pos|]. apply pow_le. rewrite Rmult_1_r. apply Rmult_le_pos; lra. }
        apply Series_le.
        - intros k. generalize (P (S (S k))). lra.
        - now apply ex_series_incr_1, ex_series_incr_1 in EX. }
      assert (1e-4 <= a * (a * 1)) by (rewrite Rmult_1_r; replace 1e-4 with (1e-2 * 1e-2) by lra; apply Rmult_le_compat; lra). 
      match goal with |- context [Series ?f] => replace (Series f) with (Series (fun k => icoef 0 (S (S k)) * (a * (a * 1)) ^ S (S k))) by reflexivity end. lra. }
    assert (L : ln (1 + 1e-4 / 6) <= ln (sph_i 0 a)) by (apply ln_le; lra).
    generalize (ln_ge2 (1e-4 / 6) ltac:(lra)). intros L2.
    assert (B : i0sm_mixed b <= 1e-6).
    { unfold i0sm_mixed. generalize (sq_small b ltac:(lra)). intros [B1 B2].
      generalize (pow_mul_le b 5 1 ltac:(lra) ltac:(lra)) (pow_mul_le b 4 1 ltac:(lra) ltac:(lra)) (pow_mul_le b 3 1 ltac:(lra) ltac:(lra)) (pow_mul_le b 2 1 ltac:(lra) ltac:(lra)) (pow_lt b 4 ltac:(lra)). lra. }
    lra.
Qed.

(** the continued fraction of an argument above 100 is cut earlier if the last argument is not above 100 *)
Lemma cfrac_mono2 x n : 0 < x -> forall m,
  (Nat.even (S n) = true -> cfrac x m (S (S (S n))) < cfrac x m (S n)) /\
  (Nat.odd (S n) = true -> cfrac x m (S n) < cfrac x m (S (S (S n)))).
Proof.
  intros Hx. induction n as [|n IH]; intros m.
  - split; [discriminate|]. intros _. rewrite !cfrac_SS, !cfrac_1.
    assert (0 < 1 / (A x (S m) + 1 / A x (S (S m)))); [|lra]. apply Rdiv_lt_0_compat; [lra|].
    generalize (A_pos x Hx (S m)) (Rinv_0_lt_compat _ (A_pos x Hx (S (S m)))). unfold Rdiv. lra.
  - rewrite (Nat.even_succ (S n)), (Nat.odd_succ (S n)). destruct (IH (S m)) as [I1 I2].
    rewrite (cfrac_SS x m (S (S n))), (cfrac_SS x m n). split; intros H; apply Rplus_lt_compat_l; apply inv_lt; try (now apply cfrac_pos); [now apply I2|now apply I1].
Qed.
Lemma cfrac_even_decr x m : 0 < x -> forall d k, cfrac x m (2 * (k + S d) + 2) < cfrac x m (2 * k + 2).
Proof.
  intros Hx. induction d as [|d IH]; intros k.
  - replace (2 * (k + 1) + 2)%nat with (S (S (S (2 * k + 1)))) by lia. replace (2 * k + 2)%nat with (S (2 * k + 1)) by lia.
    apply cfrac_mono2; [assumption|]. replace (S (2 * k + 1)) with (2 * k + 2)%nat by lia. apply even_form.
  - apply Rlt_trans with (2 := IH k). replace (k + S (S d))%nat with (S (k + S d)) by lia.
    replace (2 * S (k + S d) + 2)%nat with (S (S (S (2 * (k + S d) + 1)))) by lia. replace (2 * (k + S d) + 2)%nat with (S (2 * (k + S d) + 1)) by lia.
    apply cfrac_mono2; [assumption|]. replace (S (2 * (k + S d) + 1)) with (2 * (k + S d) + 2)%nat by lia. apply even_form.
Qed.
Lemma from_ratio_incr x l f g : 0 < x -> 0 < f < g -> ln_i_from_ratio l f x < ln_i_from_ratio l g x.
Proof.
  intros Hx H. unfold ln_i_from_ratio. generalize (sph_k_pos l x Hx) (sph_k_pos (S l) x Hx) PI_RGT_0 (pow_lt x 2 Hx). intros K1 K2 P X.
  assert (D1 : sph_k l x / g < sph_k l x / f) by (apply Rmult_lt_compat_l; [assumption|]; apply Rinv_lt_contravar; [apply Rmult_lt_0_compat|]; lra).
  assert (D2 : 0 < sph_k l x / g) by (apply Rdiv_lt_0_compat; lra).
  assert (B : 0 < PI / (2 * x ^ 2)) by (apply Rdiv_lt_0_compat; lra).
  apply ln_increasing; [apply Rdiv_lt_0_compat; lra|]. apply Rmult_lt_compat_l; [assumption|]. apply Rinv_lt_contravar; [apply Rmult_lt_0_compat|]; lra.
Qed.
Lemma truncation_differs l t : 100 < t -> ln_i_from_ratio l (cfrac t (S l) 140) t < ln_i_from_ratio l (cfrac t (S l) 80) t.
Proof.
  intros Ht. apply from_ratio_incr; [lra|]. split; [apply cfrac_pos; lra|].
  exact (cfrac_even_decr t (S l) ltac:(lra) 29 39).
Qed.
