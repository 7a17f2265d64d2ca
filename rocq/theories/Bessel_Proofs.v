(** * Proofs about the modified spherical Bessel functions *)
From Coq Require Import Reals Factorial.
From Coquelicot Require Import Coquelicot.
From Coq Require Import Bool ZArith List Lia Lra.
From Verif Require Import Base Bessel_Model Bessel_Spec.
Import ListNotations.
Open Scope R_scope.

(** ** k_l: recursion *)
Definition kc (l j : nat) : R := if Nat.leb j l then INR (fact (l + j)) / (INR (fact j) * INR (fact (l - j))) else 0.
Definition kp (l n : nat) (u : R) : R := sum_f_R0 (fun j => kc l j * u ^ j) n.

Lemma fact_pos n : 0 < INR (fact n).
Proof. apply INR_fact_lt_0. Qed.
Lemma fact_S n : INR (fact (S n)) = (INR n + 1) * INR (fact n).
Proof. rewrite fact_simpl, mult_INR, S_INR. reflexivity. Qed.
#[local] Hint Resolve fact_pos : core.

Lemma kp_ext l n u : (l <= n)%nat -> kp l n u = kp l l u.
Proof.
  intros H. induction n as [|n IH].
  - replace l with 0%nat by lia. reflexivity.
  - destruct (Nat.eq_dec l (S n)) as [->|Hn]; [reflexivity|].
    unfold kp in *. cbn [sum_f_R0]. rewrite IH by lia. unfold kc at 2.
    replace (S n <=? l)%nat with false by (symmetry; apply Nat.leb_gt; lia). ring.
Qed.

Lemma kc_rec l j : kc (S (S l)) (S j) = kc l (S j) + 2 * (2 * INR l + 3) * kc (S l) j.
Proof.
  unfold kc.
  destruct (Nat.leb_spec (S j) (S (S l))) as [H1|H1]; destruct (Nat.leb_spec (S j) l) as [H2|H2];
    destruct (Nat.leb_spec j (S l)) as [H3|H3]; try lia; [|  |ring].
  - destruct (Nat.le_exists_sub _ _ H2) as [d [-> _]].
    replace (S (S (d + S j)) + S j)%nat with (S (S (d + S j + S j))) by lia.
    replace (S (S (d + S j)) - S j)%nat with (S (S d)) by lia.
    replace (d + S j - S j)%nat with d by lia.
    replace (S (d + S j) + j)%nat with (d + S j + S j)%nat by lia.
    replace (S (d + S j) - j)%nat with (S (S d)) by lia.
    rewrite (fact_S (S (d + S j + S j))), (fact_S (d + S j + S j)), (fact_S (S d)), (fact_S d), (fact_S j).
    rewrite !S_INR, !plus_INR, !S_INR. generalize (fact_pos (d + S j + S j)) (fact_pos d) (fact_pos j).
    intros A B C. generalize (pos_INR d) (pos_INR j). intros D E. field. repeat split; lra.
  - assert (E : j = l \/ j = S l) by lia. destruct E as [->| ->].
    + replace (S (S l) + S l)%nat with (S (S (l + S l))) by lia.
      replace (S (S l) - S l)%nat with 1%nat by lia.
      replace (S l + l)%nat with (l + S l)%nat by lia. replace (S l - l)%nat with 1%nat by lia.
      rewrite (fact_S (S (l + S l))), (fact_S (l + S l)), (fact_S l). rewrite !S_INR, !plus_INR, !S_INR. simpl (fact 1). simpl (INR 1).
      generalize (fact_pos (l + S l)) (fact_pos l) (pos_INR l). intros A B C. field. split; lra.
    + replace (S (S l) + S (S l))%nat with (S (S (S l + S l))) by lia.
      rewrite !Nat.sub_diag. simpl (fact 0). simpl (INR 1).
      rewrite (fact_S (S (S l + S l))), (fact_S (S l + S l)), (fact_S (S l)). rewrite !S_INR, !plus_INR, !S_INR.
      generalize (fact_pos (S l + S l)) (fact_pos (S l)) (pos_INR l). intros A B C. field. split; lra.
Qed.

Lemma kc0 l : kc l 0 = 1.
Proof. unfold kc. cbn [Nat.leb]. rewrite Nat.add_0_r, Nat.sub_0_r. simpl (fact 0). simpl (INR 1). field. generalize (fact_pos l). lra. Qed.

Lemma kp_rec l u : kp (S (S l)) (S (S l)) u = kp l l u + 2 * (2 * INR l + 3) * u * kp (S l) (S l) u.
Proof.
  rewrite <- (kp_ext l (S (S l)) u) by lia. unfold kp.
  rewrite (decomp_sum (fun j => kc (S (S l)) j * u ^ j)) by lia.
  rewrite (decomp_sum (fun j => kc l j * u ^ j) (S (S l))) by lia. cbn [pred]. rewrite !kc0.
  rewrite scal_sum. rewrite Rplus_assoc. f_equal. rewrite <- plus_sum. apply sum_eq. intros j _.
  rewrite kc_rec. cbn [pow]. ring.
Qed.

Lemma sph_kE l x : 0 < x -> sph_k l x = PI / 2 * exp (- x) / x * kp l l (/ (2 * x)).
Proof.
  intros Hx. unfold sph_k, kp. f_equal. apply sum_eq. intros j Hj. unfold kc.
  replace (j <=? l)%nat with true by (symmetry; apply Nat.leb_le; lia).
  unfold Rdiv at 1. f_equal. rewrite pow_inv. reflexivity.
Qed.

Lemma sph_k_rec l x : 0 < x -> sph_k (S (S l)) x = sph_k l x + (2 * INR l + 3) / x * sph_k (S l) x.
Proof. intros Hx. rewrite !sph_kE by assumption. rewrite kp_rec. field. lra. Qed.

Lemma sph_k_0 x : 0 < x -> sph_k 0 x = PI / 2 * exp (- x) / x.
Proof. intros Hx. rewrite sph_kE by assumption. unfold kp. cbn [sum_f_R0 pow]. rewrite kc0. ring. Qed.
Lemma sph_k_1 x : 0 < x -> sph_k 1 x = PI / 2 * exp (- x) / x * (1 + / x).
Proof.
  intros Hx. rewrite sph_kE by assumption. unfold kp. cbn [sum_f_R0 pow]. rewrite kc0. unfold kc. cbn [Nat.leb fact Nat.add Nat.sub Nat.mul].
  simpl (INR _). field. lra.
Qed.

Lemma sph_k_pos l x : 0 < x -> 0 < sph_k l x.
Proof.
  intros Hx. assert (H : 0 < sph_k l x /\ 0 < sph_k (S l) x); [|tauto].
  assert (B : 0 < PI / 2 * exp (- x) / x).
  { apply Rdiv_lt_0_compat; [|assumption]. apply Rmult_lt_0_compat; [generalize PI_RGT_0; lra|apply exp_pos]. }
  induction l as [|l [I1 I2]].
  - rewrite sph_k_0, sph_k_1 by assumption. split; [assumption|].
    apply Rmult_lt_0_compat; [assumption|]. generalize (Rinv_0_lt_compat _ Hx). lra.
  - split; [assumption|]. rewrite sph_k_rec by assumption.
    apply Rplus_lt_0_compat; [assumption|]. apply Rmult_lt_0_compat; [|assumption].
    apply Rdiv_lt_0_compat; [|assumption]. generalize (pos_INR l). lra.
Qed.

(** ** lnknu *)
Lemma combine_map {A B C} (f : A -> B) (g : A -> C) l : combine (map f l) (map g l) = map (fun t => (f t, g t)) l.
Proof. induction l as [|x l IH]; [reflexivity|]. cbn. now rewrite IH. Qed.
Lemma vmap2_map {A B C D} (h : B -> C -> D) (f : A -> B) (g : A -> C) l : vmap2 h (map f l) (map g l) = map (fun t => h (f t) (g t)) l.
Proof. unfold vmap2. rewrite combine_map, map_map. reflexivity. Qed.
Lemma vmap3_map h (f g k : R -> R) l : vmap3 h (map f l) (map g l) (map k l) = map (fun t => h (f t) (g t) (k t)) l.
Proof. unfold vmap3. rewrite combine_map, vmap2_map. reflexivity. Qed.
Lemma vmap3_map_id h (f g : R -> R) l : vmap3 h (map f l) (map g l) l = map (fun t => h (f t) (g t) t) l.
Proof. rewrite <- (map_id l) at 3. apply vmap3_map. Qed.

Definition pos_all (x : list R) : Prop := forall t, In t x -> 0 < t.
Definition lnk_col (x : list R) (l : nat) : list R := map (fun t => ln (sph_k l t)) x.

Lemma ln_pih_half : ln_pih = ln (PI / 2).
Proof. unfold ln_pih. f_equal. lra. Qed.
Lemma PI2_pos : 0 < PI / 2.
Proof. generalize PI_RGT_0. lra. Qed.
Lemma lnk_0E t : 0 < t -> lnk_0 t = ln (sph_k 0 t).
Proof.
  intros H. rewrite sph_k_0 by assumption. unfold lnk_0. rewrite ln_pih_half. generalize PI2_pos (exp_pos (- t)). intros P E.
  rewrite (ln_div (PI / 2 * exp (- t)) t) by (try apply Rmult_lt_0_compat; assumption). rewrite ln_mult by assumption. rewrite ln_exp. ring.
Qed.
Lemma lnk_1E t : 0 < t -> lnk_1 t = ln (sph_k 1 t).
Proof.
  intros H. rewrite sph_k_1 by assumption. unfold lnk_1. rewrite ln_pih_half. generalize PI2_pos (exp_pos (- t)). intros P E.
  replace (1 + / t) with ((t + 1) / t) by (field; lra).
  rewrite ln_mult; [|apply Rdiv_lt_0_compat; [apply Rmult_lt_0_compat|]; assumption|apply Rdiv_lt_0_compat; lra].
  rewrite (ln_div (PI / 2 * exp (- t)) t), (ln_div (t + 1) t) by (try apply Rmult_lt_0_compat; lra). rewrite ln_mult by assumption. rewrite ln_exp. ring.
Qed.
Lemma lnk_step l t : 0 < t ->
  ln (sph_k (S l) t) + ln (exp (ln (sph_k l t) - ln (sph_k (S l) t)) + (2 * INR (S (S l)) - 1) / t) = ln (sph_k (S (S l)) t).
Proof.
  intros H. generalize (sph_k_pos l t H) (sph_k_pos (S l) t H). intros P Q.
  unfold Rminus at 1. rewrite exp_plus, exp_Ropp, !exp_ln by assumption.
  assert (D : 0 < (2 * INR (S (S l)) - 1) / t).
  { apply Rdiv_lt_0_compat; [|assumption]. rewrite !S_INR. generalize (pos_INR l). lra. }
  assert (R0 : 0 < sph_k l t * / sph_k (S l) t) by (apply Rdiv_lt_0_compat; assumption).
  rewrite <- ln_mult by lra. f_equal. rewrite sph_k_rec by assumption. rewrite !S_INR. field. lra.
Qed.

Lemma lnk_cols_spec x n : pos_all x -> forall l,
  lnk_cols x (lnk_col x l) (lnk_col x (S l)) (S (S l)) n = map (lnk_col x) (seq (S (S l)) n).
Proof.
  intros Hx. induction n as [|n IH]; intros l; [reflexivity|]. cbn [lnk_cols seq map].
  assert (E : vmap3 (fun a b t => b + ln (exp (a - b) + (2 * INR (S (S l)) - 1) / t)) (lnk_col x l) (lnk_col x (S l)) x = lnk_col x (S (S l))).
  { unfold lnk_col at 1 2. rewrite vmap3_map_id. apply map_ext_in. intros t Ht. apply lnk_step. now apply Hx. }
  rewrite E. f_equal. apply IH.
Qed.

Theorem lnknu_spec x (lmax : nat) : pos_all x ->
  lnknu x (AnInt (Z.of_nat lmax)) = Ok (map (lnk_col x) (seq 0 (S lmax))).
Proof.
  intros Hx. unfold lnknu, alloc, column.
  replace (Z.of_nat lmax + 1 <? 0)%Z with false by (symmetry; apply Z.ltb_ge; lia).
  replace (0 <? Z.of_nat lmax + 1)%Z with true by (symmetry; apply Z.ltb_lt; lia). cbn [bind].
  assert (E0 : map lnk_0 x = lnk_col x 0) by (apply map_ext_in; intros t Ht; apply lnk_0E; now apply Hx).
  assert (E1 : map lnk_1 x = lnk_col x 1) by (apply map_ext_in; intros t Ht; apply lnk_1E; now apply Hx).
  rewrite E0, E1.
  destruct lmax as [|[|lmax]].
  - reflexivity.
  - reflexivity.
  - replace (Z.of_nat (S (S lmax)) =? 0)%Z with false by (symmetry; apply Z.eqb_neq; lia).
    replace (Z.of_nat (S (S lmax)) =? 1)%Z with false by (symmetry; apply Z.eqb_neq; lia).
    replace (Z.to_nat (Z.of_nat (S (S lmax)) - 1)) with (S lmax) by lia.
    rewrite lnk_cols_spec by assumption. reflexivity.
Qed.

Lemma lnknu_negative x z : (z < 0)%Z -> lnknu x (AnInt z) = Err (if (z =? -1)%Z then IndexError else ValueError).
Proof.
  intros H. unfold lnknu, alloc, column. destruct (Z.eqb_spec z (-1)) as [->|Hz]; [reflexivity|].
  replace (z + 1 <? 0)%Z with true by (symmetry; apply Z.ltb_lt; lia). reflexivity.
Qed.

(** ** derivatives of k_l and the differential equation *)
Lemma is_derive_pos_ext (f g : R -> R) x d : 0 < x -> (forall t, 0 < t -> f t = g t) -> is_derive g x d -> is_derive f x d.
Proof.
  intros Hx H Hg. apply is_derive_ext_loc with g; [|assumption].
  exists (mkposreal _ Hx). intros t Ht. symmetry. apply H.
  unfold ball in Ht; simpl in Ht; unfold AbsRing_ball, abs, minus, plus, opp in Ht; simpl in Ht. apply Rabs_def2 in Ht. lra.
Qed.

Lemma dplus (f g : R -> R) (x a b : R) : is_derive f x a -> is_derive g x b -> is_derive (fun t => f t + g t) x (a + b).
Proof. intros. apply (is_derive_plus f g); assumption. Qed.
Lemma dmult (f g : R -> R) (x a b : R) : is_derive f x a -> is_derive g x b -> is_derive (fun t => f t * g t) x (a * g x + f x * b).
Proof. intros. apply (is_derive_mult f g); [assumption|assumption|exact Rmult_comm]. Qed.
Lemma dopp (f : R -> R) (x a : R) : is_derive f x a -> is_derive (fun t => - f t) x (- a).
Proof. intros. apply (is_derive_opp f); assumption. Qed.
Lemma dinv (c x : R) : 0 < x -> is_derive (fun t => c / t) x (- c / x ^ 2).
Proof. intros. auto_derive; [lra|]. field. lra. Qed.
Lemma deq (f : R -> R) (x a b : R) : is_derive f x a -> a = b -> is_derive f x b.
Proof. now intros H <-. Qed.

Lemma sph_k_derive l x : 0 < x ->
  is_derive (sph_k l) x (- sph_k (S l) x + INR l / x * sph_k l x).
Proof.
  intros Hx. revert l.
  assert (H : forall l, is_derive (sph_k l) x (- sph_k (S l) x + INR l / x * sph_k l x) /\
                        is_derive (sph_k (S l)) x (- sph_k (S (S l)) x + INR (S l) / x * sph_k (S l) x)); [|intros l; apply H].
  induction l as [|l [I1 I2]].
  - split.
    + apply (is_derive_pos_ext _ (fun t => PI / 2 * exp (- t) / t)); [assumption|apply sph_k_0|].
      rewrite sph_k_0, sph_k_1 by assumption. auto_derive; [lra|]. simpl. field. lra.
    + apply (is_derive_pos_ext _ (fun t => PI / 2 * exp (- t) / t * (1 + / t))); [assumption|apply sph_k_1|].
      rewrite sph_k_rec, sph_k_0, sph_k_1 by assumption. auto_derive; [lra|]. simpl. field. lra.
  - split; [assumption|].
    apply (is_derive_pos_ext _ (fun t => sph_k l t + (2 * INR l + 3) / t * sph_k (S l) t)); [assumption|intros; now apply sph_k_rec|].
    eapply deq; [apply (dplus _ _ _ _ _ I1 (dmult _ _ _ _ _ (dinv (2 * INR l + 3) x Hx) I2))|].
    rewrite (sph_k_rec (S l)), (sph_k_rec l) by assumption. rewrite !S_INR. field. lra.
Qed.

Lemma sph_k_derive_down l x : 0 < x ->
  is_derive (sph_k (S l)) x (- sph_k l x - (INR l + 2) / x * sph_k (S l) x).
Proof.
  intros Hx. generalize (sph_k_derive (S l) x Hx). rewrite sph_k_rec by assumption. rewrite S_INR.
  match goal with |- is_derive _ _ ?a -> is_derive _ _ ?b => replace b with a; [tauto|] end. field. lra.
Qed.

(** a function with the two ladder relations solves the equation *)
Lemma sph_k_ode l : bessel_ode l (sph_k l).
Proof.
  exists (fun x => - sph_k (S l) x + INR l / x * sph_k l x).
  exists (fun x => (1 + (INR l * (INR l + 1)) / x ^ 2) * sph_k l x - 2 / x * (- sph_k (S l) x + INR l / x * sph_k l x)).
  intros x Hx. split; [now apply sph_k_derive|]. split.
  - eapply deq; [apply (dplus _ _ _ _ _ (dopp _ _ _ (sph_k_derive_down l x Hx)) (dmult _ _ _ _ _ (dinv (INR l) x Hx) (sph_k_derive l x Hx)))|].
    field. lra.
  - field. lra.
Qed.
