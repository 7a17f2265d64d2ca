(** * What lniknu returns; orders 0 and 1; the limit of large arguments *)
From Coq Require Import Reals Factorial.
From Coquelicot Require Import Coquelicot.
From Coq Require Import Bool ZArith List Lia Lra.
From Verif Require Import Base Bessel_Model Bessel_Spec Bessel_Proofs Bessel_Proofs2 Bessel_Proofs3.
Import ListNotations.
Open Scope R_scope.

(** ** the continued fraction of the code *)
Lemma fraction_map (x : list R) (g : nat -> R -> R) (c : nat -> nat -> R -> R) :
  (forall m t, c m 1%nat t = g m t) -> (forall m n t, c m (S (S n)) t = g m t + 1 / c (S m) (S n) t) ->
  forall n m, fraction (map (fun k => map (g k) x) (seq m (S n))) = map (c m (S n)) x.
Proof.
  intros H1 H2. induction n as [|n IH]; intros m.
  - cbn [seq map fraction]. apply map_ext. intros t. now rewrite H1.
  - change (seq m (S (S n))) with (m :: seq (S m) (S n)). rewrite map_cons.
    transitivity (vmap2 (fun a f => a + 1 / f) (map (g m) x) (fraction (map (fun k => map (g k) x) (seq (S m) (S n))))); [reflexivity|].
    rewrite IH, vmap2_map. apply map_ext. intros t. now rewrite H2.
Qed.
Definition nmax (x : list R) : nat := if Rltb 100 (last x 0) then 140%nat else 80%nat.
Lemma last_rev (x : list R) a r : rev x = a :: r -> last x 0 = a.
Proof. intros H. rewrite <- (rev_involutive x), H. simpl. now rewrite last_last. Qed.
Lemma nmax_S x : exists n, nmax x = S n.
Proof. unfold nmax. destruct (Rltb _ _); eexists; reflexivity. Qed.
Lemma nmax_even x : exists K, nmax x = (2 * K + 2)%nat.
Proof. unfold nmax. destruct (Rltb _ _); [exists 69%nat|exists 39%nat]; reflexivity. Qed.
Lemma fnu_spec x l : x <> [] -> fnu x (INR l + 0.5) = Ok (map (fun t => cfrac t (S l) (nmax x)) x).
Proof.
  intros Hx. unfold fnu. destruct (rev x) as [|xl r] eqn:E.
  - exfalso. apply Hx. rewrite <- (rev_involutive x), E. reflexivity.
  - apply f_equal. unfold nmax. rewrite (last_rev _ _ _ E).
    set (N := if Rltb 100 xl then 140%nat else 80%nat). assert (HN : exists n, N = S n) by (unfold N; destruct (Rltb _ _); eexists; reflexivity).
    destruct HN as [n ->].
    rewrite (fraction_map x (fun n t => 2 * (INR l + 0.5 + INR n) / t) (fun m n t => cfrac t (l + m) n)).
    + apply map_ext. intros t. now rewrite Nat.add_1_r.
    + intros m t. rewrite cfrac_1. unfold A. rewrite plus_INR. f_equal. lra.
    + intros m k t. rewrite cfrac_SS. unfold A. rewrite plus_INR, Nat.add_succ_r. f_equal. f_equal. lra.
Qed.

Definition lni_col (x : list R) (l : nat) : list R := map (fun t => ln_i_from_ratio l (cfrac t (S l) (nmax x)) t) x.
Lemma ln_combine t a b f : 0 < t -> 0 < a -> 0 < b -> 0 < f ->
  ln (PI / (2 * t ^ 2)) - ln b - ln (exp (ln a - ln b) / f + 1) = ln (PI / (2 * t ^ 2) / (b + a / f)).
Proof.
  intros Ht Ha Hb Hf. generalize PI_RGT_0 (pow_lt t 2 Ht). intros P T.
  assert (B : 0 < PI / (2 * t ^ 2)) by (apply Rdiv_lt_0_compat; lra).
  assert (Q : 0 < a / f) by (apply Rdiv_lt_0_compat; lra).
  rewrite <- (ln_div a b) by assumption. rewrite exp_ln by (apply Rdiv_lt_0_compat; lra).
  assert (Q2 : 0 < a / b / f) by (apply Rdiv_lt_0_compat; [apply Rdiv_lt_0_compat|]; lra).
  rewrite <- (ln_div (PI / (2 * t ^ 2)) b) by assumption. rewrite <- ln_div; [|apply Rdiv_lt_0_compat; assumption|lra].
  f_equal. assert (E : 0 < b * f + a) by (apply Rplus_lt_0_compat; [apply Rmult_lt_0_compat|]; lra). field. repeat split; try lra.
Qed.
Lemma nth_map_seq {B} (f : nat -> B) d n k : (k < n)%nat -> nth k (map f (seq 0 n)) d = f k.
Proof. intros H. rewrite (nth_indep _ d (f 0%nat)) by (now rewrite map_length, seq_length). rewrite map_nth. f_equal. rewrite seq_nth by assumption. reflexivity. Qed.
Lemma lni_cols_spec x M : x <> [] -> pos_all x -> forall n l, (l + n <= M)%nat ->
  lni_cols x (map (lnk_col x) (seq 0 (S M))) l n = Ok (map (lni_col x) (seq l n)).
Proof.
  intros Hx Hp. induction n as [|n IH]; intros l Hl; [reflexivity|]. cbn [lni_cols]. rewrite fnu_spec by assumption. cbn [bind].
  rewrite IH by lia. cbn [bind]. apply f_equal. change (seq l (S n)) with (l :: seq (S l) n). rewrite map_cons. f_equal.
  rewrite !nth_map_seq by lia. unfold lnk_col, lni_col.
  rewrite <- (map_id x) at 1. rewrite !combine_map, vmap2_map. apply map_ext_in. intros t Ht. cbn [fst snd].
  assert (T : 0 < t) by (apply Hp; assumption). destruct (nmax_S x) as [k Hk]. rewrite Hk.
  unfold ln_i_from_ratio. apply ln_combine; [assumption|now apply sph_k_pos|now apply sph_k_pos|now apply cfrac_pos].
Qed.

Definition lni_all (x : list R) (lmax : nat) : list (list R) :=
  firstn (S lmax) (fst (i01 x) :: snd (i01 x) :: map (lni_col x) (seq 2 (lmax - 1))).
Theorem lniknu_spec x lmax : x <> [] -> pos_all x ->
  lniknu x (AnInt (Z.of_nat lmax)) = Ok (lni_all x lmax, map (lnk_col x) (seq 0 (S lmax))).
Proof.
  intros Hx Hp. unfold lniknu, alloc, column.
  replace (Z.of_nat lmax + 1 <? 0)%Z with false by (symmetry; apply Z.ltb_ge; lia). cbn [bind].
  replace (0 <? Z.of_nat lmax + 1)%Z with true by (symmetry; apply Z.ltb_lt; lia). cbn [bind].
  replace (Z.of_nat lmax + 1)%Z with (Z.of_nat (S lmax)) by lia. rewrite lnknu_spec by assumption.
  unfold lni_all. destruct (i01 x) as [i0 i1]. cbn [bind fst snd].
  destruct lmax as [|[|lmax]].
  - reflexivity.
  - reflexivity.
  - replace (Z.of_nat (S (S lmax)) =? 0)%Z with false by (symmetry; apply Z.eqb_neq; lia).
    replace (Z.of_nat (S (S lmax)) =? 1)%Z with false by (symmetry; apply Z.eqb_neq; lia).
    replace (Z.to_nat (Z.of_nat (S (S lmax)) - 1)) with (S lmax) by lia.
    rewrite lni_cols_spec by (try assumption; lia). cbn [bind].
    replace (S (S lmax) - 1)%nat with (S lmax) by lia.
    apply f_equal. f_equal.
    + symmetry. apply (firstn_all2 (n := S (S (S lmax)))). cbn [length]. rewrite map_length, seq_length. lia.
    + rewrite (seq_S (S (S (S lmax)))), map_app. cbn [map]. rewrite removelast_last. reflexivity.
Qed.
Lemma lniknu_empty lmax : (2 <= lmax)%nat -> lniknu [] (AnInt (Z.of_nat lmax)) = Err IndexError.
Proof.
  intros H. unfold lniknu, alloc, column.
  replace (Z.of_nat lmax + 1 <? 0)%Z with false by (symmetry; apply Z.ltb_ge; lia). cbn [bind].
  replace (0 <? Z.of_nat lmax + 1)%Z with true by (symmetry; apply Z.ltb_lt; lia).
  replace (Z.of_nat lmax + 1)%Z with (Z.of_nat (S lmax)) by lia. rewrite lnknu_spec by (intros t []). cbn [bind i01].
  replace (Z.of_nat lmax =? 0)%Z with false by (symmetry; apply Z.eqb_neq; lia).
  replace (Z.of_nat lmax =? 1)%Z with false by (symmetry; apply Z.eqb_neq; lia).
  replace (Z.to_nat (Z.of_nat lmax - 1)) with (S (lmax - 2)) by lia. reflexivity.
Qed.
Lemma lniknu_negative x z : (z < 0)%Z -> lniknu x (AnInt z) = Err (if (z =? -1)%Z then IndexError else ValueError).
Proof.
  intros H. unfold lniknu, alloc, column. destruct (Z.eqb_spec z (-1)) as [->|Hz].
  - cbn [bind Z.add Z.ltb Z.compare]. destruct (i01 x). reflexivity.
  - replace (z + 1 <? 0)%Z with true by (symmetry; apply Z.ltb_lt; lia). reflexivity.
Qed.

(** ** orders 0 and 1 *)
Lemma i0lg_exact t : 0 < t -> i0lg t = ln (sph_i 0 t).
Proof.
  intros H. rewrite sph_i_0 by assumption. unfold i0lg, sinh.
  assert (E : exp (- 2 * t) < 1) by (rewrite <- exp_0; apply exp_increasing; lra).
  transitivity (- ln (2 * t) + ln (1 - exp (- 2 * t)) + ln (exp t)); [now rewrite ln_exp|].
  assert (P : 0 < 2 * t) by lra.
  rewrite Rplus_assoc, <- ln_mult by (try apply exp_pos; lra).
  replace ((1 - exp (- 2 * t)) * exp t) with (exp t - exp (- t)).
  2:{ rewrite Rmult_minus_distr_r, <- exp_plus, Rmult_1_l. do 2 f_equal. ring. }
  assert (Q : 0 < exp t - exp (- t)) by (apply Rlt_Rminus, exp_increasing; lra).
  replace ((exp t - exp (- t)) / 2 / t) with ((exp t - exp (- t)) / (2 * t)) by (field; lra).
  rewrite ln_div by lra. ring.
Qed.
Lemma i1lg_exact t : 0 < t -> i1lg t = ln (sph_i 1 t).
Proof.
  intros H. generalize (sph_i_pos 1 t H). rewrite sph_i_1 by assumption. unfold i1lg. unfold sinh, cosh. intros Q.
  set (e := exp (- 2 * t) * (t + 1) + t - 1) in *.
  assert (X : e * exp t = 2 * t ^ 2 * ((t * ((exp t + exp (- t)) / 2) - (exp t - exp (- t)) / 2) / t ^ 2)).
  { unfold e. replace ((exp (- 2 * t) * (t + 1) + t - 1) * exp t) with ((exp (- 2 * t) * exp t) * (t + 1) + (t - 1) * exp t) by ring.
    rewrite <- exp_plus. replace (- 2 * t + t) with (- t) by ring. field. lra. }
  set (v := (t * ((exp t + exp (- t)) / 2) - (exp t - exp (- t)) / 2) / t ^ 2) in *.
  assert (E : 0 < e). { apply Rmult_lt_reg_r with (exp t); [apply exp_pos|]. rewrite Rmult_0_l, X. apply Rmult_lt_0_compat; [|assumption]. generalize (pow_lt t 2 H). lra. }
  transitivity (- ln (2 * t) - ln t + (ln (exp t) + ln e)); [rewrite ln_exp; ring|].
  rewrite <- ln_mult by (try apply exp_pos; assumption). rewrite (Rmult_comm (exp t)), X.
  replace (2 * t ^ 2 * v) with ((2 * t) * t * v) by ring.
  assert (0 < 2 * t) by lra. assert (0 < 2 * t * t) by (apply Rmult_lt_0_compat; lra).
  rewrite (ln_mult (2 * t * t) v), (ln_mult (2 * t) t) by assumption. ring.
Qed.
