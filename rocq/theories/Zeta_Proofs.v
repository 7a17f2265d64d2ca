(** * The sum of 1/n^4: elementary proof with sums of 1/sin^4 *)
From Coq Require Import Reals.
From Coquelicot Require Import Coquelicot.
From Coq Require Import Lia Lra Psatz.
Open Scope R_scope.

Fixpoint sm (f : nat -> R) (n : nat) : R := match n with O => 0 | S n => sm f n + f n end.
Lemma sm_ext f g n : (forall k, (k < n)%nat -> f k = g k) -> sm f n = sm g n.
Proof. induction n as [|n IH]; intros H; [reflexivity|]. cbn [sm]. rewrite IH by (intros; apply H; lia). rewrite H by lia. reflexivity. Qed.
Lemma sm_le f g n : (forall k, (k < n)%nat -> f k <= g k) -> sm f n <= sm g n.
Proof. induction n as [|n IH]; intros H; [cbn [sm]; lra|]. cbn [sm]. apply Rplus_le_compat; [apply IH; intros; apply H; lia|apply H; lia]. Qed.
Lemma sm_plus f g n : sm (fun k => f k + g k) n = sm f n + sm g n.
Proof. induction n as [|n IH]; cbn [sm]; [ring|rewrite IH; ring]. Qed.
Lemma sm_scal c f n : sm (fun k => c * f k) n = c * sm f n.
Proof. induction n as [|n IH]; cbn [sm]; [ring|rewrite IH; ring]. Qed.
Lemma sm_const c n : sm (fun _ => c) n = INR n * c.
Proof. induction n as [|n IH]; [cbn [sm INR]; ring|]. cbn [sm]. rewrite IH, S_INR. ring. Qed.
Lemma sm_shift f n : sm f (S n) = f O + sm (fun k => f (S k)) n.
Proof. induction n as [|n IH]; [cbn [sm]; ring|]. change (sm f (S (S n))) with (sm f (S n) + f (S n)). rewrite IH. cbn [sm]. ring. Qed.
Lemma sm_app f n m : sm f (n + m) = sm f n + sm (fun k => f (n + k)%nat) m.
Proof. induction m as [|m IH]; [rewrite Nat.add_0_r; cbn [sm]; ring|]. rewrite Nat.add_succ_r. cbn [sm]. rewrite IH. ring. Qed.
Lemma sm_rev f n : sm f n = sm (fun k => f (n - 1 - k)%nat) n.
Proof.
  induction n as [|n IH]; [reflexivity|]. rewrite (sm_shift (fun k => f (S n - 1 - k)%nat)). cbn [sm]. rewrite IH. replace (S n - 1 - 0)%nat with n by lia. rewrite Rplus_comm. f_equal.
  apply sm_ext. intros k Hk. f_equal. lia.
Qed.
Lemma sm_pairs f N : sm f (2 * N) = sm (fun k => f k + f (2 * N - 1 - k)%nat) N.
Proof.
  rewrite sm_plus. replace (2 * N)%nat with (N + N)%nat at 1 by lia. rewrite sm_app. f_equal. rewrite sm_rev. apply sm_ext. intros k Hk. f_equal. lia.
Qed.
Lemma sm_sum_n f n : sm f (S n) = sum_n f n.
Proof. induction n as [|n IH]; [rewrite sum_O; cbn [sm]; ring|]. rewrite sum_Sn, <- IH. reflexivity. Qed.

(** ** sin x < x < tan x *)
Lemma sin_below x : 0 < x < PI / 2 -> 0 < sin x < x /\ 0 < cos x.
Proof.
  intros [H0 H1]. pose proof PI_RGT_0. assert (C : 0 < cos x) by (apply cos_gt_0; lra). split; [|assumption]. split; [apply sin_gt_0; lra|]. now apply sin_lt_x.
Qed.
Lemma below_tan x : 0 < x < PI / 2 -> x * cos x < sin x.
Proof.
  intros [H0 H1]. pose proof PI_RGT_0. destruct (MVT_gen (fun t => sin t - t * cos t) 0 x (fun t => t * sin t)) as [c [Hc E]].
  - intros t _. auto_derive; [trivial|ring].
  - intros t _. apply continuity_pt_filterlim. apply (ex_derive_continuous (fun t => sin t - t * cos t)). auto_derive. trivial.
  - rewrite Rmin_left, Rmax_right in Hc by lra. rewrite sin_0 in E. destruct (Req_dec c 0) as [->|Hn].
    + (* use a second mean value on the right half *)
      rewrite Rmult_0_l, Rmult_0_l in E. destruct (MVT_gen (fun t => sin t - t * cos t) (x / 2) x (fun t => t * sin t)) as [d [Hd D]].
      * intros t _. auto_derive; [trivial|ring].
      * intros t _. apply continuity_pt_filterlim. apply (ex_derive_continuous (fun t => sin t - t * cos t)). auto_derive. trivial.
      * rewrite Rmin_left, Rmax_right in Hd by lra. destruct (MVT_gen (fun t => sin t - t * cos t) 0 (x / 2) (fun t => t * sin t)) as [b [Hb B]].
        -- intros t _. auto_derive; [trivial|ring].
        -- intros t _. apply continuity_pt_filterlim. apply (ex_derive_continuous (fun t => sin t - t * cos t)). auto_derive. trivial.
        -- rewrite Rmin_left, Rmax_right in Hb by lra. assert (0 < sin d) by (apply sin_gt_0; lra). assert (0 <= sin b) by (apply sin_ge_0; lra). rewrite sin_0 in B.
           assert (0 < d * sin d * (x - x / 2)) by (apply Rmult_lt_0_compat; [apply Rmult_lt_0_compat|]; lra). assert (0 <= b * sin b * (x / 2 - 0)) by (apply Rmult_le_pos; [apply Rmult_le_pos|]; lra). lra.
    + assert (0 < sin c) by (apply sin_gt_0; lra). assert (0 < c * sin c * (x - 0)) by (apply Rmult_lt_0_compat; [apply Rmult_lt_0_compat|]; lra). lra.
Qed.
Lemma inv_between x : 0 < x < PI / 2 -> (/ (sin x) ^ 2 - 1) ^ 2 <= / x ^ 4 <= / (sin x) ^ 4.
Proof.
  intros H. destruct (sin_below x H) as [[S0 S1] C]. assert (T := below_tan x H). destruct H as [H0 H1].
  assert (E : / (sin x) ^ 2 - 1 = (cos x / sin x) ^ 2). { assert (P := sin2_cos2 x). unfold Rsqr in P. replace ((cos x / sin x) ^ 2) with ((cos x * cos x) / (sin x * sin x)) by (field; lra). replace (cos x * cos x) with (1 - sin x * sin x) by lra. field. lra. }
  rewrite E. assert (Q : 0 < cos x / sin x <= / x). { split; [apply Rdiv_lt_0_compat; assumption|]. apply Rmult_le_reg_r with (x * sin x); [now apply Rmult_lt_0_compat|]. replace (cos x / sin x * (x * sin x)) with (x * cos x) by (field; lra). replace (/ x * (x * sin x)) with (sin x) by (field; lra). lra. }
  split.
  - rewrite <- pow_mult. rewrite <- pow_inv. change (2 * 2)%nat with 4%nat. apply pow_incr. lra.
  - apply Rinv_le_contravar; [apply pow_lt; lra|]. apply pow_incr. lra.
Qed.

(** ** the sums of 1/sin^2 and 1/sin^4 over the odd multiples of PI/2^(n+2) *)
Definition ang (n k : nat) : R := INR (2 * k + 1) * PI / 2 ^ (n + 2).
Lemma ang_range n k : (k < 2 ^ n)%nat -> 0 < ang n k < PI / 2.
Proof.
  intros H. unfold ang. pose proof PI_RGT_0. assert (P : 0 < 2 ^ (n + 2)) by (apply pow_lt; lra). assert (0 < INR (2 * k + 1)) by (apply lt_0_INR; lia).
  split; [apply Rdiv_lt_0_compat; [now apply Rmult_lt_0_compat|assumption]|]. assert (Q : INR (2 * k + 1) < 2 * 2 ^ n).
  { assert (E : 2 ^ n = INR (2 ^ n)) by (rewrite pow_INR; reflexivity). rewrite E. replace 2 with (INR 2) by reflexivity. rewrite <- mult_INR. apply lt_INR. lia. }
  apply Rmult_lt_reg_r with (2 ^ (n + 2)); [assumption|]. replace (INR (2 * k + 1) * PI / 2 ^ (n + 2) * 2 ^ (n + 2)) with (INR (2 * k + 1) * PI) by (field; lra).
  rewrite pow_add. replace (PI / 2 * (2 ^ n * 2 ^ 2)) with (2 * 2 ^ n * PI) by (cbn [pow]; field). apply Rmult_lt_compat_r; assumption.
Qed.
Lemma ang_half n k : ang n k = 2 * ang (S n) k.
Proof. unfold ang. replace (S n + 2)%nat with (S (n + 2)) by lia. cbn [pow]. assert (0 < 2 ^ (n + 2)) by (apply pow_lt; lra). field. lra. Qed.
Lemma ang_mirror n k : (k < 2 ^ n)%nat -> ang (S n) (2 * 2 ^ n - 1 - k) = PI / 2 - ang (S n) k.
Proof.
  intros H. unfold ang. assert (E : INR (2 * (2 * 2 ^ n - 1 - k) + 1) = 4 * 2 ^ n - INR (2 * k + 1)).
  { replace (2 * (2 * 2 ^ n - 1 - k) + 1)%nat with (4 * 2 ^ n - (2 * k + 1))%nat by lia. rewrite minus_INR by lia. rewrite (mult_INR 4 (2 ^ n)), pow_INR. replace (INR 4) with 4 by (cbn [INR]; ring). replace (INR 2) with 2 by reflexivity. reflexivity. }
  rewrite E. replace (S n + 2)%nat with (n + 3)%nat by lia. rewrite pow_add. assert (0 < 2 ^ n) by (apply pow_lt; lra). cbn [pow]. field. lra.
Qed.
Lemma split_angle x : 0 < x < PI / 2 -> / (sin x) ^ 2 + / (sin (PI / 2 - x)) ^ 2 = 4 * / (sin (2 * x)) ^ 2 /\ / (sin x) ^ 4 + / (sin (PI / 2 - x)) ^ 4 = 16 * / (sin (2 * x)) ^ 4 - 8 * / (sin (2 * x)) ^ 2.
Proof.
  intros H. destruct (sin_below x H) as [[S _] C]. rewrite sin_shift, sin_2a. assert (P := sin2_cos2 x). unfold Rsqr in P.
  set (s := sin x) in *. set (c := cos x) in *. split.
  - replace (/ s ^ 2 + / c ^ 2) with ((s * s + c * c) / (s * s * (c * c))) by (field; lra). rewrite P. field. lra.
  - replace (/ s ^ 4 + / c ^ 4) with (((s * s + c * c) ^ 2 - 2 * (s * s) * (c * c)) / (s * s * (c * c)) ^ 2) by (field; lra). rewrite P. field. lra.
Qed.
Definition U (j n : nat) : R := sm (fun k => / (sin (ang n k)) ^ j) (2 ^ n).
Lemma U_step n : U 2 (S n) = 4 * U 2 n /\ U 4 (S n) = 16 * U 4 n - 8 * U 2 n.
Proof.
  assert (A : forall k, (k < 2 ^ n)%nat -> 0 < ang (S n) k < PI / 2) by (intros k Hk; apply ang_range; cbn; lia).
  unfold U. change (2 ^ S n)%nat with (2 * 2 ^ n)%nat. rewrite !sm_pairs. split.
  - rewrite <- sm_scal. apply sm_ext. intros k Hk. rewrite (ang_mirror n k Hk), (ang_half n k). apply (split_angle _ (A k Hk)).
  - replace (16 * sm (fun k => / sin (ang n k) ^ 4) (2 ^ n) - 8 * sm (fun k => / sin (ang n k) ^ 2) (2 ^ n)) with (sm (fun k => 16 * / sin (ang n k) ^ 4 + - 8 * / sin (ang n k) ^ 2) (2 ^ n)) by (rewrite sm_plus, !sm_scal; ring).
    apply sm_ext. intros k Hk. rewrite (ang_mirror n k Hk), (ang_half n k). rewrite (proj2 (split_angle _ (A k Hk))). ring.
Qed.
Lemma U_val n : U 2 n = 2 * 4 ^ n /\ U 4 n = 8 / 3 * 16 ^ n + 4 / 3 * 4 ^ n.
Proof.
  induction n as [|n [I2 I4]].
  - assert (E : ang 0 0 = PI / 4) by (unfold ang; cbn [Nat.add Nat.mul INR pow]; field). unfold U. cbn [Nat.pow sm]. rewrite E, sin_PI4. assert (Q : sqrt 2 * sqrt 2 = 2) by (apply sqrt_sqrt; lra).
    assert (P : 0 < sqrt 2) by (apply sqrt_lt_R0; lra). assert (X : (1 / sqrt 2) ^ 2 = / 2) by (replace ((1 / sqrt 2) ^ 2) with (/ (sqrt 2 * sqrt 2)) by (field; lra); rewrite Q; reflexivity).
    replace ((1 / sqrt 2) ^ 4) with ((1 / sqrt 2) ^ 2 * (1 / sqrt 2) ^ 2) by ring. rewrite X. cbn [pow]. split; field.
  - destruct (U_step n) as [-> ->]. rewrite I2, I4. cbn [pow]. split; field.
Qed.
(** the sum over odd numbers *)
Definition odds (N : nat) : R := sm (fun k => / INR (2 * k + 1) ^ 4) N.
Lemma odds_bounds n : PI ^ 4 / 96 - PI ^ 4 / 96 * / 4 ^ n <= odds (2 ^ n) <= PI ^ 4 / 96 + PI ^ 4 / 192 * / 4 ^ n.
Proof.
  pose proof PI_RGT_0. assert (P4 : 0 < PI ^ 4) by (apply pow_lt; lra). assert (Q : 0 < 4 ^ n) by (apply pow_lt; lra). assert (E16 : 16 ^ n = 4 ^ n * 4 ^ n) by (rewrite <- Rpow_mult_distr; f_equal; ring).
  assert (E : odds (2 ^ n) = PI ^ 4 / 256 * / 16 ^ n * sm (fun k => / (ang n k) ^ 4) (2 ^ n)).
  { unfold odds. rewrite <- sm_scal. apply sm_ext. intros k Hk. unfold ang. assert (0 < INR (2 * k + 1)) by (apply lt_0_INR; lia). replace ((INR (2 * k + 1) * PI / 2 ^ (n + 2)) ^ 4) with (INR (2 * k + 1) ^ 4 * PI ^ 4 / (2 ^ (n + 2)) ^ 4) by (assert (0 < 2 ^ (n + 2)) by (apply pow_lt; lra); field; lra).
    replace ((2 ^ (n + 2)) ^ 4) with (256 * 16 ^ n) by (rewrite pow_add, Rpow_mult_distr, <- pow_mult, Nat.mul_comm, pow_mult; replace (2 ^ 4) with 16 by ring; ring). assert (0 < 16 ^ n) by (apply pow_lt; lra). field. repeat split; lra. }
  destruct (U_val n) as [V2 V4].
  assert (UP : sm (fun k => / (ang n k) ^ 4) (2 ^ n) <= 8 / 3 * 16 ^ n + 4 / 3 * 4 ^ n) by (rewrite <- V4; apply sm_le; intros k Hk; apply inv_between, ang_range, Hk).
  assert (LO : 8 / 3 * 16 ^ n - 8 / 3 * 4 ^ n <= sm (fun k => / (ang n k) ^ 4) (2 ^ n)).
  { apply Rle_trans with (sm (fun k => / sin (ang n k) ^ 4 + (-2 * / sin (ang n k) ^ 2 + 1)) (2 ^ n)).
    - rewrite !sm_plus, sm_scal, sm_const. fold (U 2 n). fold (U 4 n). rewrite V2, V4. assert (0 <= INR (2 ^ n)) by apply pos_INR. lra.
    - apply sm_le. intros k Hk. assert (A := ang_range n k Hk). destruct (inv_between _ A) as [B _]. destruct (sin_below _ A) as [[S _] _]. replace (/ sin (ang n k) ^ 4 + (-2 * / sin (ang n k) ^ 2 + 1)) with ((/ sin (ang n k) ^ 2 - 1) ^ 2) by (field; lra). exact B. }
  assert (P16 : 0 < PI ^ 4 / 256 * / 16 ^ n) by (rewrite E16; apply Rmult_lt_0_compat; [lra|apply Rinv_0_lt_compat, Rmult_lt_0_compat; assumption]).
  rewrite E. split.
  - apply Rle_trans with (2 := Rmult_le_compat_l _ _ _ (Rlt_le _ _ P16) LO). right. rewrite E16. field. lra.
  - apply Rle_trans with (1 := Rmult_le_compat_l _ _ _ (Rlt_le _ _ P16) UP). right. rewrite E16. field. lra.
Qed.

(** ** all numbers *)
Definition inv_pow (s : nat) (n : nat) : R := / INR (S n) ^ s.
Lemma inv_pow_pos s n : 0 < inv_pow s n.
Proof. unfold inv_pow. apply Rinv_0_lt_compat, pow_lt, lt_0_INR. lia. Qed.
Lemma inv_pow_less s t n : (s <= t)%nat -> inv_pow t n <= inv_pow s n.
Proof. intros H. unfold inv_pow. apply Rinv_le_contravar; [apply pow_lt, lt_0_INR; lia|]. apply Rle_pow; [rewrite S_INR; pose proof (pos_INR n); lra|assumption]. Qed.
Lemma sm_inv2 n : sm (inv_pow 2) (S n) <= 2 - / INR (S n).
Proof.
  induction n as [|n IH]; [unfold inv_pow; cbn [sm INR pow]; lra|]. change (sm (inv_pow 2) (S (S n))) with (sm (inv_pow 2) (S n) + inv_pow 2 (S n)).
  assert (X : inv_pow 2 (S n) <= / INR (S n) - / INR (S (S n))); [|lra]. unfold inv_pow. rewrite (S_INR (S n)). assert (P : 0 < INR (S n)) by (apply lt_0_INR; lia). set (x := INR (S n)) in *.
  replace (/ x - / (x + 1)) with (/ (x * (x + 1))) by (field; lra). apply Rinv_le_contravar; [apply Rmult_lt_0_compat; lra|]. cbn [pow]. nra.
Qed.
Lemma sm_inv s n : (2 <= s)%nat -> sm (inv_pow s) n <= 2.
Proof.
  intros Hs. apply Rle_trans with (sm (inv_pow 2) n); [apply sm_le; intros; now apply inv_pow_less|]. destruct n as [|n]; [cbn [sm]; lra|]. assert (X := sm_inv2 n). assert (0 < / INR (S n)) by (apply Rinv_0_lt_compat, lt_0_INR; lia). lra.
Qed.
Lemma series_pos_bounded (a : nat -> R) B : (forall n, 0 <= a n) -> (forall n, sm a n <= B) -> ex_series a /\ 0 <= Series a <= B.
Proof.
  intros Hp HB. assert (L : ex_finite_lim_seq (sum_n a)).
  { apply ex_finite_lim_seq_incr with B; intros n; [rewrite sum_Sn; unfold plus; cbn; specialize (Hp (S n)); lra|rewrite <- sm_sum_n; apply HB]. }
  destruct L as [l Hl]. assert (E : is_series a l) by exact Hl. split; [now exists l|]. rewrite (is_series_unique _ _ E). split.
  - apply (is_lim_seq_le (fun _ => 0) (sum_n a) 0 l); [|apply is_lim_seq_const|exact Hl]. intros n. rewrite <- sm_sum_n. clear -Hp. generalize (S n) as m. induction m as [|m IH]; cbn [sm]; [lra|specialize (Hp m); lra].
  - apply (is_lim_seq_le (sum_n a) (fun _ => B) l B); [|exact Hl|apply is_lim_seq_const]. intros n. rewrite <- sm_sum_n. apply HB.
Qed.
Lemma zeta_ex s : (2 <= s)%nat -> ex_series (inv_pow s) /\ 0 <= Series (inv_pow s) <= 2.
Proof. intros Hs. apply series_pos_bounded; [intros; left; apply inv_pow_pos|intros; now apply sm_inv]. Qed.
Lemma even_odd N : sm (inv_pow 4) (2 * N) = odds N + / 16 * sm (inv_pow 4) N.
Proof.
  induction N as [|N IH]; [cbn; ring|]. replace (2 * S N)%nat with (S (S (2 * N))) by lia. cbn [sm]. rewrite IH. unfold odds. cbn [sm]. fold (odds N). unfold inv_pow.
  replace (S (2 * N)) with (2 * N + 1)%nat by lia. replace (INR (S (2 * N + 1))) with (2 * INR (S N)) by (replace (S (2 * N + 1)) with (2 * S N)%nat by lia; rewrite mult_INR; cbn [INR]; ring).
  assert (0 < INR (S N)) by (apply lt_0_INR; lia). assert (0 < INR (2 * N + 1)) by (apply lt_0_INR; lia). field. lra.
Qed.
Lemma zeta4 : is_series (inv_pow 4) (PI ^ 4 / 90).
Proof.
  destruct (zeta_ex 4 ltac:(lia)) as [Hex _]. assert (HS := Series_correct _ Hex). set (Z := Series (inv_pow 4)) in *.
  assert (L1 : is_lim_seq (fun n => sm (inv_pow 4) n) Z). { apply is_lim_seq_incr_1. apply is_lim_seq_ext with (sum_n (inv_pow 4)); [intros n; symmetry; apply sm_sum_n|exact HS]. }
  assert (SUB : forall f : nat -> nat, (forall n, (f n < f (S n))%nat) -> is_lim_seq (fun n => sm (inv_pow 4) (f n)) Z) by (intros f Hf; apply (is_lim_seq_subseq (fun n => sm (inv_pow 4) n) Z f); [now apply eventually_subseq|exact L1]).
  assert (P2 : forall n, (2 ^ n < 2 ^ S n)%nat) by (intros n; apply Nat.pow_lt_mono_r; lia).
  assert (LA : is_lim_seq (fun n => sm (inv_pow 4) (2 ^ n)) Z) by (now apply SUB).
  assert (LB : is_lim_seq (fun n => sm (inv_pow 4) (2 * 2 ^ n)) Z) by (apply (SUB (fun n => 2 * 2 ^ n)%nat); intros n; specialize (P2 n); lia).
  assert (LO : is_lim_seq (fun n => odds (2 ^ n)) (PI ^ 4 / 96)).
  { assert (G : is_lim_seq (fun n => / 4 ^ n) 0). { apply is_lim_seq_ext with (fun n => (/ 4) ^ n); [intros n; apply pow_inv|]. apply is_lim_seq_geom. rewrite Rabs_pos_eq; lra. }
    apply is_lim_seq_le_le with (fun n => PI ^ 4 / 96 - PI ^ 4 / 96 * / 4 ^ n) (fun n => PI ^ 4 / 96 + PI ^ 4 / 192 * / 4 ^ n); [apply odds_bounds| |].
    - replace (Finite (PI ^ 4 / 96)) with (Finite (PI ^ 4 / 96 - PI ^ 4 / 96 * 0)) by (f_equal; ring). apply is_lim_seq_minus'; [apply is_lim_seq_const|]. apply (is_lim_seq_scal_l _ (PI ^ 4 / 96) 0 G).
    - replace (Finite (PI ^ 4 / 96)) with (Finite (PI ^ 4 / 96 + PI ^ 4 / 192 * 0)) by (f_equal; ring). apply is_lim_seq_plus'; [apply is_lim_seq_const|]. apply (is_lim_seq_scal_l _ (PI ^ 4 / 192) 0 G). }
  assert (LC : is_lim_seq (fun n => sm (inv_pow 4) (2 * 2 ^ n)) (PI ^ 4 / 96 + / 16 * Z)).
  { apply is_lim_seq_ext with (fun n => odds (2 ^ n) + / 16 * sm (inv_pow 4) (2 ^ n)); [intros n; symmetry; apply even_odd|]. apply is_lim_seq_plus'; [exact LO|]. apply (is_lim_seq_scal_l _ (/ 16) Z LA). }
  assert (E := is_lim_seq_unique _ _ LB). rewrite (is_lim_seq_unique _ _ LC) in E. injection E as E. replace (PI ^ 4 / 90) with Z by lra. exact HS.
Qed.
