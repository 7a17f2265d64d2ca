(** * Sums with a separate zero-frequency term; limits of sums for vanishing frequency *)
From Coq Require Import Reals.
From Coquelicot Require Import Coquelicot.
From Coq Require Import Bool ZArith List Lia Lra.
From Verif Require Import Base Geo_Model Geo_Spec Mat_Model Mat_Spec Mat_Proofs Scat_Model Scat_Spec Scat_Proofs Scat_Proofs4 Scat_Proofs7 Scat_Proofs8 Scat_Proofs9 Scat_Proofs10 Trans_Model Lin_Model RT_Model RT_Spec Run_Spec Run_Proofs Run_Proofs4 Run_Proofs7 Run_Proofs9
  Conv_Spec Conv_Spec2 Conv_Proofs8 Conv_Proofs9 Far_Proofs2 Rep_Spec Rep_Proofs Stat_Spec.
Import ListNotations.
Open Scope R_scope.

Lemma sliced_static g0 (g : nat -> R -> R) (h : R -> R) dT nmax i : (1 <= i)%nat -> (forall n, (1 <= n)%nat /\ (n <= nmax)%nat -> g (n / 50)%nat (dT * INR n) = h (dT * INR n)) ->
  sliced_sum g0 g dT nmax i = matsubara_static g0 h dT nmax i.
Proof.
  intros Hi H. unfold sliced_sum, matsubara_static. do 3 f_equal. apply map_ext_in. intros j Hj. apply in_seq in Hj.
  replace (INR j * (INR i * dT)) with (dT * INR (i * j)) by (rewrite mult_INR; ring). apply H. split; [nia|]. assert (i * (nmax / i) <= nmax)%nat by (apply Nat.mul_div_le; lia). nia.
Qed.
Lemma static_scal c g0 g dT n i : matsubara_static (c * g0) (fun k => c * g k) dT n i = c * matsubara_static g0 g dT n i.
Proof. unfold matsubara_static. rewrite (Rsum_map_scal c (fun j => g (INR j * (INR i * dT)))). field. Qed.
Lemma static_opp g0 g dT n i : matsubara_static (- g0) (fun k => - g k) dT n i = - matsubara_static g0 g dT n i.
Proof.
  transitivity (matsubara_static (-1 * g0) (fun k => (-1) * g k) dT n i); [|rewrite static_scal; ring]. unfold matsubara_static. do 2 f_equal; [f_equal; ring|]. f_equal. apply map_ext. intros j. ring.
Qed.
Lemma static_less g0 g0' (g g' : R -> R) dT n n' i : 0 < dT -> (1 <= i)%nat -> (n <= n')%nat -> g0' <= g0 -> (forall k, 0 < k -> g' k <= g k) -> (forall k, 0 < k -> g' k <= 0) -> matsubara_static g0' g' dT n' i <= matsubara_static g0 g dT n i.
Proof.
  intros HT Hi Hn H0 H H'. unfold matsubara_static. assert (Pi : 0 < INR i) by (apply lt_0_INR; lia). assert (PT : 0 < INR i * dT) by (now apply Rmult_lt_0_compat).
  apply Rmult_le_compat_l; [lra|]. assert (D : (n / i <= n' / i)%nat) by (apply Nat.div_le_mono; lia). replace (n' / i)%nat with (n / i + (n' / i - n / i))%nat by lia. rewrite seq_app, map_app.
  assert (P : forall j, (1 <= j)%nat -> 0 < INR j * (INR i * dT)) by (intros j Hj; apply Rmult_lt_0_compat; [apply lt_0_INR; lia|assumption]).
  assert (A : Rsum (map (fun j => g' (INR j * (INR i * dT))) (seq 1 (n / i))) <= Rsum (map (fun j => g (INR j * (INR i * dT))) (seq 1 (n / i)))).
  { apply Rsum_map_le. intros j Hj. apply in_seq in Hj. apply H, P. lia. }
  match goal with |- _ / 2 + Rsum (?a ++ ?b) <= _ => assert (B : Rsum (a ++ b) <= Rsum a) end.
  { apply Rsum_app_nonpos. intros y Hy. apply in_map_iff in Hy. destruct Hy as [j [<- Hj]]. apply in_seq in Hj. apply H', P. lia. }
  lra.
Qed.
Lemma static_more g0 g0' (g g' : R -> R) dT n n' i : 0 < dT -> (1 <= i)%nat -> (n <= n')%nat -> g0 <= g0' -> (forall k, 0 < k -> g k <= g' k) -> (forall k, 0 < k -> 0 <= g' k) -> matsubara_static g0 g dT n i <= matsubara_static g0' g' dT n' i.
Proof.
  intros HT Hi Hn H0 H H'. assert (X := static_less (- g0) (- g0') (fun k => - g k) (fun k => - g' k) dT n n' i HT Hi Hn). rewrite !static_opp in X.
  apply Ropp_le_cancel, X; [lra| |]; intros k Hk; [specialize (H k Hk)|specialize (H' k Hk)]; lra.
Qed.
Lemma static_lower g0 (g : R -> R) (d dT : R) n i : 0 < d -> 0 < dT -> (1 <= i)%nat -> -4 <= g0 -> (forall k, 0 < k -> - (4 * exp (- (d * k))) <= g k) ->
  let T := INR i * dT in let r := exp (- (d * T)) in - (T * (2 + 4 * (r / (1 - r)))) <= matsubara_static g0 g dT n i.
Proof.
  intros Hd HT Hi H0 H T r. rewrite <- (sliced_static g0 (fun _ => g) g dT n i Hi); [|reflexivity]. apply sliced_lower; [assumption..|].
  intros j Hj. apply H, Rmult_lt_0_compat; [assumption|apply lt_0_INR; lia].
Qed.
Lemma static_upper g0 (g : R -> R) (C d dT : R) n i : 0 < C -> 0 < d -> 0 < dT -> (1 <= i)%nat -> g0 <= C -> (forall k, 0 < k -> g k <= C * exp (- (d * k))) ->
  let T := INR i * dT in let r := exp (- (d * T)) in matsubara_static g0 g dT n i <= C * T * (1 / 2 + r / (1 - r)).
Proof.
  intros HC Hd HT Hi H0 H T r. assert (P : 0 < 4 / C) by (apply Rdiv_lt_0_compat; lra).
  assert (Y0 : -4 <= - (4 / C) * g0).
  { assert (Z := Rmult_le_compat_l (4 / C) _ _ (Rlt_le _ _ P) H0). replace (4 / C * C) with 4 in Z by (field; lra). lra. }
  assert (Y : forall k, 0 < k -> - (4 * exp (- (d * k))) <= - (4 / C) * g k).
  { intros k Hk. assert (Z := Rmult_le_compat_l (4 / C) _ _ (Rlt_le _ _ P) (H k Hk)). replace (4 / C * (C * exp (- (d * k)))) with (4 * exp (- (d * k))) in Z by (field; lra). lra. }
  assert (X := static_lower _ _ d dT n i Hd HT Hi Y0 Y). rewrite static_scal in X. fold T in X. cbv zeta in X. fold r in X.
  assert (W : 4 / C * matsubara_static g0 g dT n i <= T * (2 + 4 * (r / (1 - r)))) by lra.
  apply Rmult_le_reg_l with (4 / C); [exact P|]. apply Rle_trans with (1 := W). right. replace (4 / C * (C * T * (1 / 2 + r / (1 - r)))) with (4 / C * C * (T * (1 / 2 + r / (1 - r)))) by ring.
  replace (4 / C * C) with 4 by (field; lra). lra.
Qed.
Lemma static_pos g0 g dT n i : 0 < dT -> (1 <= i)%nat -> 0 <= g0 -> (forall k, 0 < k -> 0 < g k) -> 0 <= matsubara_static g0 g dT n i /\ ((i <= n)%nat -> 0 < matsubara_static g0 g dT n i).
Proof.
  intros HT Hi H0 H. unfold matsubara_static. assert (Pi : 0 < INR i) by (apply lt_0_INR; lia). assert (PT : 0 < INR i * dT) by (now apply Rmult_lt_0_compat).
  assert (PJ : forall j, (1 <= j)%nat -> 0 < g (INR j * (INR i * dT))) by (intros j Hj; apply H, Rmult_lt_0_compat; [apply lt_0_INR; lia|exact PT]).
  assert (X : forall a m, (1 <= a)%nat -> 0 <= Rsum (map (fun j => g (INR j * (INR i * dT))) (seq a m))).
  { intros a m Ha. apply Rsum_nonneg. intros y Hy. apply in_map_iff in Hy. destruct Hy as [j [<- Hj]]. apply in_seq in Hj. left. apply PJ. lia. }
  split; [apply Rmult_le_pos; [lra|]; assert (Z := X 1%nat (n / i)%nat (le_n _)); lra|]. intros Hn. apply Rmult_lt_0_compat; [exact PT|].
  assert (Q : (1 <= n / i)%nat) by (apply Nat.div_le_lower_bound; lia). replace (n / i)%nat with (S (n / i - 1))%nat by lia. cbn [seq map].
  match goal with |- 0 < _ + Rsum (?a :: ?l) => change (Rsum (a :: l)) with (a + Rsum l) end.
  assert (Z := X 2%nat (n / i - 1)%nat ltac:(lia)). assert (W := PJ 1%nat (le_n _)). lra.
Qed.
Lemma never_early precision lmax f M : precision <= 0 -> stops_at_k0 precision lmax f M -> M = lmax.
Proof.
  intros Hp [HM [_ HS]]. destruct (Nat.eq_dec M lmax) as [|Hn]; [assumption|exfalso]. destruct (HS ltac:(lia)) as [_ C]. refine (never_close _ _ _ _ C). lra.
Qed.

(** ** limits of sums over m *)
Lemma lim0_Rsum {A} (f : A -> R -> R) (v : A -> R) l : (forall a, In a l -> lim0 (f a) (v a)) -> lim0 (fun k => Rsum (map (fun a => f a k) l)) (Rsum (map v l)).
Proof.
  intros H. induction l as [|a l IH]; [apply lim0_const|]. cbn [map]. change (Rsum (v a :: map v l)) with (v a + Rsum (map v l)).
  apply lim0_ext with (f := fun k => f a k + Rsum (map (fun a => f a k) l)); [reflexivity|]. apply lim0_plus; [apply H; now left|apply IH]. intros b Hb. apply H. now right.
Qed.
Lemma lim0_rsum (f : nat -> R -> R) (v : nat -> R) N : (forall m, (m <= N)%nat -> lim0 (f m) (v m)) -> lim0 (fun k => rsum (fun m => f m k) N) (rsum v N).
Proof.
  intros H. unfold rsum. apply lim0_plus; [apply H; lia|]. apply lim0_mult; [apply lim0_const|]. apply lim0_Rsum. intros m Hm. apply in_seq in Hm. apply H. lia.
Qed.
Lemma lim0_lnabs f d : 0 < d -> lim0 f d -> lim0 (fun k => ln (Rabs (f k))) (ln d).
Proof.
  intros Hd H. rewrite <- (Rabs_pos_eq d) at 1 by lra. apply (lim0_comp (fun x => ln (Rabs x))); [|exact H].
  apply (continuity_pt_comp Rabs ln); [apply Rcontinuity_abs|]. apply derivable_continuous_pt. exists (/ Rabs d). apply derivable_pt_lim_ln. rewrite Rabs_pos_eq; lra.
Qed.

(** ** the bound for vanishing frequency *)
Lemma lim0_total e (u : R -> R) ra rb L : Forall physical e -> (forall o, In o e -> o_wR o <> 0) -> (forall k, 0 < k -> u k = 1) -> 0 < ra -> 0 < rb -> ra + rb < L ->
  lim0 (fun k => total 1 (eps_spec e) u k ra rb L) (total0 ra rb L).
Proof.
  intros Hp Hw Hu Ha Hb HL. assert (LP : 0 < L) by lra. assert (IL : 0 < / L) by now apply Rinv_0_lt_compat.
  set (q := ((ra + rb) / L) ^ 2). set (a := ra / L). set (b := rb / L).
  assert (Q0 : 0 < (ra + rb) / L < 1). { split; [apply Rdiv_lt_0_compat; lra|]. apply (Rmult_lt_reg_r L); [assumption|]. unfold Rdiv. rewrite Rmult_assoc, Rinv_l; lra. }
  assert (Q : 0 < q < 1) by (unfold q; cbn [pow]; split; nra).
  set (x := way (eps_spec e)). 
  assert (LX : lim0 (fun k => x k L) 0).
  { unfold x, way. apply lim0_eq with (a := 0 * L * sqrt (eps_spec e 0)); [ring|]. apply lim0_mult; [apply lim0_mult; [apply lim0_id|apply lim0_const]|].
    apply lim0_comp; [|now apply lim0_eps]. apply continuity_pt_sqrt. left. now apply eps0_pos. }
  set (kf := fun y => 4 * (1 + y) ^ 2 * (2 + a * y) * (2 + b * y) * exp (2 * (a * y + b * y))).
  apply lim0_ext with (f := fun k => 3 * (4 * kf (x k L) * a * b / (1 - q) ^ 2) * (q ^ 2 / (1 - q ^ 2))).
  { intros k Hk. unfold total, height. assert (E0 := eps_ge_1 e k Hp Hk). assert (E1 : 0 < eps_spec e k) by lra. clear E0. rename E1 into E0. assert (SP := sqrt_lt_R0 _ E0).
    assert (XP : 0 < way (eps_spec e) k L) by (unfold way; apply Rmult_lt_0_compat; [now apply Rmult_lt_0_compat|assumption]).
    assert (X1 : size (eps_spec e) u k ra = a * way (eps_spec e) k L) by (unfold size, refr, a, way; rewrite (Hu k Hk), Rmult_1_r; field; lra).
    assert (X2 : size (eps_spec e) u k rb = b * way (eps_spec e) k L) by (unfold size, refr, b, way; rewrite (Hu k Hk), Rmult_1_r; field; lra).
    assert (EQ : rate 1 (eps_spec e) u k ra rb L = q). { unfold rate, q. rewrite X1, X2. f_equal. unfold a, b. field. lra. }
    cbv zeta. rewrite EQ, X1, X2. unfold x. set (y := way (eps_spec e) k L) in *. replace (a * y / y) with a by (field; lra). replace (b * y / y) with b by (field; lra).
    assert (KE : kfac 1 (a * y) (b * y) y = kf y) by (unfold kfac, kf; do 2 f_equal; ring). rewrite KE. reflexivity. }
  apply lim0_eq with (a := 3 * (4 * kf 0 * a * b / (1 - q) ^ 2) * (q ^ 2 / (1 - q ^ 2))).
  { unfold total0. cbv zeta. fold q. fold a. fold b. assert (K0 : kf 0 = 16) by (unfold kf; replace (2 * (a * 0 + b * 0)) with 0 by ring; rewrite exp_0; ring). rewrite K0. unfold Rdiv. ring. }
  unfold Rdiv, kf. repeat first [exact LX | apply lim0_const | apply lim0_mult | apply lim0_pow | apply lim0_plus].
  apply (lim0_comp exp); [apply derivable_continuous_pt, derivable_pt_exp|]. repeat first [exact LX | apply lim0_const | apply lim0_mult | apply lim0_plus].
Qed.
