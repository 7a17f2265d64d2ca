(** * Limits of Mie coefficients: next order at small arguments, vanishing cores, strong conductors *)
From Coq Require Import Reals.
From Coquelicot Require Import Coquelicot.
From Coq Require Import ZArith List Lia Lra.
From Verif Require Import Base Mat_Model Mat_Spec Mat_Proofs Help_Model Help_Spec Help_Proofs Bessel_Model Bessel_Spec Bessel_Proofs Bessel_Proofs2 Scat_Model Scat_Spec Scat_Proofs Scat_Proofs2 Scat_Proofs4 Scat_Proofs7 Scat_Proofs8 Scat_Proofs9.
Import ListNotations.
Open Scope R_scope.

(** ** the ratio i_{l+2}/i_{l+1} *)
Definition rho (l : nat) (x : R) : R := sph_i (S (S l)) x / sph_i (S l) x.
Lemma rho_bounds l x : 0 < x -> 0 < rho l x < 1.
Proof.
  intros Hx. generalize (sph_i_pos (S l) x Hx) (sph_i_pos (S (S l)) x Hx) (sph_i_decr (S l) x Hx). intros A B C. unfold rho. split; [now apply Rdiv_lt_0_compat|].
  apply Rmult_lt_reg_r with (sph_i (S l) x); [assumption|]. unfold Rdiv. rewrite Rmult_assoc, Rinv_l, Rmult_1_r by lra. lra.
Qed.
Lemma DI_rho l x : 0 < x -> DI l x = INR l + 2 + x * rho l x.
Proof.
  intros Hx. rewrite DIE by assumption. unfold rho. rewrite (sph_i_rec l x Hx), S_INR. generalize (sph_i_pos (S l) x Hx). intros. field. lra.
Qed.
Lemma DI_upper l x : 0 < x -> DI l x < INR l + 2 + x.
Proof. intros Hx. rewrite DI_rho by assumption. generalize (rho_bounds l x Hx). intros [A B]. nra. Qed.
Lemma DI_lower l x : 0 < x -> x - INR (S l) < DI l x.
Proof.
  intros Hx. rewrite DIE by assumption. generalize (sph_i_pos (S l) x Hx) (sph_i_decr l x Hx). intros A B.
  assert (1 < sph_i l x / sph_i (S l) x). { apply Rmult_lt_reg_r with (sph_i (S l) x); [assumption|]. unfold Rdiv. rewrite Rmult_assoc, Rinv_l, Rmult_1_r by lra. lra. }
  nra.
Qed.
Lemma rho_lim l : lim0 (fun x => rho l x / x) (/ (2 * INR l + 5)).
Proof.
  apply (lim0_ext (fun x => (sph_i (S (S l)) x / x ^ S (S l)) / (sph_i (S l) x / x ^ S l))).
  { intros x Hx. unfold rho. generalize (sph_i_pos (S l) x Hx). intros. assert (x ^ l <> 0) by (apply pow_nonzero; lra). cbn [pow]. field. repeat split; lra || assumption. }
  apply lim0_eq with (/ odd_fact (S (S l)) / / odd_fact (S l)).
  { rewrite (odd_fact_S (S l)), S_INR. generalize (odd_fact_pos (S l)) (pos_INR l). intros. field. split; lra. }
  apply lim0_div; [|apply lim0_i|apply lim0_i]. apply Rinv_neq_0_compat. generalize (odd_fact_pos (S l)). lra.
Qed.
Lemma rho_derive l x : 0 < x -> is_derive (rho l) x (1 - (2 * INR l + 4) * rho l x / x - rho l x ^ 2).
Proof.
  intros Hx. generalize (sph_i_pos (S l) x Hx). intros P.
  eapply deq; [apply (is_derive_div (sph_i (S (S l))) (sph_i (S l)) x); [now apply sph_i_derive_down|now apply sph_i_derive|lra]|].
  unfold rho. rewrite !S_INR. field. split; lra.
Qed.
Lemma DI_derive l x : 0 < x -> is_derive (DI l) x (x * (1 - (2 * INR l + 3) * (rho l x / x) - rho l x ^ 2)).
Proof.
  intros Hx. apply (is_derive_pos_ext _ (fun t => INR l + 2 + t * rho l t)); [assumption|intros; now rewrite DI_rho|].
  eapply deq; [apply (dplus (fun _ => INR l + 2) (fun t => t * rho l t)); [apply (is_derive_const (INR l + 2) x)|apply (dmult (fun t => t) (rho l)); [apply (is_derive_id x)|now apply rho_derive]]|].
  unfold zero, one; cbn. field. lra.
Qed.
(** secants of DI in the square of the argument *)
Lemma DI_secant l eps : 0 < eps -> exists d, 0 < d /\ forall x y, 0 < x < d -> 0 < y < d ->
  Rabs (DI l x - DI l y - (x ^ 2 - y ^ 2) / (2 * INR l + 5)) <= eps * Rabs (x ^ 2 - y ^ 2).
Proof.
  intros He. assert (HL := pos_INR l).
  assert (Q : lim0 (fun x => (1 - (2 * INR l + 3) * (rho l x / x) - (x * (rho l x / x)) ^ 2) / 2) (/ (2 * INR l + 5))).
  { apply lim0_eq with ((1 - (2 * INR l + 3) * / (2 * INR l + 5) - (0 * / (2 * INR l + 5)) ^ 2) / 2); [field; lra|].
    apply lim0_div; [lra| |apply lim0_const]. apply lim0_minus; [apply lim0_minus; [apply lim0_const|apply lim0_mult; [apply lim0_const|apply rho_lim]]|].
    apply lim0_pow, lim0_mult; [apply lim0_id|apply rho_lim]. }
  destruct (Q (fun v => Rabs (v - / (2 * INR l + 5)) < eps)) as [d Hd]. { exists (mkposreal eps He). intros v Hv. exact Hv. }
  exists d. split; [apply cond_pos|].
  assert (W : forall x y, 0 < x -> x < y -> y < d -> Rabs (DI l y - DI l x - (y ^ 2 - x ^ 2) / (2 * INR l + 5)) <= eps * Rabs (y ^ 2 - x ^ 2)).
  { intros x y Hx Hxy Hy. set (A := DI l y - DI l x). set (B := y ^ 2 - x ^ 2).
    assert (PB : 0 < B) by (unfold B; nra).
    destruct (MVT_gen (fun t => DI l t * B - t ^ 2 * A) x y (fun t => t * (1 - (2 * INR l + 3) * (rho l t / t) - rho l t ^ 2) * B - 2 * t * A)) as [c [Hc E]].
    - intros t Ht. rewrite Rmin_left, Rmax_right in Ht by lra.
      eapply deq; [apply (dplus (fun t => DI l t * B) (fun t => - (t ^ 2 * A)))|]; [| |].
      + apply (dmult (DI l) (fun _ => B)); [apply DI_derive; lra|apply (is_derive_const B t)].
      + assert (is_derive (fun t => - (t ^ 2 * A)) t (- (2 * t * A))) by (auto_derive; [exact I|ring]). exact H.
      + unfold zero; cbn. ring.
    - intros t Ht. rewrite Rmin_left, Rmax_right in Ht by lra.
      apply continuity_pt_minus; [apply continuity_pt_mult; [apply DI_cont; lra|apply continuity_pt_const; intros ? ?; reflexivity]|].
      apply derivable_continuous_pt. apply derivable_pt_mult; [apply derivable_pt_pow|apply derivable_pt_const].
    - rewrite Rmin_left, Rmax_right in Hc by lra. unfold A, B in E.
      assert (E0 : DI l y * (y ^ 2 - x ^ 2) - y ^ 2 * (DI l y - DI l x) - (DI l x * (y ^ 2 - x ^ 2) - x ^ 2 * (DI l y - DI l x)) = 0) by ring.
      rewrite E0 in E. fold A B in E. symmetry in E. apply Rmult_integral in E. destruct E as [E|E]; [|lra].
      assert (Hc0 : 0 < c) by lra.
      assert (EA : A = (1 - (2 * INR l + 3) * (rho l c / c) - (c * (rho l c / c)) ^ 2) / 2 * B).
      { apply Rmult_eq_reg_l with (2 * c); [|lra]. replace (c * (rho l c / c)) with (rho l c) by (field; lra). lra. }
      assert (Bd : Rabs ((1 - (2 * INR l + 3) * (rho l c / c) - (c * (rho l c / c)) ^ 2) / 2 - / (2 * INR l + 5)) < eps).
      { apply (Hd c); [|exact Hc0]. unfold ball; cbn; unfold AbsRing_ball, abs, minus, plus, opp; cbn. rewrite Ropp_0, Rplus_0_r, Rabs_pos_eq; lra. }
      rewrite EA. set (v := (1 - (2 * INR l + 3) * (rho l c / c) - (c * (rho l c / c)) ^ 2) / 2) in *.
      replace (v * B - B / (2 * INR l + 5)) with ((v - / (2 * INR l + 5)) * B) by (field; lra). rewrite Rabs_mult.
      apply Rmult_le_compat_r; [apply Rabs_pos|lra]. }
  intros x y [Hx Hx'] [Hy Hy']. destruct (Rtotal_order x y) as [L|[->|L]].
  - specialize (W x y Hx L Hy'). replace (DI l x - DI l y - (x ^ 2 - y ^ 2) / (2 * INR l + 5)) with (- (DI l y - DI l x - (y ^ 2 - x ^ 2) / (2 * INR l + 5))) by (field; lra).
    rewrite Rabs_Ropp. replace (x ^ 2 - y ^ 2) with (- (y ^ 2 - x ^ 2)) by ring. rewrite Rabs_Ropp. exact W.
  - replace (DI l y - DI l y - (y ^ 2 - y ^ 2) / (2 * INR l + 5)) with 0 by (field; lra). rewrite Rabs_R0. apply Rmult_le_pos; [lra|apply Rabs_pos].
  - exact (W y x Hy L Hx').
Qed.
Lemma DI_slope l (x y : R -> R) : to0 x -> to0 y ->
  exists g, lim0 g (/ (2 * INR l + 5)) /\ forall k, 0 < k -> DI l (x k) - DI l (y k) = g k * (x k ^ 2 - y k ^ 2).
Proof.
  intros X Y. exists (fun k => if Req_EM_T (x k ^ 2) (y k ^ 2) then / (2 * INR l + 5) else (DI l (x k) - DI l (y k)) / (x k ^ 2 - y k ^ 2)). split.
  - intros P [eps HP]. assert (He : 0 < eps / 2) by (generalize (cond_pos eps); lra). destruct (DI_secant l (eps / 2) He) as [d [Hd D]].
    assert (Sm : forall f, to0 f -> at_right 0 (fun k => 0 < f k < d)).
    { intros f [Pf Lf]. generalize (Lf (fun v => v < d)). intros H. specialize (H ltac:(exists (mkposreal d Hd); intros v Hv; unfold ball in Hv; cbn in Hv; unfold AbsRing_ball, abs, minus, plus, opp in Hv; cbn in Hv; apply Rabs_lt_between in Hv; cbn in Hv; lra)).
      unfold filtermap in H. generalize (filter_and _ _ H at_right_pos). apply filter_imp. intros k [A B]. split; [now apply Pf|exact A]. }
    unfold filtermap. generalize (filter_and _ _ (Sm x X) (Sm y Y)). apply filter_imp. intros k [A B]. apply HP. unfold ball; cbn; unfold AbsRing_ball, abs, minus, plus, opp; cbn.
    destruct (Req_EM_T (x k * (x k * 1)) (y k * (y k * 1))) as [E|E].
    + rewrite Rplus_opp_r, Rabs_R0. apply cond_pos.
    + specialize (D _ _ A B). cbn [pow] in D. set (u := x k * (x k * 1) - y k * (y k * 1)) in *. assert (U : u <> 0) by (unfold u; lra).
      replace ((DI l (x k) - DI l (y k)) / u + - / (2 * INR l + 5)) with ((DI l (x k) - DI l (y k) - u / (2 * INR l + 5)) / u) by (generalize (pos_INR l); intros; field; split; lra || assumption).
      unfold Rdiv at 1. rewrite Rabs_mult, Rabs_inv. apply Rle_lt_trans with (eps / 2); [|generalize (cond_pos eps); lra].
      assert (0 < Rabs u) by (now apply Rabs_pos_lt). apply Rmult_le_reg_r with (Rabs u); [assumption|]. rewrite Rmult_assoc, Rinv_l, Rmult_1_r by lra. exact D.
  - intros k Hk. destruct (Req_EM_T (x k ^ 2) (y k ^ 2)) as [E|E]; [|field; lra].
    destruct X as [X _]. destruct Y as [Y _]. specialize (X k Hk). specialize (Y k Hk). rewrite E. replace (x k) with (y k); [ring|]. nra.
Qed.
(** the coefficient for equal parameters p (both media non-magnetic) *)
Lemma ext_equal_p l (n1 n2 : R -> R) r : 0 < r -> to0 (fun k => n1 k * k * r) -> to0 (fun k => n2 k * k * r) -> (forall k, 0 < k -> 0 < n2 k) ->
  exists g, lim0 g (sgn (S l) / (cw (S l) * (2 * INR l + 3) * (2 * INR l + 5))) /\
    forall k, 0 < k -> ext_val l 1 1 (n1 k) (n2 k) k r = g k * ((k * r) ^ 2 * (n1 k ^ 2 - n2 k ^ 2)) * (k * r * n2 k) ^ (2 * S l + 1).
Proof.
  intros Hr X1 X2 Hn. assert (HL := pos_INR l). assert (HC := cw_pos (S l)). destruct (DI_slope l _ _ X1 X2) as [g [Lg Eg]].
  exists (fun k => sgn (S l) * PI * 0.5 * (g k / (DI l (n1 k * k * r) - DK l (n2 k * k * r))) * (sph_i (S l) (n2 k * k * r) / sph_k (S l) (n2 k * k * r) / (n2 k * k * r) ^ (2 * S l + 1))).
  split.
  - apply lim0_eq with (sgn (S l) * PI * 0.5 * (/ (2 * INR l + 5) / (INR l + 2 - - (INR l + 1))) * (2 / PI / ((2 * INR (S l) + 1) * odd_dfact (S l) ^ 2))).
    { unfold cw in *. rewrite S_INR in *. generalize PI_RGT_0 (odd_dfact_pos (S l)). intros. replace 0.5 with (/ 2) by lra. field. repeat split; nra || lra. }
    apply lim0_mult; [apply lim0_mult; [apply lim0_const|apply lim0_div; [lra|exact Lg|apply lim0_minus]]|].
    + apply (lim0_sub (DI l) _ _ X1). apply lim0_DI.
    + apply (lim0_sub (DK l) _ _ X2). apply lim0_DK.
    + apply (lim0_sub (fun x => sph_i (S l) x / sph_k (S l) x / x ^ (2 * S l + 1)) _ _ X2). apply lim0_ratio.
  - intros k Hk. destruct X1 as [P1 _]. destruct X2 as [P2 _]. specialize (P1 k Hk). specialize (P2 k Hk). specialize (Eg k Hk).
    unfold ext_val. rewrite ik_scale by assumption. unfold ratio_ext. rewrite !Rmult_1_l, Eg.
    generalize (DI_pos l _ P1) (DK_neg l _ P2) (sph_k_pos (S l) _ P2). intros A B K.
    replace (k * r * n2 k) with (n2 k * k * r) by ring. assert (Z : (n2 k * k * r) ^ (2 * S l + 1) <> 0) by (apply pow_nonzero; lra).
    set (D := DI l (n1 k * k * r) - DK l (n2 k * k * r)). assert (D <> 0) by (unfold D; lra).
    set (p := (n2 k * k * r) ^ (2 * S l + 1)) in *. set (I2 := sph_i (S l) (n2 k * k * r)). set (K2 := sph_k (S l) (n2 k * k * r)) in *.
    clearbody D p I2 K2. field. repeat split; assumption || lra.
Qed.

(** ** vanishing cores *)
Lemma shellf_lump s pi pe a b c d e1 mi : shellf s pi pe a b c d e1 mi = shellf s pi pe a b c d 1 (e1 * mi).
Proof. unfold shellf. f_equal; [f_equal; ring|f_equal; ring]. Qed.
Lemma shellf_lim l pi pe a b c d (y : R -> R) : pe * a - pi * d <> 0 -> lim0 y 0 ->
  lim0 (fun t => shellf (sgn l) pi pe a b c d 1 (y t)) (ratio_ext pi pe a c d * (sgn l * PI * 0.5)).
Proof.
  intros H Y. rewrite <- (shellf_0 l pi pe a b c d 1 H). unfold shellf. apply lim0_div; [lra| |].
  - apply lim0_mult; [apply lim0_const|]. apply lim0_minus; [|apply lim0_const]. apply lim0_mult; [apply lim0_const|exact Y].
  - apply lim0_minus; [|apply lim0_const]. apply lim0_mult; [apply lim0_const|exact Y].
Qed.
Lemma ext_swap l p1 p2 n1 n2 k r : ext_val l p1 p2 n1 n2 k r = ext_val l p1 p2 n1 n2 r k.
Proof. unfold ext_val. replace (n1 * k * r) with (n1 * r * k) by ring. replace (n2 * k * r) with (n2 * r * k) by ring. reflexivity. Qed.
Lemma to0_lin n k : 0 < n -> 0 < k -> to0 (fun r => n * r * k).
Proof.
  intros Hn Hk. split; [intros r Hr; repeat apply Rmult_lt_0_compat; assumption|].
  eapply lim0_eq; [|apply lim0_mult; [apply lim0_mult; [apply lim0_const|apply lim0_id]|apply lim0_const]]. ring.
Qed.
Lemma to0_pow (n k : R) m : 0 < n -> 0 < k -> lim0 (fun r => (r * k * n) ^ (2 * S m + 1)) 0.
Proof.
  intros Hn Hk. eapply lim0_eq; [|apply lim0_pow; apply lim0_mult; [apply lim0_mult; [apply lim0_id|apply lim0_const]|apply lim0_const]].
  replace (2 * S m + 1)%nat with (S (2 * m + 2)) by lia. cbn [pow]. ring.
Qed.
Lemma ext_core0 l p1 p2 n1 n2 k : 0 < p1 -> 0 < p2 -> 0 < n1 -> 0 < n2 -> 0 < k -> lim0 (fun r => ext_val l p1 p2 n1 n2 k r) 0.
Proof.
  intros H1 H2 N1 N2 Hk. assert (HL := pos_INR l).
  assert (L : lim0 (fun r => ext_val l p1 p2 n1 n2 r k / (r * k * n2) ^ (2 * S l + 1)) (sgn (S l) * ((p2 * (INR l + 2) - p1 * (INR (S l) + 1)) / (p2 * (INR l + 2) + p1 * INR (S l))) * / cw (S l))).
  { apply (ext_limit l (fun _ => p1) (fun _ => p2) (fun _ => n1) (fun _ => n2) k); [now apply to0_lin|].
    apply (ratio_ext_fin l (fun _ => p1) (fun _ => p2) (fun r => n1 * r * k) (fun r => n2 * r * k)); try assumption; try apply lim0_const; [lra| |now apply to0_lin].
    apply (lim0_sub (DI l)); [now apply to0_lin|apply lim0_DI]. }
  apply (lim0_ext (fun r => ext_val l p1 p2 n1 n2 r k / (r * k * n2) ^ (2 * S l + 1) * (r * k * n2) ^ (2 * S l + 1))).
  { intros r Hr. rewrite (ext_swap l p1 p2 n1 n2 k r). field. apply pow_nonzero. assert (0 < r * k * n2) by (repeat apply Rmult_lt_0_compat; assumption). lra. }
  eapply lim0_eq; [|apply lim0_mult; [exact L|apply to0_pow; assumption]]. ring.
Qed.
Lemma pec_core0 l n k : 0 < n -> 0 < k -> lim0 (fun r => sgn (S l) * PI * 0.5 * pec_scale l n k r) 0 /\
  lim0 (fun r => sgn (S l) * PI * 0.5 * DI l (n * k * r) / DK l (n * k * r) * pec_scale l n k r) 0.
Proof.
  intros Hn Hk. destruct (pec_limit l (fun _ => n) k (to0_lin n k Hn Hk)) as [A B].
  assert (Sw : forall r, n * k * r = n * r * k) by (intros; ring). assert (P := to0_pow n k l Hn Hk).
  assert (NZ : forall r, 0 < r -> (r * k * n) ^ (2 * S l + 1) <> 0). { intros r Hr. apply pow_nonzero. assert (0 < r * k * n) by (repeat apply Rmult_lt_0_compat; assumption). lra. }
  split.
  - eapply (lim0_ext _ _ 0); [|eapply lim0_eq; [|apply lim0_mult; [exact A|exact P]]; ring]. intros r Hr. cbv beta. unfold pec_scale. rewrite Sw. field. now apply NZ.
  - eapply (lim0_ext _ _ 0); [|eapply lim0_eq; [|apply lim0_mult; [exact B|exact P]]; ring]. intros r Hr. cbv beta. unfold pec_scale. rewrite Sw. field. split; [|now apply NZ].
    assert (X : 0 < n * r * k) by (repeat apply Rmult_lt_0_compat; assumption). generalize (DK_neg l _ X) (pos_INR l). lra.
Qed.

(** ** strong conductors: e -> infinity at fixed mu *)
Lemma ratio_te_strong u1 u2 di de ke B : 0 < u1 -> 0 < u2 -> ke < 0 -> 0 < B -> u1 * (Rabs de - ke) <= B * u2 * di -> Rabs (ratio_ext u1 u2 di de ke - 1) <= B.
Proof.
  intros H1 H2 Hk HB H. assert (0 <= Rabs de) by apply Rabs_pos. assert (0 < di). { assert (0 < u1 * (Rabs de - ke)) by (apply Rmult_lt_0_compat; lra). assert (0 < B * u2) by (now apply Rmult_lt_0_compat). nra. }
  assert (D : 0 < u2 * di - u1 * ke) by nra. unfold ratio_ext.
  replace ((u2 * di - u1 * de) / (u2 * di - u1 * ke) - 1) with (u1 * (ke - de) / (u2 * di - u1 * ke)) by (field; lra).
  unfold Rdiv. rewrite Rabs_mult, Rabs_inv, (Rabs_pos_eq (u2 * di - u1 * ke)) by lra. apply Rmult_le_reg_r with (u2 * di - u1 * ke); [assumption|].
  rewrite Rmult_assoc, Rinv_l, Rmult_1_r by lra. rewrite Rabs_mult, (Rabs_pos_eq u1) by lra.
  assert (Rabs (ke - de) <= Rabs de - ke). { unfold Rminus at 1. eapply Rle_trans; [apply Rabs_triang|]. rewrite Rabs_Ropp, (Rabs_left ke) by lra. lra. }
  assert (u1 * Rabs (ke - de) <= u1 * (Rabs de - ke)) by (apply Rmult_le_compat_l; lra). assert (0 <= B * (u1 * - ke)) by (apply Rmult_le_pos; nra). nra.
Qed.
Lemma ratio_tm_strong e1 e2 di de ke B : 0 < e1 -> 0 < e2 -> 0 < di -> ke < 0 -> 0 < B -> e2 * di * (Rabs de - ke) <= B * (e1 * (ke * ke)) -> Rabs (ratio_ext e1 e2 di de ke - de / ke) <= B.
Proof.
  intros H1 H2 Hd Hk HB H. assert (D : 0 < e2 * di - e1 * ke) by nra. unfold ratio_ext.
  replace ((e2 * di - e1 * de) / (e2 * di - e1 * ke) - de / ke) with (e2 * di * (ke - de) / (ke * (e2 * di - e1 * ke))) by (field; split; lra).
  assert (N : ke * (e2 * di - e1 * ke) < 0) by nra. unfold Rdiv. rewrite Rabs_mult, Rabs_inv, (Rabs_left (ke * (e2 * di - e1 * ke))) by exact N.
  apply Rmult_le_reg_r with (- (ke * (e2 * di - e1 * ke))); [lra|]. rewrite Rmult_assoc, Rinv_l, Rmult_1_r by lra.
  assert (P : 0 < e2 * di) by (now apply Rmult_lt_0_compat). rewrite Rabs_mult, (Rabs_pos_eq (e2 * di)) by lra.
  assert (Rabs (ke - de) <= Rabs de - ke). { unfold Rminus at 1. eapply Rle_trans; [apply Rabs_triang|]. rewrite Rabs_Ropp, (Rabs_left ke) by lra. lra. }
  assert (e2 * di * Rabs (ke - de) <= e2 * di * (Rabs de - ke)) by (apply Rmult_le_compat_l; lra).
  assert (0 <= B * (- ke * (e2 * di))) by (apply Rmult_le_pos; nra). nra.
Qed.
(** thresholds *)
Lemma strong_arg c : 0 < c -> forall M, exists E, 0 < E /\ forall e, E <= e -> M <= c * sqrt e.
Proof.
  intros Hc M. exists ((Rabs M / c) ^ 2 + 1). split; [generalize (pow2_ge_0 (Rabs M / c)); lra|]. intros e He.
  assert (0 <= Rabs M / c) by (apply Rmult_le_pos; [apply Rabs_pos|left; now apply Rinv_0_lt_compat]).
  assert (Rabs M / c <= sqrt e). { rewrite <- (sqrt_pow2 (Rabs M / c)) by assumption. apply sqrt_le_1_alt. lra. }
  apply Rle_trans with (Rabs M); [apply Rle_abs|]. apply Rmult_le_reg_r with (/ c); [now apply Rinv_0_lt_compat|]. replace (c * sqrt e * / c) with (sqrt e) by (field; lra). exact H0.
Qed.
Lemma strong_ext l u n2 p2 k r : 0 < u -> 0 < n2 -> 0 < p2 -> 0 < k -> 0 < r -> forall B, 0 < B -> exists E, 0 < E /\ forall e, E <= e ->
  let x2 := n2 * k * r in let x1 := sqrt (e * u) * k * r in
  Rabs (ratio_ext u p2 (DI l x1) (DI l x2) (DK l x2) - 1) <= B /\
  Rabs (ratio_ext e p2 (DI l x1) (DI l x2) (DK l x2) - DI l x2 / DK l x2) <= B.
Proof.
  intros Hu Hn Hp Hk Hr B HB. set (x2 := n2 * k * r). assert (X2 : 0 < x2) by (repeat apply Rmult_lt_0_compat; assumption).
  assert (K := DK_neg l x2 X2). assert (HL := pos_INR l). set (de := DI l x2). set (ke := DK l x2) in *. assert (Rabs de >= 0) by (apply Rle_ge, Rabs_pos).
  set (c := sqrt u * k * r). assert (Hc : 0 < c) by (repeat apply Rmult_lt_0_compat; try assumption; now apply sqrt_lt_R0).
  set (G := Rabs de - ke). assert (HG : 0 < G) by (unfold G; lra).
  (* TE: u G <= B p2 di with di > x1 - (l+1) *)
  destruct (strong_arg c Hc (u * G / (B * p2) + INR (S l))) as [E1 [P1 F1]].
  (* TM: p2 di G <= B e ke^2 with di <= l + 2 + c sqrt e <= (l + 2 + c) sqrt e *)
  assert (Hq : 0 < B * (ke * ke)) by (apply Rmult_lt_0_compat; nra).
  destruct (strong_arg (B * (ke * ke)) Hq (p2 * G * (INR l + 2 + c))) as [E2 [P2 F2]].
  exists (E1 + E2 + 1). split; [lra|]. intros e He. cbv zeta. fold de ke.
  assert (S1 : 1 <= sqrt e). { rewrite <- sqrt_1. apply sqrt_le_1_alt. lra. }
  assert (X : sqrt (e * u) * k * r = c * sqrt e). { rewrite sqrt_mult by lra. unfold c. ring. }
  rewrite X. assert (X1 : 0 < c * sqrt e) by (apply Rmult_lt_0_compat; lra).
  specialize (F1 e ltac:(lra)). specialize (F2 e ltac:(lra)). generalize (DI_upper l _ X1) (DI_lower l _ X1) (DI_pos l _ X1). intros U L P.
  set (di := DI l (c * sqrt e)) in *. split.
  - apply ratio_te_strong; try assumption; [lra|]. fold G. apply Rmult_le_reg_r with (/ (B * p2)); [apply Rinv_0_lt_compat; now apply Rmult_lt_0_compat|].
    replace (B * p2 * di * / (B * p2)) with di by (field; lra). unfold Rdiv in F1. lra.
  - apply ratio_tm_strong; try assumption; try lra. fold G.
    apply Rle_trans with (p2 * ((INR l + 2 + c) * sqrt e) * G).
    { apply Rmult_le_compat_r; [lra|]. apply Rmult_le_compat_l; [lra|]. nra. }
    replace (p2 * ((INR l + 2 + c) * sqrt e) * G) with (p2 * G * (INR l + 2 + c) * sqrt e) by ring.
    apply Rle_trans with (B * (ke * ke) * sqrt e * sqrt e); [apply Rmult_le_compat_r; lra|]. rewrite (Rmult_assoc _ (sqrt e) (sqrt e)), sqrt_sqrt by lra. lra.
Qed.
