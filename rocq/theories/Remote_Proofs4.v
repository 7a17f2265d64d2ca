(** * All orders at large distances: zero frequency *)
From Coq Require Import Reals.
From Coquelicot Require Import Coquelicot.
From Coq Require Import Bool ZArith List Lia Lra.
From Verif Require Import Base Mat_Model Mat_Spec Mat_Proofs Bessel_Model Bessel_Spec Bessel_Proofs Scat_Model Scat_Spec Scat_Proofs Scat_Proofs7 Scat_Proofs8 Scat_Proofs9 Scat_Proofs10
  Trans_Model Trans_Spec Trans_Proofs Trans_Proofs2 Trans_Proofs3 Trans_Proofs4 Trans_Props Lin_Model RT_Model RT_Spec RT_Spec2 RT_Proofs RT_Proofs2 RT_Proofs12 RT_Proofs14 Dip_Spec Dip_Proofs Dip_Proofs2 Dip_Proofs4 Remote_Proofs2.
Import ListNotations.
Open Scope R_scope.

Lemma dipole_static med e b m : insulator med e b -> (m = 0 \/ m = 1)%Z -> static_value (trans_k0_ext m 1 1) = if Z.eqb m 0 then 3 else - (3 / 2).
Proof.
  intros HI HM. destruct (insulator_flags _ _ _ HI) as [_ [_ [_ [Hb Hh]]]]. assert (HI' := HI). destruct HI' as [_ [HP [HN _]]].
  destruct (insulator_arg e b 1 Rlt_0_1 HP HN Hb) as [_ [L1 [_ [Q1 _]]]].
  assert (Hp : forall k, 0 < k -> 0 < eps_spec e k) by (intros k Hk; destruct Hh as [_ [h _]]; now apply h).
  set (x := fun k => k * 1 * sqrt (eps_spec e k)).
  assert (Lx : lim0 x 0). { apply lim0_eq with (0 * 1 * sqrt (eps_spec e 0)); [ring|]. apply lim0_mult; [apply lim0_mult; [apply lim0_id|apply lim0_const]|]. apply (lim0_comp sqrt); [apply continuity_pt_sqrt; lra|exact L1]. }
  destruct (C45_static_exterior med e b 1 1 1 1 1 m (or_introl HI) Rlt_0_1 ltac:(lia) ltac:(lia) ltac:(destruct HM as [-> | ->]; cbn; lia)) as [H _].
  destruct (tau_cont 0) as [c0 [c1 _]].
  assert (G : lim0 (fun k => (if Z.eqb m 0 then tau0 else tau1) (x k)) (if Z.eqb m 0 then 3 else - (3 / 2))).
  { apply lim0_eq with ((if Z.eqb m 0 then tau0 else tau1) 0).
    - destruct (Z.eqb m 0); unfold tau0, tau1; rewrite Ropp_0, exp_0; lra.
    - destruct (Z.eqb m 0); [apply (lim0_comp tau0)|apply (lim0_comp tau1)]; assumption. }
  apply (limit0_unique (fun k => x k ^ 3 * coefficient v_EEab trans_bessels 1 1 m med 1 true 1 1 k)); [exact H|].
  apply (lim0_ext (fun k => (if Z.eqb m 0 then tau0 else tau1) (x k))); [|exact G].
  intros k Hk. destruct (dipole_coefficients med (eps_spec e) (mu_val b) 1 1 m k 1 Hh Hk (Hp k Hk) Rlt_0_1 (le_n 1) (le_n 1) ltac:(tauto)) as [v0 _].
  assert (px : 0 < x k). { unfold x. rewrite Rmult_1_r. apply Rmult_lt_0_compat; [exact Hk|now apply sqrt_lt_R0, Hp]. }
  destruct (t_tau (x k) px) as [T0 [T1 _]]. rewrite v0. fold (x k). destruct (Z.eqb m 0); [rewrite T0|rewrite T1]; field; lra.
Qed.

Section Static.
  Context (c : config) (ra rb : R) (Pa : 0 < ra) (Pb : 0 < rb) (m : Z) (al be : nat -> R) (Hm : (0 <= m)%Z).
  Let dd (k : R) := (ra * rb / (1 / k) ^ 2) ^ 3.
  Let S (k : R) := sblock (at_distance c (1 / k)) ra rb m 1 al be.
  Let sv := static_value (trans_k0_ext m 1 1).
  Lemma static_near i j : bnd (fun k => S k i j / dd k).
  Proof.
    destruct (sblock_far c ra rb m al be i j) as [C [HC H]]. exists 1, (C * / (ra * rb) ^ 3). split; [lra|].
    assert (PR : 0 < (ra * rb) ^ 3) by (apply pow_lt; now apply Rmult_lt_0_compat). assert (IR : 0 < / (ra * rb) ^ 3) by now apply Rinv_0_lt_compat.
    split; [apply Rmult_le_pos; lra|]. intros k Hk. assert (H1 : 1 <= 1 / k). { apply (Rmult_le_reg_r k); [lra|]. unfold Rdiv. rewrite Rmult_assoc, Rinv_l, Rmult_1_r by lra. lra. }
    assert (Q := H _ H1). fold (S k) in Q. assert (ED : / dd k = / (ra * rb) ^ 3 * / k ^ 6) by (unfold dd; field; repeat split; try lra).
    assert (EG : G6 (1 / k) = k ^ 6) by (unfold G6; field; lra). assert (PK : 0 < k ^ 6) by (apply pow_lt; lra). assert (IK : 0 < / k ^ 6) by now apply Rinv_0_lt_compat.
    unfold Rdiv. rewrite ED, Rabs_mult, (Rabs_pos_eq (/ (ra * rb) ^ 3 * / k ^ 6)) by (apply Rmult_le_pos; lra). rewrite EG in Q.
    replace (C * / (ra * rb) ^ 3) with (C * k ^ 6 * (/ (ra * rb) ^ 3 * / k ^ 6)) by (field; repeat split; lra). apply Rmult_le_compat_r; [apply Rmult_le_pos; lra|exact Q].
  Qed.
  Lemma static_trace : ((Z.to_nat m <= 1)%nat -> (1 <= n1 c m)%nat /\ (1 <= n2 c m)%nat) ->
    lim0 (fun k => mtrace (n1 c m) (S k) / dd k) (if (Z.to_nat m <=? 1)%nat then sv ^ 2 * al 0%nat * be 0%nat else 0).
  Proof.
    intros HN. set (W := if (Z.to_nat m <=? 1)%nat then sv ^ 2 * al 0%nat * be 0%nat else 0).
    set (lv := fun i s => if ((Z.to_nat m <=? 1)%nat && (Nat.eqb i 0 && Nat.eqb s 0))%bool then W else 0).
    assert (V : sumn (n1 c m) (fun i => sumn (n2 c m) (lv i)) = W).
    { rewrite (sumn_corner (n1 c m) (n2 c m) (Z.to_nat m <=? 1)%nat W lv).
      - unfold W. destruct (Z.to_nat m <=? 1)%nat; reflexivity.
      - intros E. apply Nat.leb_le in E. now apply HN.
      - intros i s. reflexivity. }
    set (l := fun i => (lmin m + i)%nat).
    set (TT := fun i s k => sgn2 (l s) (l i) * static_value (trans_k0_ext m (l i) (l s)) * static_value (trans_k0_ext m (l i) (l s)) * al i * be s * (1 * (ra / (1 / k))) ^ (l i + l i + 1) * (1 * (rb / (1 / k))) ^ (2 * l s + 1) / dd k).
    rewrite <- V. apply (lim0_ext (fun k => sumn (n1 c m) (fun i => sumn (n2 c m) (fun s => TT i s k)))).
    { intros k Hk. unfold TT, mtrace, S, sblock. rewrite <- sumn_div. apply sumn_ext. intros i _.
      change (n2 (at_distance c (1 / k)) m) with (n2 c m). rewrite <- sumn_div. apply sumn_ext. intros s _. cbn [at_distance c_L]. unfold l, Rdiv. ring. }
    apply (lim0_sumn (n1 c m) (fun i k => sumn (n2 c m) (fun s => TT i s k)) (fun i => sumn (n2 c m) (lv i))). intros i Hi. apply (lim0_sumn (n2 c m) (TT i) (lv i)). intros s Hs.
    set (K := sgn2 (l s) (l i) * static_value (trans_k0_ext m (l i) (l s)) * static_value (trans_k0_ext m (l i) (l s)) * al i * be s).
    assert (LP : forall j, (1 <= l j)%nat) by (intros j; unfold l, lmin; lia).
    apply (lim0_ext (fun k => K * ((ra * k) ^ (2 * l i - 2) * (rb * k) ^ (2 * l s - 2)))).
    { intros k Hk. unfold TT. fold K. assert (A := LP i). assert (B := LP s). replace (l i + l i + 1)%nat with (3 + (2 * l i - 2))%nat by lia. replace (2 * l s + 1)%nat with (3 + (2 * l s - 2))%nat by lia. rewrite !pow_add.
      replace (1 * (ra / (1 / k))) with (ra * k) by (field; lra). replace (1 * (rb / (1 / k))) with (rb * k) by (field; lra). unfold dd. set (p := (ra * k) ^ (2 * l i - 2)). set (q := (rb * k) ^ (2 * l s - 2)). clearbody p q K. field. repeat split; lra. }
    assert (PW : forall r j, lim0 (fun k => (r * k) ^ (2 * l j - 2)) (if Nat.eqb (l j) 1 then 1 else 0)).
    { intros r j. apply lim0_eq with ((r * 0) ^ (2 * l j - 2)).
      - destruct (Nat.eqb_spec (l j) 1) as [-> |N]; [reflexivity|]. rewrite Rmult_0_r. apply pow_ne_zero. assert (A := LP j). lia.
      - apply lim0_pow. apply lim0_mult; [apply lim0_const|apply lim0_id]. }
    apply lim0_eq with (K * ((if Nat.eqb (l i) 1 then 1 else 0) * (if Nat.eqb (l s) 1 then 1 else 0))); [|apply lim0_mult; [apply lim0_const|apply lim0_mult; apply PW]].
    unfold lv. destruct (Nat.leb_spec (Z.to_nat m) 1) as [M1|M1]; cbn [andb].
    - assert (LM : lmin m = 1%nat) by (unfold lmin; lia). destruct (Nat.eqb_spec i 0) as [->|Ni]; cbn [andb]; [destruct (Nat.eqb_spec s 0) as [->|Ns]|].
      + unfold K, W, l. destruct (Nat.leb_spec (Z.to_nat m) 1); [|lia]. rewrite LM. change (1 + 0)%nat with 1%nat. cbn [Nat.eqb]. fold sv. unfold sgn2. cbn [Nat.add pow]. ring.
      + destruct (Nat.eqb_spec (l s) 1); [unfold l in *; lia|ring].
      + destruct (Nat.eqb_spec (l i) 1); [unfold l in *; lia|ring].
    - destruct (Nat.eqb_spec (l i) 1); [unfold l, lmin in *; lia|ring].
  Qed.
End Static.
