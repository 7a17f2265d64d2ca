(** * Interior geometry at zero frequency *)
From Coq Require Import Reals.
From Coquelicot Require Import Coquelicot.
From Coq Require Import Bool ZArith List Lia Lra.
From Verif Require Import Base Mat_Model Mat_Spec Mat_Proofs Help_Proofs Bessel_Model Bessel_Spec
  Scat_Model Scat_Spec Scat_Proofs Scat_Proofs2 Scat_Proofs6 Scat_Proofs7 Scat_Proofs8 Scat_Proofs9 Scat_Proofs10 Scat_Props2
  Trans_Model Trans_Spec Trans_Proofs Trans_Proofs3 Trans_Proofs4 Trans_Proofs5 Trans_Props Lin_Model Trip_Proofs RT_Model RT_Spec RT_Proofs RT_Proofs2.
Import ListNotations.
Open Scope R_scope.

Section Int.
  Context (c : config) (m1 m2 : material) (ra rb : R) (e : list osc) (b : bprops) (HC : two_spheres c m1 m2 ra rb e b).
  Context (S1 : static_sphere m1) (S2 : static_sphere m2) (Hext : c_ext c = false) (m : Z) (Hm : (0 <= m)%Z).
  Let L := c_L c.
  Let o := (lmin m - 1)%nat.
  Let l := lmin m.
  Lemma table_int : exists t T, translation_init trans_bessels (c_lmax c) (c_lssmax c) m (c_med c) L [0] false false = Val t /\ trans_ab t = Val (Static T) /\
    forall i s, (i < n1 c m)%nat -> (s < n2 c m)%nat -> vpair T i s = trans_k0_int m (l + i) (l + s).
  Proof.
    destruct (C45_static_table trans_bessels (c_lmax c) (c_lssmax c) m (c_med c) L false) as [t [T [E1 [E2 [_ H]]]]]. exists t, T. split; [exact E1|]. split; [exact E2|].
    intros i s Hi Hs. unfold n1, n2 in *. destruct (H i s) as [row [R1 [_ R2]]]; [unfold lmin in *; lia|unfold lmin in *; lia|]. unfold vpair. rewrite (nth_error_nth _ _ [] R1). now rewrite (nth_error_nth _ _ _ R2).
  Qed.
  Definition rows_in (te tm cm : list R) (F : list R -> out coefs) (r : R) (lm : nat) : Prop := forall j, (j < lm)%nat ->
    lim0 (fun k => entry TE F j k * (k * r * refr (eps_spec e) (mu_val b) k) ^ (2 * S j + 1)) (at_ te j * exp (at_ cm j)) /\
    lim0 (fun k => entry TM F j k * (k * r * refr (eps_spec e) (mu_val b) k) ^ (2 * S j + 1)) (at_ tm j * exp (at_ cm j)).
  Lemma elements_int : exists ate atm aln bte btm bln T,
    rows e b ate atm aln (mieA mie_bessels c) ra (c_lmax c) /\ rows_in bte btm bln (mieB mie_bessels c) rb (c_lssmax c) /\
    (forall i s, (i < n1 c m)%nat -> (s < n2 c m)%nat -> vpair T i s = trans_k0_int m (l + i) (l + s)) /\
    elements_k0 trans_bessels c m = Val ((ate, atm, aln), (bte, btm, bln), T, (ra, rb)).
  Proof.
    destruct HC as [C1 [C2 [CM [P1 [P2 P3]]]]]. fold L in P3.
    destruct (rows_ext m1 (c_med c) e b ra (c_lmax c) P1 CM S1) as [ate [atm [aln [EA LA]]]].
    destruct (rows_int m2 (c_med c) e b rb (c_lssmax c) P2 CM S2) as [bte [btm [bln [EB LB]]]].
    destruct table_int as [t [T [T1 [T2 TT]]]].
    exists ate, atm, aln, bte, btm, bln, T. split; [intros j Hj; unfold mieA; rewrite C1; exact (LA j Hj)|].
    split; [intros j Hj; unfold mieB; rewrite C2, Hext; exact (LB j Hj)|]. split; [exact TT|].
    unfold elements_k0. rewrite C1, C2, Hext. fold L. rewrite EA. cbn [obind]. rewrite EB. cbn [obind]. rewrite T1. cbn [obind]. rewrite T2. reflexivity.
  Qed.
  Lemma int_type_error : (n1 c m * n2 c m <> 1)%nat -> blockmatrices_k0 trans_bessels c m = Exc TypeError.
  Proof.
    intros Hn. destruct elements_int as [ate [atm [aln [bte [btm [bln [T [_ [_ [_ E]]]]]]]]]]. unfold blockmatrices_k0, blockmatrices_k0_int. rewrite Hext, E. cbn [obind].
    destruct (Nat.eqb_spec (n1 c m * n2 c m) 1); [contradiction|reflexivity].
  Qed.

  Context (N1 : n1 c m = 1%nat) (N2 : n2 c m = 1%nat).
  Lemma int_blocks : exists A0 B0, blockmatrices_k0 trans_bessels c m = Val (Arr2 1 1 A0, Arr2 1 1 B0) /\
    let B k := blocks 1 (fun _ _ _ => 1) (rt_at c m k) in
    lim0 (fun k => fst (fst (fst (B k))) 0%nat 0%nat) (A0 0%nat 0%nat) /\ lim0 (fun k => snd (fst (fst (B k))) 0%nat 0%nat) 0 /\
    lim0 (fun k => snd (fst (B k)) 0%nat 0%nat) 0 /\ lim0 (fun k => snd (B k) 0%nat 0%nat) (B0 0%nat 0%nat).
  Proof.
    destruct elements_int as [ate [atm [aln [bte [btm [bln [T [LA [LB [TT E]]]]]]]]]].
    destruct (arg_facts c m1 m2 ra rb e b HC) as [Y [W _]].
    destruct HC as [C1 [C2 [CM [P1 [P2 P3]]]]]. fold L in P3.
    set (q := (ra / rb) ^ (2 * l + 1)).
    assert (l1 : (1 <= l)%nat) by (unfold l, lmin; lia). assert (lo : l = S o) by (unfold o, l in *; lia).
    assert (la : (l <= c_lmax c)%nat) by (unfold n1 in N1; fold l in N1; lia). assert (lb : (l <= c_lssmax c)%nat) by (unfold n2 in N2; fold l in N2; lia).
    assert (SV : fst (trans_k0_int m l l) * exp (snd (trans_k0_int m l l)) = 1) by exact (diagonal_one m l l1).
    assert (TL : vpair T 0 0 = trans_k0_int m l l) by (rewrite TT by lia; f_equal; lia).
    assert (E0 : exists A0 B0, blockmatrices_k0 trans_bessels c m = Val (Arr2 1 1 A0, Arr2 1 1 B0) /\
      A0 0%nat 0%nat = at_ ate o * exp (at_ aln o) * (at_ bte o * exp (at_ bln o)) * q /\ B0 0%nat 0%nat = at_ atm o * exp (at_ aln o) * (at_ btm o * exp (at_ bln o)) * q).
    { unfold blockmatrices_k0, blockmatrices_k0_int. rewrite Hext, E. cbn [obind]. unfold sum_k0. rewrite N1, N2. cbn [Nat.mul Nat.add Nat.eqb Nat.ltb Nat.leb andb obind].
      do 2 eexists. split; [reflexivity|]. cbn [sumn]. rewrite !TL, !Nat.add_0_r, Nat.leb_refl. fold l. fold o. fold L. cbn [andb]. rewrite sgnZ_sub. unfold sgn2.
      assert (SG : (-1) ^ (l + l) = 1) by (replace (l + l)%nat with (2 * l)%nat by lia; rewrite pow_mult; replace ((-1) ^ 2) with 1 by ring; apply pow1).
      assert (D : ln (ra / rb) + INR l * ln (ra / L) + 2 * INR l * ln (L / rb) + INR l * ln (ra / L) = INR (2 * l + 1) * ln (ra / rb)).
      { unfold Rdiv. rewrite !ln_mult, !ln_Rinv by (try assumption; now apply Rinv_0_lt_compat). rewrite plus_INR, mult_INR. cbn [INR]. ring. }
      rewrite D, !exp_plus, exp_INR_ln by (now apply Rdiv_lt_0_compat). fold q. rewrite SG.
      set (f := fst (trans_k0_int m l l)) in *. set (x := exp (snd (trans_k0_int m l l))) in *.
      assert (aux : forall a a' b0 b', 0 + 1 * f * f * a * b0 * (a' * b' * x * x * q) = a * a' * (b0 * b') * q * ((f * x) * (f * x))) by (intros; ring).
      split; rewrite aux, SV; change (l - 1)%nat with o; ring. }
    destruct E0 as [A0 [B0 [E0 [EA EB]]]]. exists A0, B0. split; [exact E0|]. rewrite EA, EB. clear E0 EA EB. cbv zeta. unfold blocks. cbn [fst snd sumn].
    set (y k := k * ra * refr (eps_spec e) (mu_val b) k) in *. set (w k := k * rb * refr (eps_spec e) (mu_val b) k) in *.
    assert (YW : forall k, 0 < k -> y k ^ (2 * l + 1) / w k ^ (2 * l + 1) = q).
    { intros k Hk. assert (0 < w k) by exact (proj1 W k Hk). assert (0 < y k) by exact (proj1 Y k Hk). unfold q.
      replace (ra / rb) with (y k * / w k) by (unfold y, w in *; assert (refr (eps_spec e) (mu_val b) k <> 0) by (intros Z; rewrite Z in *; lra); field; repeat split; lra || assumption).
      rewrite Rpow_mult_distr, pow_inv. reflexivity. }
    destruct (LA o ltac:(lia)) as [A1 A2]. destruct (LB o ltac:(lia)) as [B1 B2]. rewrite <- lo in A1, A2, B1, B2.
    destruct (C45_identity_at_zero_distance (c_med c) e b L (c_lmax c) (c_lssmax c) l l m) as [v0 [v1 [v2 v3]]]; [now left|exact P3|lia|lia|unfold l, lmin; lia|].
    cbv zeta in v0, v1, v2, v3. rewrite Nat.eqb_refl in *.
    assert (TRM : forall (a b0 v v' u u' b1 : R -> R) xa xb xb1 x1 x2 x3 x4, lim0 (fun k => a k / y k ^ (2 * l + 1)) xa -> lim0 (fun k => b0 k * w k ^ (2 * l + 1)) xb -> lim0 (fun k => b1 k * w k ^ (2 * l + 1)) xb1 ->
       lim0 v x1 -> lim0 v' x2 -> lim0 u x3 -> lim0 u' x4 -> lim0 (fun k => 0 + 1 * a k * (v k * b0 k * v' k + u k * b1 k * u' k)) (xa * q * (x1 * xb * x2 + x3 * xb1 * x4))).
    { intros a b0 v v' u u' b1 xa xb xb1 x1 x2 x3 x4 Ha Hb Hb1 H1 H2 H3 H4.
      apply (lim0_ext (fun k => (a k / y k ^ (2 * l + 1)) * (y k ^ (2 * l + 1) / w k ^ (2 * l + 1)) * (v k * (b0 k * w k ^ (2 * l + 1)) * v' k + u k * (b1 k * w k ^ (2 * l + 1)) * u' k))).
      - intros k Hk. assert (0 < w k ^ (2 * l + 1)) by (apply pow_lt; exact (proj1 W k Hk)). assert (0 < y k ^ (2 * l + 1)) by (apply pow_lt; exact (proj1 Y k Hk)). field. lra.
      - apply lim0_mult; [apply lim0_mult; [exact Ha|]|].
        + apply (lim0_ext (fun _ => q)); [intros k Hk; symmetry; now apply YW|apply lim0_const].
        + apply lim0_plus; repeat apply lim0_mult; assumption. }
    assert (AT : forall k, aTE (rt_at c m k) 0 = entry TE (mieA mie_bessels c) o k /\ aTM (rt_at c m k) 0 = entry TM (mieA mie_bessels c) o k /\
       bTE (rt_at c m k) 0 = entry TE (mieB mie_bessels c) o k /\ bTM (rt_at c m k) 0 = entry TM (mieB mie_bessels c) o k).
    { intros k. unfold rt_at, rt_with. cbn [aTE aTM bTE bTM]. rewrite !Nat.add_0_r. fold l. fold o. auto. }
    assert (VT : forall pick k, coefficient pick trans_bessels (c_lmax c) (c_lssmax c) m (c_med c) (c_L c) (c_ext c) (lmin m + 0) (lmin m + 0) k = coefficient pick trans_bessels (c_lmax c) (c_lssmax c) m (c_med c) L false l l k).
    { intros pick k. now rewrite Nat.add_0_r, Hext. }
    split; [|split; [|split]].
    - eapply lim0_eq; [|eapply lim0_ext; [|exact (TRM _ _ _ _ _ _ _ _ _ _ _ _ _ _ A1 B1 B2 v0 v1 v2 v3)]]; [cbv beta; ring|].
      intros k Hk. destruct (AT k) as [-> [_ [-> ->]]]. unfold rt_at, rt_with. cbn [V0 V1 V2 V3]. rewrite !VT. reflexivity.
    - eapply lim0_eq; [|eapply lim0_ext; [|exact (TRM _ _ _ _ _ _ _ _ _ _ _ _ _ _ A1 B1 B2 v0 v3 v2 v1)]]; [cbv beta; ring|].
      intros k Hk. destruct (AT k) as [-> [_ [-> ->]]]. unfold rt_at, rt_with. cbn [V0 V1 V2 V3]. rewrite !VT. reflexivity.
    - eapply lim0_eq; [|eapply lim0_ext; [|exact (TRM _ _ _ _ _ _ _ _ _ _ _ _ _ _ A2 B1 B2 v2 v1 v0 v3)]]; [cbv beta; ring|].
      intros k Hk. destruct (AT k) as [_ [-> [-> ->]]]. unfold rt_at, rt_with. cbn [V0 V1 V2 V3]. rewrite !VT. reflexivity.
    - eapply lim0_eq; [|eapply lim0_ext; [|exact (TRM _ _ _ _ _ _ _ _ _ _ _ _ _ _ A2 B1 B2 v2 v3 v0 v1)]]; [cbv beta; ring|].
      intros k Hk. destruct (AT k) as [_ [-> [-> ->]]]. unfold rt_at, rt_with. cbn [V0 V1 V2 V3]. rewrite !VT. reflexivity.
  Qed.
End Int.
