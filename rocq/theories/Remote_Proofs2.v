(** * All orders at large distances: only the dipoles contribute at leading order *)
From Coq Require Import Reals.
From Coquelicot Require Import Coquelicot.
From Coq Require Import Bool ZArith List Lia Lra.
From Verif Require Import Base Mat_Model Mat_Spec Mat_Proofs Bessel_Model Bessel_Spec Bessel_Proofs Gaunt_Model Scat_Model Scat_Spec Scat_Proofs Scat_Proofs7 Scat_Proofs8 Scat_Proofs9
  Trans_Model Trans_Spec Trans_Proofs Trans_Proofs2 Trans_Proofs3 Trans_Proofs4 Lin_Model RT_Model RT_Spec RT_Spec2 RT_Proofs RT_Proofs2 RT_Proofs12 Dip_Spec Dip_Proofs Dip_Proofs2 Dip_Proofs4.
Import ListNotations.
Open Scope R_scope.

(** ** functions bounded near zero *)
Definition bnd (f : R -> R) : Prop := exists r0 C, 0 < r0 /\ 0 <= C /\ forall k, 0 < k <= r0 -> Rabs (f k) <= C.
Lemma bnd_plus f g : bnd f -> bnd g -> bnd (fun k => f k + g k).
Proof.
  intros [r [C [Hr [HC H]]]] [r' [C' [Hr' [HC' H']]]]. exists (Rmin r r'), (C + C'). split; [now apply Rmin_glb_lt|]. split; [lra|]. intros k [K1 K2].
  assert (M1 := Rmin_l r r'). assert (M2 := Rmin_r r r'). eapply Rle_trans; [apply Rabs_triang|]. apply Rplus_le_compat; [apply H|apply H']; lra.
Qed.
Lemma bnd_mult f g : bnd f -> bnd g -> bnd (fun k => f k * g k).
Proof.
  intros [r [C [Hr [HC H]]]] [r' [C' [Hr' [HC' H']]]]. exists (Rmin r r'), (C * C'). split; [now apply Rmin_glb_lt|]. split; [now apply Rmult_le_pos|]. intros k [K1 K2].
  assert (M1 := Rmin_l r r'). assert (M2 := Rmin_r r r'). rewrite Rabs_mult. apply Rmult_le_compat; try apply Rabs_pos; [apply H|apply H']; lra.
Qed.
Lemma bnd_ext f g : (forall k, 0 < k -> f k = g k) -> bnd f -> bnd g.
Proof. intros E [r [C [Hr [HC H]]]]. exists r, C. split; [exact Hr|]. split; [exact HC|]. intros k Hk. rewrite <- E by lra. now apply H. Qed.
Lemma bnd_lim f v : lim0 f v -> bnd f.
Proof.
  intros H. destruct (lim0_close f v 1 H Rlt_0_1) as [r0 [Hr B]]. exists r0, (Rabs v + 1). split; [exact Hr|]. split; [generalize (Rabs_pos v); lra|]. intros k Hk.
  replace (f k) with ((f k - v) + v) by ring. eapply Rle_trans; [apply Rabs_triang|]. generalize (B k Hk). lra.
Qed.
Lemma bnd_sumn n (f : nat -> R -> R) : (forall s, (s < n)%nat -> bnd (f s)) -> bnd (fun k => sumn n (fun s => f s k)).
Proof.
  induction n as [|n IH]; intros H; cbn [sumn].
  - exists 1, 0. split; [lra|]. split; [lra|]. intros k _. rewrite Rabs_R0. lra.
  - apply bnd_plus; [apply IH; intros s Hs; apply H; lia|apply H; lia].
Qed.
Lemma lim0_bnd f g : lim0 f 0 -> bnd g -> lim0 (fun k => f k * g k) 0.
Proof.
  intros H [r [C [Hr [HC B]]]] P [eps HP]. set (e1 := eps / (C + 1)). assert (He : 0 < e1) by (apply Rdiv_lt_0_compat; [apply cond_pos|lra]).
  destruct (lim0_close f 0 e1 H He) as [r0 [R0 B0]]. assert (RM : 0 < Rmin r r0) by now apply Rmin_glb_lt.
  exists (mkposreal _ RM). intros k Bk Hk. apply HP. change (Rabs (f k * g k - 0) < eps). assert (Q : Rabs (k - 0) < Rmin r r0) by exact Bk.
  rewrite Rminus_0_r, Rabs_pos_eq in Q by lra. assert (M1 := Rmin_l r r0). assert (M2 := Rmin_r r r0).
  assert (F0 := B0 k ltac:(lra)). assert (G0 := B k ltac:(lra)). rewrite Rminus_0_r in *. rewrite Rabs_mult.
  apply Rle_lt_trans with (Rabs (f k) * (C + 1)); [apply Rmult_le_compat_l; [apply Rabs_pos|lra]|].
  replace (RIneq.pos eps) with (e1 * (C + 1)) by (unfold e1; field; lra). apply Rmult_lt_compat_r; lra.
Qed.

(** ** the modified Bessel functions are bounded away from zero *)
Lemma k_upper l xlo : 0 < xlo -> exists K, 0 < K /\ forall x, xlo <= x -> sph_k l x <= K.
Proof.
  intros H0. assert (P := PI_RGT_0). assert (IL : 0 < / xlo) by now apply Rinv_0_lt_compat.
  cut ((exists K, 0 < K /\ forall x, xlo <= x -> sph_k l x <= K) /\ (exists K, 0 < K /\ forall x, xlo <= x -> sph_k (S l) x <= K)); [tauto|].
  assert (IX : forall x, xlo <= x -> 0 < / x <= / xlo). { intros x Hx. split; [apply Rinv_0_lt_compat; lra|apply Rinv_le_contravar; lra]. }
  assert (EX : forall x, xlo <= x -> 0 < exp (- x) <= 1). { intros x Hx. split; [apply exp_pos|]. rewrite <- exp_0. left. apply exp_increasing. lra. }
  induction l as [|l [[K0 [P0 Q0]] [K1 [P1 Q1]]]].
  - assert (Z : forall x, xlo <= x -> PI / 2 * exp (- x) / x <= PI / 2 * 1 * / xlo).
    { intros x Hx. destruct (IX x Hx). destruct (EX x Hx). unfold Rdiv at 1. apply Rmult_le_compat; [apply Rmult_le_pos; lra|lra| |lra]. apply Rmult_le_compat_l; lra. }
    assert (ZP : 0 < PI / 2 * 1 * / xlo) by (apply Rmult_lt_0_compat; lra). split.
    + exists (PI / 2 * 1 * / xlo). split; [exact ZP|]. intros x Hx. rewrite sph_k_0 by lra. now apply Z.
    + exists (PI / 2 * 1 * / xlo * (1 + / xlo)). split; [apply Rmult_lt_0_compat; lra|]. intros x Hx. rewrite sph_k_1 by lra. destruct (IX x Hx). destruct (EX x Hx).
      apply Rmult_le_compat; [|lra|now apply Z|lra]. unfold Rdiv at 1. apply Rmult_le_pos; [apply Rmult_le_pos; lra|lra].
  - split; [exists K1; now split|]. assert (HL := pos_INR l). exists (K0 + (2 * INR l + 3) * / xlo * K1).
    assert (Z : 0 < (2 * INR l + 3) * / xlo) by (apply Rmult_lt_0_compat; lra). split; [apply Rplus_lt_0_compat; [exact P0|now apply Rmult_lt_0_compat]|].
    intros x Hx. rewrite sph_k_rec by lra. destruct (IX x Hx). apply Rplus_le_compat; [now apply Q0|].
    apply Rmult_le_compat; [unfold Rdiv; apply Rmult_le_pos; lra|left; apply sph_k_pos; lra| |now apply Q1]. unfold Rdiv. apply Rmult_le_compat_l; lra.
Qed.

Lemma term_scaled k y ra rb n a b b' v v' z z' : 0 < k -> 0 < y -> 0 < ra -> 0 < rb -> 0 < n ->
  1 * a * (v * b * v' + z * b' * z') / (ra * rb / (y / k) ^ 2) ^ 3 =
  (y * n) ^ 6 * (a / (k * ra * n) ^ 3 * (b / (k * rb * n) ^ 3) * (v * v') + a / (k * ra * n) ^ 3 * (b' / (k * rb * n) ^ 3) * (z * z')).
Proof. intros. field. repeat split; lra. Qed.
Lemma sumn_corner (n n' : nat) (P : bool) (v : R) (f : nat -> nat -> R) : (P = true -> (1 <= n)%nat /\ (1 <= n')%nat) ->
  (forall i s, f i s = if (P && (Nat.eqb i 0 && Nat.eqb s 0))%bool then v else 0) -> sumn n (fun i => sumn n' (f i)) = if P then v else 0.
Proof.
  intros HP Hf. destruct P.
  - destruct (HP eq_refl) as [A B]. rewrite (sumn_ext n _ (fun i => if Nat.eqb i 0 then v else 0)).
    + apply (Bal_Proofs.sumn_delta n (fun _ => v) 0). lia.
    + intros i _. destruct (Nat.eqb i 0) eqn:E.
      * rewrite (sumn_ext n' _ (fun s => if Nat.eqb s 0 then v else 0)); [apply (Bal_Proofs.sumn_delta n' (fun _ => v) 0); lia|]. intros s _. rewrite Hf, E. reflexivity.
      * apply sumn_zero. intros s. rewrite Hf, E. reflexivity.
  - apply sumn_zero. intros i. apply sumn_zero. intros s. now rewrite Hf.
Qed.

Lemma sumn_div n f d : sumn n (fun s => f s / d) = sumn n f / d.
Proof. unfold Rdiv. rewrite (Rmult_comm (sumn n f)), <- sumn_scal. apply sumn_ext. intros; ring. Qed.
Lemma pick_2 (P : bool) (A B C D p q : R -> R) (a b c d : R) : lim0 A a -> lim0 B b -> lim0 C c -> lim0 D d -> bnd p -> bnd q -> (P = false -> (a = 0 \/ b = 0) /\ (c = 0 \/ d = 0)) -> P = false ->
  lim0 (fun k => A k * B k * p k + C k * D k * q k) 0.
Proof.
  intros HA HB HC HD Hp Hq HP E. destruct (HP E) as [H1 H2]. apply lim0_eq with (0 + 0); [ring|]. apply lim0_plus; apply lim0_bnd; try assumption.
  - apply lim0_eq with (a * b); [destruct H1 as [-> | ->]; ring|]. now apply lim0_mult.
  - apply lim0_eq with (c * d); [destruct H2 as [-> | ->]; ring|]. now apply lim0_mult.
Qed.

Section Remote.
  Context (bes : list R -> nat -> Z -> res (list (list R) * list (list R))) (J : nat -> R -> R) (dl : R) (HG : good_bes bes J dl).
  Context (c : config) (m1 m2 : material) (ra rb : R) (e : list osc) (b : bprops) (HC : two_spheres c m1 m2 ra rb e b).
  Context (pe pm pe' pm' : R) (P1 : polarizability e b m1 pe pm) (P2 : polarizability e b m2 pe' pm') (hmu : mu_val b 0 = 1).
  Context (Hext : c_ext c = true) (m : Z) (Hm : (0 <= m)%Z) (y : R) (Hy : 0 < y).
  Let l i := (lmin m + i)%nat.
  Let n2r := refr (eps_spec e) (mu_val b).
  Let rt (k : R) := rt_with bes (at_distance c (y / k)) m k.
  Let x (k : R) := k * (y / k) * sqrt (eps_spec e k).

  Lemma med_facts : has (c_med c) (eps_spec e) (mu_val b) /\ (forall k, 0 < k -> 0 < eps_spec e k /\ 0 < mu_val b k) /\
    to0 (fun k => n2r k * k * ra) /\ to0 (fun k => n2r k * k * rb) /\ lim0 (eps_spec e) (eps_spec e 0) /\ lim0 (mu_val b) 1 /\ 0 < eps_spec e 0.
  Proof.
    destruct HC as [_ [_ [CM [Pa [Pb _]]]]]. destruct (insulator_flags _ _ _ CM) as [_ [_ [_ [Hb Hh]]]]. destruct CM as [_ [HP [HN _]]].
    destruct (insulator_arg e b ra Pa HP HN Hb) as [X1 [L1 [L2 [Q1 Q2]]]]. destruct (insulator_arg e b rb Pb HP HN Hb) as [X2 _]. rewrite hmu in L2.
    assert (Hp : forall k, 0 < k -> 0 < eps_spec e k /\ 0 < mu_val b k) by (destruct Hh as [_ [h _]]; exact h).
    exact (conj Hh (conj Hp (conj X1 (conj X2 (conj L1 (conj L2 Q1)))))).
  Qed.
  Lemma x_eq k : 0 < k -> x k = y * sqrt (eps_spec e k).
  Proof. intros Hk. unfold x. field. lra. Qed.
  Lemma x_near : exists r0, 0 < r0 /\ forall k, 0 < k <= r0 -> y * sqrt (eps_spec e 0) / 2 <= x k <= 2 * (y * sqrt (eps_spec e 0)).
  Proof.
    destruct med_facts as [_ [_ [_ [_ [L1 [_ Q1]]]]]]. set (x0 := y * sqrt (eps_spec e 0)). assert (X0 : 0 < x0) by (apply Rmult_lt_0_compat; [exact Hy|now apply sqrt_lt_R0]).
    assert (L : lim0 (fun k => y * sqrt (eps_spec e k)) x0). { apply lim0_mult; [apply lim0_const|]. apply (lim0_comp sqrt); [apply continuity_pt_sqrt; lra|exact L1]. }
    destruct (lim0_close _ _ (x0 / 2) L ltac:(lra)) as [r0 [R0 B]]. exists r0. split; [exact R0|]. intros k Hk. rewrite x_eq by lra. assert (Q := B k Hk). apply Rabs_def2 in Q. lra.
  Qed.

  (** the translation coefficients at fixed k L are bounded *)
  Lemma closed_near F l1 l2 gs : (forall lpp q, exists a, forall w, F lpp w q = a * w) -> bnd (fun k => closed F (fun p => exp (ln (sph_k p (x k)))) gs l1 l2).
  Proof.
    intros H. destruct x_near as [r0 [R0 B]]. destruct med_facts as [_ [_ [_ [_ [_ [_ Q1]]]]]]. assert (X0 : 0 < y * sqrt (eps_spec e 0)) by (apply Rmult_lt_0_compat; [exact Hy|now apply sqrt_lt_R0]).
    cut (below (fun k => 0 < k <= r0) (fun _ => 1) (fun k => closed F (fun p => exp (ln (sph_k p (x k)))) gs l1 l2)).
    { intros [C [HC' Q]]. exists r0, C. split; [exact R0|]. split; [exact HC'|]. intros k Hk. assert (Z := Q k Hk). cbv beta in Z. lra. }
    unfold closed. apply below_sum. intros i _. destruct (H (nth i (lpps l1 l2) 0%nat) (nth i gs 0)) as [a Ha].
    destruct (k_upper (nth i (lpps l1 l2) 0%nat) (y * sqrt (eps_spec e 0) / 2) ltac:(lra)) as [K [HK U]].
    exists (Rabs a * K). split; [apply Rmult_le_pos; [apply Rabs_pos|lra]|]. intros k Hk. destruct (B k Hk) as [B1 B2].
    assert (P := sph_k_pos (nth i (lpps l1 l2) 0%nat) (x k) ltac:(lra)). rewrite exp_ln by exact P. rewrite Ha, Rabs_mult, (Rabs_pos_eq (sph_k _ _)), Rmult_1_r by lra.
    apply Rmult_le_compat_l; [apply Rabs_pos|]. now apply U.
  Qed.
  Lemma x_bnd : bnd x.
  Proof.
    destruct x_near as [r0 [R0 B]]. destruct med_facts as [_ [_ [_ [_ [_ [_ Q1]]]]]]. assert (X0 : 0 < y * sqrt (eps_spec e 0)) by (apply Rmult_lt_0_compat; [exact Hy|now apply sqrt_lt_R0]).
    exists r0, (2 * (y * sqrt (eps_spec e 0))). split; [exact R0|]. split; [lra|]. intros k Hk. destruct (B k Hk). rewrite Rabs_pos_eq by lra. assumption.
  Qed.
  Lemma V_near i s : (i < n1 c m)%nat -> (s < n2 c m)%nat -> bnd (fun k => V0 (rt k) i s) /\ bnd (fun k => V1 (rt k) i s) /\ bnd (fun k => V2 (rt k) i s) /\ bnd (fun k => V3 (rt k) i s).
  Proof.
    intros Hi Hs. set (l1 := (lmin m + i)%nat). set (l2 := (lmin m + s)%nat). destruct med_facts as [Hh [Hp _]].
    assert (H1 : (l1 <= c_lmax c)%nat) by (unfold n1, l1 in *; lia). assert (H2 : (l2 <= c_lssmax c)%nat) by (unfold n2, l2 in *; lia).
    assert (XP : forall k, 0 < k -> 0 < x k). { intros k Hk. rewrite x_eq by exact Hk. apply Rmult_lt_0_compat; [exact Hy|apply sqrt_lt_R0; now apply Hp]. }
    assert (Q : exists gs, forall k, 0 < k -> let sk p := exp (ln (sph_k p (x k))) in
      V0 (rt k) i s = closed (EE_ab true m l1 l2) sk gs l1 l2 /\ V1 (rt k) i s = closed (EE_ba true m l1 l2) sk gs l1 l2 /\
      V2 (rt k) i s = closed (EM_ab true m l1 l2 (x k)) sk gs l1 l2 /\ V3 (rt k) i s = closed (EM_ba true m l1 l2 (x k)) sk gs l1 l2).
    { assert (V : forall k, 0 < k -> exists gs, gaunt (Z.of_nat l1) (Z.of_nat l2) m = Def gs /\ let sk p := exp (ln (sph_k p (x k))) in
      V0 (rt k) i s = closed (EE_ab true m l1 l2) sk gs l1 l2 /\ V1 (rt k) i s = closed (EE_ba true m l1 l2) sk gs l1 l2 /\
      V2 (rt k) i s = closed (EM_ab true m l1 l2 (x k)) sk gs l1 l2 /\ V3 (rt k) i s = closed (EM_ba true m l1 l2 (x k)) sk gs l1 l2).
      { intros k Hk. destruct (coefficient_val trans_bessels (c_lmax c) (c_lssmax c) m (c_med c) (y / k) true l1 l2 k (eps_spec e) (mu_val b) (fun p => ln (sph_k p (x k))) Hh Hk H1 H2) as [gs [Eg [_ [q0 [q1 [q2 q3]]]]]].
        { replace (c_lmax c + c_lssmax c + 2)%nat with (c_lmax c + c_lssmax c + 1 + 1)%nat by lia. apply code_ext. now apply XP. }
        exists gs. split; [exact Eg|]. unfold rt, rt_with, at_distance. cbn [V0 V1 V2 V3 c_med c_L c_lmax c_lssmax c_ext]. rewrite Hext. fold l1 l2. now repeat split. }
      destruct (V 1 Rlt_0_1) as [gs [Eg _]]. exists gs. intros k Hk. destruct (V k Hk) as [gs' [Eg' Q]]. rewrite Eg in Eg'. injection Eg' as <-. exact Q. }
    destruct Q as [gs Q].
    assert (LE : forall lpp q, exists a, forall w, EE_ab true m l1 l2 lpp w q = a * w).
    { intros lpp q. unfold EE_ab, common_ab. eexists. intros w. instantiate (1 := (llp1 l1 + llp1 l2 - llp1 lpp) * (((-1) ^ 1 * sgnZ m * sqrt PI * q * sqrt ((2 * INR lpp + 1) / (llp1 l1 * llp1 l2))) * (2 / PI))). ring. }
    assert (LM : forall lpp q, exists a, forall w, EM_ab true m l1 l2 1 lpp w q = a * w).
    { intros lpp q. unfold EM_ab, common_ab. eexists. intros w. instantiate (1 := (2 * IZR m * 1) * (((-1) ^ 1 * sgnZ m * sqrt PI * q * sqrt ((2 * INR lpp + 1) / (llp1 l1 * llp1 l2))) * (2 / PI))). ring. }
    split; [|split; [|split]].
    - eapply bnd_ext; [intros k Hk; symmetry; apply (Q k Hk)|]. now apply closed_near.
    - eapply bnd_ext; [intros k Hk; symmetry; apply (Q k Hk)|]. apply closed_near. intros lpp q. destruct (LE lpp q) as [a Ha]. exists (a * (-1) ^ lpp). intros w. unfold EE_ba. rewrite Ha. ring.
    - apply (bnd_ext (fun k => x k * closed (EM_ab true m l1 l2 1) (fun p => exp (ln (sph_k p (x k)))) gs l1 l2)).
      + intros k Hk. destruct (Q k Hk) as [_ [_ [-> _]]]. unfold closed. rewrite scal_sum. apply sum_eq. intros j _. unfold EM_ab. ring.
      + apply bnd_mult; [apply x_bnd|now apply closed_near].
    - apply (bnd_ext (fun k => x k * closed (EM_ba true m l1 l2 1) (fun p => exp (ln (sph_k p (x k)))) gs l1 l2)).
      + intros k Hk. destruct (Q k Hk) as [_ [_ [_ ->]]]. unfold closed. rewrite scal_sum. apply sum_eq. intros j _. unfold EM_ba, EM_ab. ring.
      + apply bnd_mult; [apply x_bnd|]. apply closed_near. intros lpp q. destruct (LM lpp q) as [a Ha]. exists (- a * (-1) ^ lpp). intros w. unfold EM_ba. rewrite Ha. ring.
  Qed.

  (** the Mie coefficients over the cube of the size parameter: the polarizabilities for order one, nothing for the higher ones *)
  Lemma pol_static' mm p p' : polarizability e b mm p p' -> static_sphere mm.
  Proof. intros H. destruct H as [|mm e1 b1 H|mm e1 b1 H]; [now left|right; left; eauto|right; right; eauto]. Qed.
  Lemma mie_cube mm r lmax j p p' : 0 < r -> polarizability e b mm p p' -> to0 (fun k => n2r k * k * r) -> (j < lmax)%nat -> let F := fun ks => mie bes ks 0 (Z.of_nat lmax) r mm (c_med c) in
    lim0 (fun k => entry TE F j k / (k * r * n2r k) ^ 3) (if Nat.eqb j 0 then 2 / 3 * p' else 0) /\ lim0 (fun k => entry TM F j k / (k * r * n2r k) ^ 3) (if Nat.eqb j 0 then 2 / 3 * p else 0).
  Proof.
    intros Hr HP X Hj F. destruct HC as [_ [_ [CM _]]]. destruct (Nat.eqb_spec j 0) as [->|NJ].
    - exact (mie_dipole mm (c_med c) e b r lmax p p' Hr CM HP ltac:(lia) bes J dl HG).
    - destruct (mie_static mm (c_med c) e b r lmax j Hr CM (pol_static' mm p p' HP) Hj) as [te [tm K]]. destruct (K bes J dl HG) as [K1 K2].
      assert (Z : lim0 (fun k => (k * r * n2r k) ^ (2 * S j - 2)) 0).
      { apply lim0_eq with (0 ^ (2 * S j - 2)); [apply pow_ne_zero; lia|]. apply lim0_pow. apply (lim0_ext (fun k => n2r k * k * r)); [intros; ring|]. destruct X as [_ X]. exact X. }
      assert (G : forall f v, lim0 (fun k => f k / (k * r * n2r k) ^ (2 * S j + 1)) v -> lim0 (fun k => f k / (k * r * n2r k) ^ 3) 0).
      { intros f v H. apply lim0_eq with (v * 0); [ring|]. apply (lim0_ext (fun k => f k / (k * r * n2r k) ^ (2 * S j + 1) * (k * r * n2r k) ^ (2 * S j - 2))); [|now apply lim0_mult].
        intros k Hk. assert (PX := proj1 X k Hk). cbv beta in PX. replace (2 * S j + 1)%nat with (3 + (2 * S j - 2))%nat by lia. rewrite pow_add.
        assert (PW : 0 < k * r * n2r k) by (replace (k * r * n2r k) with (n2r k * k * r) by ring; exact PX). set (w := k * r * n2r k) in *. clearbody w. assert (w ^ (2 * S j - 2) <> 0) by (apply pow_nonzero; lra). field. repeat split; try assumption; lra. }
      split; [exact (G _ _ K1)|exact (G _ _ K2)].
  Qed.
  Let sa (f : R -> R) (k : R) := f k / (k * ra * n2r k) ^ 3.
  Let sb (f : R -> R) (k : R) := f k / (k * rb * n2r k) ^ 3.
  Lemma A_cube i : (i < n1 c m)%nat -> lim0 (sa (fun k => aTE (rt k) i)) (if Nat.eqb (l i) 1 then 2 / 3 * pm else 0) /\ lim0 (sa (fun k => aTM (rt k) i)) (if Nat.eqb (l i) 1 then 2 / 3 * pe else 0).
  Proof.
    intros Hi. destruct HC as [C1 [C2 [CM [Pa [Pb _]]]]]. destruct med_facts as [_ [_ [X1 _]]]. assert (Hj : (lmin m - 1 + i < c_lmax c)%nat) by (unfold n1, lmin in *; lia).
    assert (K := mie_cube m1 ra (c_lmax c) (lmin m - 1 + i) pe pm Pa P1 X1 Hj). cbv zeta in K. replace (Nat.eqb (l i) 1) with (Nat.eqb (lmin m - 1 + i) 0).
    - unfold sa, rt, rt_with, mieA. cbn [aTE aTM at_distance c_1 c_med c_lmax]. rewrite C1. exact K.
    - unfold l, lmin. destruct (Nat.eqb_spec (Z.to_nat (Z.max 1 m) - 1 + i) 0); destruct (Nat.eqb_spec (Z.to_nat (Z.max 1 m) + i) 1); try reflexivity; lia.
  Qed.
  Lemma B_cube s : (s < n2 c m)%nat -> lim0 (sb (fun k => bTE (rt k) s)) (if Nat.eqb (l s) 1 then 2 / 3 * pm' else 0) /\ lim0 (sb (fun k => bTM (rt k) s)) (if Nat.eqb (l s) 1 then 2 / 3 * pe' else 0).
  Proof.
    intros Hi. destruct HC as [C1 [C2 [CM [Pa [Pb _]]]]]. destruct med_facts as [_ [_ [_ [X2 _]]]]. assert (Hj : (lmin m - 1 + s < c_lssmax c)%nat) by (unfold n2, lmin in *; lia).
    assert (K := mie_cube m2 rb (c_lssmax c) (lmin m - 1 + s) pe' pm' Pb P2 X2 Hj). cbv zeta in K. replace (Nat.eqb (l s) 1) with (Nat.eqb (lmin m - 1 + s) 0).
    - unfold sb, rt, rt_with, mieB. cbn [bTE bTM at_distance c_2 c_med c_lssmax c_ext]. rewrite C2, Hext. exact K.
    - unfold l, lmin. destruct (Nat.eqb_spec (Z.to_nat (Z.max 1 m) - 1 + s) 0); destruct (Nat.eqb_spec (Z.to_nat (Z.max 1 m) + s) 1); try reflexivity; lia.
  Qed.
  Let dd (k : R) := (ra * rb / (y / k) ^ 2) ^ 3.
  Let B k := blocks (n2 c m) (fun _ _ _ => 1) (rt k).
  Lemma n2r_pos k : 0 < k -> 0 < n2r k.
  Proof. intros Hk. destruct med_facts as [_ [Hp _]]. destruct (Hp k Hk). unfold n2r, refr. apply sqrt_lt_R0. now apply Rmult_lt_0_compat. Qed.
  Lemma n2r_lim : lim0 n2r (sqrt (eps_spec e 0)).
  Proof.
    destruct med_facts as [_ [_ [_ [_ [L1 [L2 Q1]]]]]]. unfold n2r, refr. apply (lim0_comp sqrt (fun k => eps_spec e k * mu_val b k)); [apply continuity_pt_sqrt; lra|].
    apply lim0_eq with (eps_spec e 0 * 1); [ring|]. now apply lim0_mult.
  Qed.
  Lemma term_near (a b0 b1 v v' z z' : R -> R) : bnd (sa a) -> bnd (sb b0) -> bnd (sb b1) -> bnd v -> bnd v' -> bnd z -> bnd z' ->
    bnd (fun k => 1 * a k * (v k * b0 k * v' k + z k * b1 k * z' k) / dd k).
  Proof.
    intros Ha H0 H1 Hv Hv' Hz Hz'. destruct HC as [_ [_ [_ [Pa [Pb _]]]]].
    apply (bnd_ext (fun k => (y * n2r k) ^ 6 * (sa a k * sb b0 k * (v k * v' k) + sa a k * sb b1 k * (z k * z' k)))).
    - intros k Hk. symmetry. exact (term_scaled k y ra rb (n2r k) (a k) (b0 k) (b1 k) (v k) (v' k) (z k) (z' k) Hk Hy Pa Pb (n2r_pos k Hk)).
    - apply bnd_mult; [|exact (bnd_plus _ _ (bnd_mult _ _ (bnd_mult _ _ Ha H0) (bnd_mult _ _ Hv Hv')) (bnd_mult _ _ (bnd_mult _ _ Ha H1) (bnd_mult _ _ Hz Hz')))]. apply (bnd_lim _ ((y * sqrt (eps_spec e 0)) ^ 6)). apply lim0_pow. apply lim0_mult; [apply lim0_const|apply n2r_lim].
  Qed.
  Lemma block_near i j : (i < n1 c m)%nat -> (j < n1 c m)%nat ->
    bnd (fun k => fst (fst (fst (B k))) i j / dd k) /\ bnd (fun k => snd (fst (fst (B k))) i j / dd k) /\ bnd (fun k => snd (fst (B k)) i j / dd k) /\ bnd (fun k => snd (B k) i j / dd k).
  Proof.
    intros Hi Hj. unfold B, blocks. cbn [fst snd]. destruct (A_cube i Hi) as [A1 A2]. apply bnd_lim in A1. apply bnd_lim in A2.
    assert (SUM : forall G : nat -> R -> R, (forall s, (s < n2 c m)%nat -> bnd (fun k => G s k / dd k)) -> bnd (fun k => sumn (n2 c m) (fun s => G s k) / dd k)).
    { intros G H. apply (bnd_ext (fun k => sumn (n2 c m) (fun s => G s k / dd k))); [intros k _; apply sumn_div|]. now apply (bnd_sumn (n2 c m) (fun s k => G s k / dd k)). }
    assert (BB : forall s, (s < n2 c m)%nat -> bnd (sb (fun k => bTE (rt k) s)) /\ bnd (sb (fun k => bTM (rt k) s))).
    { intros s Hs. destruct (B_cube s Hs) as [B1 B2]. split; [exact (bnd_lim _ _ B1)|exact (bnd_lim _ _ B2)]. }
    split; [|split; [|split]].
    - apply (SUM (fun s k => 1 * aTE (rt k) i * (V0 (rt k) i s * bTE (rt k) s * V1 (rt k) j s + V2 (rt k) i s * bTM (rt k) s * V3 (rt k) j s))). intros s Hs. destruct (BB s Hs) as [B1 B2].
      destruct (V_near i s Hi Hs) as [v0 [v1 [v2 v3]]]. destruct (V_near j s Hj Hs) as [w0 [w1 [w2 w3]]]. exact (term_near _ _ _ _ _ _ _ A1 B1 B2 v0 w1 v2 w3).
    - apply (SUM (fun s k => 1 * aTE (rt k) i * (V0 (rt k) i s * bTE (rt k) s * V3 (rt k) j s + V2 (rt k) i s * bTM (rt k) s * V1 (rt k) j s))). intros s Hs. destruct (BB s Hs) as [B1 B2].
      destruct (V_near i s Hi Hs) as [v0 [v1 [v2 v3]]]. destruct (V_near j s Hj Hs) as [w0 [w1 [w2 w3]]]. exact (term_near _ _ _ _ _ _ _ A1 B1 B2 v0 w3 v2 w1).
    - apply (SUM (fun s k => 1 * aTM (rt k) i * (V2 (rt k) i s * bTE (rt k) s * V1 (rt k) j s + V0 (rt k) i s * bTM (rt k) s * V3 (rt k) j s))). intros s Hs. destruct (BB s Hs) as [B1 B2].
      destruct (V_near i s Hi Hs) as [v0 [v1 [v2 v3]]]. destruct (V_near j s Hj Hs) as [w0 [w1 [w2 w3]]]. exact (term_near _ _ _ _ _ _ _ A2 B1 B2 v2 w1 v0 w3).
    - apply (SUM (fun s k => 1 * aTM (rt k) i * (V2 (rt k) i s * bTE (rt k) s * V3 (rt k) j s + V0 (rt k) i s * bTM (rt k) s * V1 (rt k) j s))). intros s Hs. destruct (BB s Hs) as [B1 B2].
      destruct (V_near i s Hi Hs) as [v0 [v1 [v2 v3]]]. destruct (V_near j s Hj Hs) as [w0 [w1 [w2 w3]]]. exact (term_near _ _ _ _ _ _ _ A2 B1 B2 v2 w3 v0 w1).
  Qed.

  (** the trace *)
  Let dtv (x : R) : R := if Z.eqb m 0 then tau0 x else tau1 x.
  Let dtw (x : R) : R := if Z.eqb m 0 then 0 else tau2 x.
  Definition far_value (x : R) : R := if (Z.to_nat m <=? 1)%nat then (if Z.eqb m 0 then dip0 (pe * pe' + pm * pm') x else dip1 (pe * pe' + pm * pm') (pe * pm' + pm * pe') x) else 0.
  Let TT i s k := (1 * aTE (rt k) i * (V0 (rt k) i s * bTE (rt k) s * V1 (rt k) i s + V2 (rt k) i s * bTM (rt k) s * V3 (rt k) i s)) / dd k
                + (1 * aTM (rt k) i * (V2 (rt k) i s * bTE (rt k) s * V3 (rt k) i s + V0 (rt k) i s * bTM (rt k) s * V1 (rt k) i s)) / dd k.
  Let x0 := y * sqrt (eps_spec e 0).
  Lemma corner_limit : (Z.to_nat m <= 1)%nat -> (0 < n1 c m)%nat -> (0 < n2 c m)%nat -> lim0 (TT 0 0) (far_value x0).
  Proof.
    intros M1 N1 N2. destruct med_facts as [Hh [Hp [_ [_ [L1 [L2 Q1]]]]]]. destruct HC as [_ [_ [_ [Pa [Pb _]]]]].
    assert (LM : lmin m = 1%nat) by (unfold lmin; lia). assert (L0 : Nat.eqb (l 0) 1 = true) by (unfold l; rewrite LM; reflexivity).
    assert (M01 : (m = 0 \/ m = 1)%Z) by lia.
    destruct (A_cube 0 N1) as [A1 A2]. destruct (B_cube 0 N2) as [B1 B2]. rewrite L0 in *.
    assert (Ls : lim0 (fun k => sqrt (eps_spec e k)) (sqrt (eps_spec e 0))) by (apply (lim0_comp sqrt); [apply continuity_pt_sqrt; lra|exact L1]).
    assert (Lq : lim0 (fun k => sqrt (mu_val b k)) 1). { rewrite <- sqrt_1. apply (lim0_comp sqrt); [apply continuity_pt_sqrt; lra|exact L2]. }
    destruct (tau_cont x0) as [c0 [c1 c2]].
    assert (cv : continuity_pt dtv x0) by (unfold dtv; destruct (Z.eqb m 0); assumption).
    assert (cw' : continuity_pt dtw x0) by (unfold dtw; destruct (Z.eqb m 0); [apply continuity_pt_const; intros ? ?; reflexivity|assumption]).
    destruct (lim_dX _ _ _ _ _ _ (fun _ => y) _ _ _ _ _ y A1 A2 B1 B2 Lq Ls (lim0_const y) dtv dtw cv cw') as [LX _].
    apply lim0_eq with (dX (2 / 3 * pm) (2 / 3 * pe) (2 / 3 * pm') (2 / 3 * pe') (dtv x0) (dtw x0)).
    { destruct (dX_dip pe pm pe' pm' x0) as [D0 D1]. unfold far_value, dtv, dtw. destruct (Nat.leb_spec (Z.to_nat m) 1); [|lia]. destruct (Z.eqb m 0); assumption. }
    eapply lim0_ext; [|exact LX]. intros k Hk. cbv beta. destruct (Hp k Hk) as [he hu]. assert (ps := sqrt_lt_R0 _ he). assert (pq := sqrt_lt_R0 _ hu).
    assert (px : 0 < y * sqrt (eps_spec e k)) by now apply Rmult_lt_0_compat.
    assert (H1 : (1 <= c_lmax c)%nat) by (unfold n1 in N1; lia). assert (H2 : (1 <= c_lssmax c)%nat) by (unfold n2 in N2; lia).
    destruct (dipole_coefficients (c_med c) (eps_spec e) (mu_val b) (c_lmax c) (c_lssmax c) m k (y / k) Hh Hk he ltac:(now apply Rdiv_lt_0_compat) H1 H2 ltac:(tauto)) as [v0 [v1 [v2 v3]]].
    assert (ER : forall pick, coefficient pick trans_bessels (c_lmax c) (c_lssmax c) m (c_med c) (y / k) (c_ext c) (lmin m + 0) (lmin m + 0) k = coefficient pick trans_bessels (c_lmax c) (c_lssmax c) m (c_med c) (y / k) true 1 1 k).
    { intros pick. rewrite LM, Hext. reflexivity. }
    change (k * (y / k) * sqrt (eps_spec e k)) with (x k) in v0, v1, v2, v3. rewrite (x_eq k Hk) in v0, v1, v2, v3. destruct (t_tau _ px) as [T0 [T1 T2]].
    assert (E0 : V0 (rt k) 0 0 = dtv (y * sqrt (eps_spec e k)) / (y * sqrt (eps_spec e k)) ^ 3). { transitivity (coefficient v_EEab trans_bessels (c_lmax c) (c_lssmax c) m (c_med c) (y / k) true 1 1 k); [exact (ER v_EEab)|]. rewrite v0. unfold dtv. destruct (Z.eqb m 0); assumption. }
    assert (E1 : V1 (rt k) 0 0 = dtv (y * sqrt (eps_spec e k)) / (y * sqrt (eps_spec e k)) ^ 3). { transitivity (coefficient v_EEba trans_bessels (c_lmax c) (c_lssmax c) m (c_med c) (y / k) true 1 1 k); [exact (ER v_EEba)|]. rewrite v1. unfold dtv. destruct (Z.eqb m 0); assumption. }
    assert (E2 : V2 (rt k) 0 0 = dtw (y * sqrt (eps_spec e k)) / (y * sqrt (eps_spec e k)) ^ 3). { transitivity (coefficient v_EMab trans_bessels (c_lmax c) (c_lssmax c) m (c_med c) (y / k) true 1 1 k); [exact (ER v_EMab)|]. rewrite v2, T2. unfold dtw. destruct M01 as [-> | ->]; cbn [Z.eqb]; unfold Rdiv; ring. }
    assert (E3 : V3 (rt k) 0 0 = - (dtw (y * sqrt (eps_spec e k)) / (y * sqrt (eps_spec e k)) ^ 3)). { transitivity (coefficient v_EMba trans_bessels (c_lmax c) (c_lssmax c) m (c_med c) (y / k) true 1 1 k); [exact (ER v_EMba)|]. rewrite v3, T2. unfold dtw. destruct M01 as [-> | ->]; cbn [Z.eqb]; unfold Rdiv; ring. }
    unfold TT. rewrite E0, E1, E2, E3. clear E0 E1 E2 E3 v0 v1 v2 v3 ER.
    assert (EN : n2r k = sqrt (eps_spec e k) * sqrt (mu_val b k)) by (unfold n2r, refr; apply sqrt_mult; lra).
    unfold dd. rewrite !(term_scaled k y ra rb (n2r k)) by (assumption || now apply n2r_pos). fold (sa (fun k => aTE (rt k) 0%nat) k) (sa (fun k => aTM (rt k) 0%nat) k) (sb (fun k => bTE (rt k) 0%nat) k) (sb (fun k => bTM (rt k) 0%nat) k).
    set (a0 := sa (fun k => aTE (rt k) 0%nat) k). set (a1 := sa (fun k => aTM (rt k) 0%nat) k). set (b0 := sb (fun k => bTE (rt k) 0%nat) k). set (b1 := sb (fun k => bTM (rt k) 0%nat) k).
    rewrite EN. set (qq := sqrt (mu_val b k)) in *. set (ss := sqrt (eps_spec e k)) in *. set (v := dtv _). set (w := dtw _). clearbody a0 a1 b0 b1 qq ss v w. unfold dX. field. split; lra.
  Qed.
  Lemma other_limit i s : (i < n1 c m)%nat -> (s < n2 c m)%nat -> (Nat.eqb (l i) 1 && Nat.eqb (l s) 1)%bool = false -> lim0 (TT i s) 0.
  Proof.
    intros Hi Hs E. destruct HC as [_ [_ [_ [Pa [Pb _]]]]]. destruct (A_cube i Hi) as [A1 A2]. destruct (B_cube s Hs) as [B1 B2]. destruct (V_near i s Hi Hs) as [v0 [v1 [v2 v3]]].
    assert (W : lim0 (fun k => (y * n2r k) ^ 6) (x0 ^ 6)) by (apply lim0_pow; apply lim0_mult; [apply lim0_const|apply n2r_lim]).
    assert (Z : forall p p' q q' : R, (if Nat.eqb (l i) 1 then p else 0) = 0 \/ (if Nat.eqb (l s) 1 then q else 0) = 0).
    { intros p _ q _. destruct (Nat.eqb (l i) 1); [|now left]. cbn [andb] in E. rewrite E. now right. }
    apply (lim0_ext (fun k => (y * n2r k) ^ 6 * (sa (fun k => aTE (rt k) i) k * sb (fun k => bTE (rt k) s) k * (V0 (rt k) i s * V1 (rt k) i s) + sa (fun k => aTE (rt k) i) k * sb (fun k => bTM (rt k) s) k * (V2 (rt k) i s * V3 (rt k) i s))
                            + (y * n2r k) ^ 6 * (sa (fun k => aTM (rt k) i) k * sb (fun k => bTE (rt k) s) k * (V2 (rt k) i s * V3 (rt k) i s) + sa (fun k => aTM (rt k) i) k * sb (fun k => bTM (rt k) s) k * (V0 (rt k) i s * V1 (rt k) i s)))).
    { intros k Hk. symmetry. unfold TT, dd. rewrite !(term_scaled k y ra rb (n2r k)) by (assumption || now apply n2r_pos). reflexivity. }
    apply lim0_eq with (x0 ^ 6 * 0 + x0 ^ 6 * 0); [ring|].
    apply lim0_plus; (apply lim0_mult; [exact W|]).
    - apply (pick_2 false _ _ _ _ _ _ _ _ _ _ A1 B1 A1 B2 (bnd_mult _ _ v0 v1) (bnd_mult _ _ v2 v3)); [|reflexivity]. intros _. split; apply Z; exact 0.
    - apply (pick_2 false _ _ _ _ _ _ _ _ _ _ A2 B1 A2 B2 (bnd_mult _ _ v2 v3) (bnd_mult _ _ v0 v1)); [|reflexivity]. intros _. split; apply Z; exact 0.
  Qed.
  Lemma trace_limit : (Z.to_nat m <= c_lmax c)%nat -> (1 <= c_lmax c)%nat -> (1 <= c_lssmax c)%nat ->
    lim0 (fun k => (mtrace (n1 c m) (fst (fst (fst (B k)))) + mtrace (n1 c m) (snd (B k))) / dd k) (far_value x0).
  Proof.
    intros HM Hl Hs.
    set (lv := fun i s => if ((Z.to_nat m <=? 1)%nat && (Nat.eqb i 0 && Nat.eqb s 0))%bool then far_value x0 else 0).
    assert (V : sumn (n1 c m) (fun i => sumn (n2 c m) (lv i)) = far_value x0).
    { rewrite (sumn_corner (n1 c m) (n2 c m) (Z.to_nat m <=? 1)%nat (far_value x0) lv).
      - unfold far_value. destruct (Z.to_nat m <=? 1)%nat; reflexivity.
      - intros E. apply Nat.leb_le in E. unfold n1, n2, lmin. lia.
      - intros i s. reflexivity. }
    rewrite <- V. apply (lim0_ext (fun k => sumn (n1 c m) (fun i => sumn (n2 c m) (fun s => TT i s k)))).
    { intros k Hk. unfold TT. unfold mtrace, B, blocks. cbn [fst snd]. unfold Rdiv at 3. rewrite Rmult_plus_distr_r. rewrite !(Rmult_comm (sumn (n1 c m) _)), <- !sumn_scal, <- Bal_Proofs.sumn_plus. apply sumn_ext. intros i _.
      rewrite <- !sumn_scal, <- Bal_Proofs.sumn_plus. apply sumn_ext. intros s _. unfold Rdiv. ring. }
    apply (lim0_sumn (n1 c m) (fun i k => sumn (n2 c m) (fun s => TT i s k)) (fun i => sumn (n2 c m) (lv i))). intros i Hi. apply (lim0_sumn (n2 c m) (TT i) (lv i)). intros s Hs'.
    unfold lv. destruct (Nat.leb_spec (Z.to_nat m) 1) as [M1|M1]; cbn [andb].
    - destruct (Nat.eqb_spec i 0) as [->|Ni]; cbn [andb]; [destruct (Nat.eqb_spec s 0) as [->|Ns]|].
      + apply corner_limit; assumption.
      + apply other_limit; try assumption. destruct (Nat.eqb_spec (l s) 1); [unfold l, lmin in *; lia|]. now rewrite andb_false_r.
      + apply other_limit; try assumption. destruct (Nat.eqb_spec (l i) 1); [unfold l, lmin in *; lia|]. reflexivity.
    - apply other_limit; try assumption. destruct (Nat.eqb_spec (l i) 1); [unfold l, lmin in *; lia|]. reflexivity.
  Qed.
End Remote.
