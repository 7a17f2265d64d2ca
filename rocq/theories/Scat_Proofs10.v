(** * mie_internal_k0 against the limits *)
From Coq Require Import Reals.
From Coquelicot Require Import Coquelicot.
From Coq Require Import ZArith List Lia Lra.
From Verif Require Import Base Mat_Model Mat_Spec Mat_Proofs Help_Model Help_Spec Help_Proofs Bessel_Model Bessel_Spec Bessel_Proofs Bessel_Proofs2 Scat_Model Scat_Spec Scat_Proofs Scat_Proofs2 Scat_Proofs4 Scat_Proofs7 Scat_Proofs8 Scat_Proofs9.
Import ListNotations.
Open Scope R_scope.

Lemma limit0_unique f a b : limit0 f a -> limit0 f b -> a = b.
Proof. exact (@filterlim_locally_unique R R_AbsRing R_NormedModule (at_right 0) _ f a b). Qed.

(** ** ratios *)
Lemma ratio_int_fin l (p1 p2 xi xe : R -> R) P1 P2 E : 0 < P1 -> 0 < P2 -> E < 0 -> lim0 p1 P1 -> lim0 p2 P2 -> lim0 (fun k => DK l (xe k)) E -> to0 xi ->
  lim0 (fun k => ratio_int (p1 k) (p2 k) (DI l (xi k)) (DK l (xi k)) (DK l (xe k)))
       (- (P2 * INR (S l) + P1 * E) / ((INR (S l) + 1) * P2 - P1 * E)).
Proof.
  intros HP1 HP2 HE H1 H2 HDK Hx. unfold ratio_int. assert (HL := pos_INR l). rewrite S_INR.
  apply lim0_eq with ((P2 * (- (INR l + 1)) - P1 * E) / (P2 * (INR l + 2) - P1 * E)); [f_equal; ring|].
  apply lim0_div.
  - assert (0 < P2 * (INR l + 2)) by (apply Rmult_lt_0_compat; lra). assert (0 < P1 * (- E)) by (apply Rmult_lt_0_compat; lra). lra.
  - apply lim0_minus; apply lim0_mult; try assumption. apply (lim0_sub (DK l) xi _ Hx). apply lim0_DK.
  - apply lim0_minus; apply lim0_mult; try assumption. apply (lim0_sub (DI l) xi _ Hx). apply lim0_DI.
Qed.
Lemma ratio_int_inf l (p1 p2 xi xe : R -> R) P1 E : (forall k, 0 < k -> 0 < p2 k) -> lim0 (fun k => / p2 k) 0 -> lim0 p1 P1 -> lim0 (fun k => DK l (xe k)) E -> to0 xi ->
  lim0 (fun k => ratio_int (p1 k) (p2 k) (DI l (xi k)) (DK l (xi k)) (DK l (xe k))) (- (INR (S l) / (INR (S l) + 1))).
Proof.
  intros HP2 H2 H1 HDK Hx. assert (HL := pos_INR l). rewrite S_INR.
  apply (lim0_ext (fun k => (DK l (xi k) - / p2 k * p1 k * DK l (xe k)) / (DI l (xi k) - / p2 k * p1 k * DK l (xe k)))).
  { intros k Hk. unfold ratio_int. assert (p2 k <> 0) by (specialize (HP2 k Hk); lra).
    replace (p2 k * DK l (xi k) - p1 k * DK l (xe k)) with (p2 k * (DK l (xi k) - / p2 k * p1 k * DK l (xe k))) by (field; assumption).
    replace (p2 k * DI l (xi k) - p1 k * DK l (xe k)) with (p2 k * (DI l (xi k) - / p2 k * p1 k * DK l (xe k))) by (field; assumption).
    set (a := DK l (xi k) - / p2 k * p1 k * DK l (xe k)). set (b := DI l (xi k) - / p2 k * p1 k * DK l (xe k)).
    unfold Rdiv. rewrite Rinv_mult. replace (p2 k * a * (/ p2 k * / b)) with (a * / b * (p2 k * / p2 k)) by ring. rewrite Rinv_r by assumption. ring. }
  apply lim0_eq with ((- (INR l + 1) - 0 * P1 * E) / ((INR l + 2) - 0 * P1 * E)); [field; lra|].
  apply lim0_div; [lra| |].
  - apply lim0_minus; [apply (lim0_sub (DK l) xi _ Hx), lim0_DK|]. apply lim0_mult; [now apply lim0_mult|assumption].
  - apply lim0_minus; [apply (lim0_sub (DI l) xi _ Hx), lim0_DI|]. apply lim0_mult; [now apply lim0_mult|assumption].
Qed.
Lemma int_limit l (p1 p2 n1 n2 : R -> R) r v : to0 (fun k => n1 k * k * r) ->
  lim0 (fun k => ratio_int (p1 k) (p2 k) (DI l (n1 k * k * r)) (DK l (n1 k * k * r)) (DK l (n2 k * k * r))) v ->
  lim0 (fun k => int_val l (p1 k) (p2 k) (n1 k) (n2 k) k r * (k * r * n1 k) ^ (2 * S l + 1)) (sgn (S l) * v * cw (S l)).
Proof.
  intros Hx Hv.
  apply (lim0_ext (fun k => ratio_int (p1 k) (p2 k) (DI l (n1 k * k * r)) (DK l (n1 k * k * r)) (DK l (n2 k * k * r)) * (sgn (S l) * 2 / PI) *
     (sph_k (S l) (n1 k * k * r) / sph_i (S l) (n1 k * k * r) * (n1 k * k * r) ^ (2 * S l + 1)))).
  { intros k Hk. unfold int_val. rewrite ki_scale by (now apply Hx). replace (k * r * n1 k) with (n1 k * k * r) by ring. unfold Rdiv. ring. }
  apply lim0_eq with (v * (sgn (S l) * 2 / PI) * (PI / 2 * cw (S l))).
  { generalize PI_RGT_0. intros. field. lra. }
  apply lim0_mult; [apply lim0_mult; [exact Hv|apply lim0_const]|].
  apply (lim0_sub (fun x => sph_k (S l) x / sph_i (S l) x * x ^ (2 * S l + 1)) (fun k => n1 k * k * r) _ Hx). apply lim0_ratio_inv.
Qed.
Lemma pec_int_limit l (n1 : R -> R) r : to0 (fun k => n1 k * k * r) ->
  lim0 (fun k => sgn (S l) * 2 / PI * pec_scale_int l (n1 k) k r * (k * r * n1 k) ^ (2 * S l + 1)) (sgn (S l) * cw (S l)) /\
  lim0 (fun k => sgn (S l) * 2 / PI * (DK l (n1 k * k * r) / DI l (n1 k * k * r)) * pec_scale_int l (n1 k) k r * (k * r * n1 k) ^ (2 * S l + 1))
       (- sgn (S l) * (INR (S l) / (INR (S l) + 1)) * cw (S l)).
Proof.
  intros Hx. generalize PI_RGT_0 (pos_INR l). intros HP HL.
  assert (Q : lim0 (fun k => sph_k (S l) (n1 k * k * r) / sph_i (S l) (n1 k * k * r) * (n1 k * k * r) ^ (2 * S l + 1)) (PI / 2 * cw (S l))).
  { apply (lim0_sub (fun x => sph_k (S l) x / sph_i (S l) x * x ^ (2 * S l + 1)) (fun k => n1 k * k * r) _ Hx). apply lim0_ratio_inv. }
  split.
  - apply (lim0_ext (fun k => (sgn (S l) * 2 / PI) * (sph_k (S l) (n1 k * k * r) / sph_i (S l) (n1 k * k * r) * (n1 k * k * r) ^ (2 * S l + 1)))).
    { intros k Hk. unfold pec_scale_int. rewrite ki_scale by (now apply Hx). replace (k * r * n1 k) with (n1 k * k * r) by ring. unfold Rdiv. ring. }
    apply lim0_eq with ((sgn (S l) * 2 / PI) * (PI / 2 * cw (S l))); [field; lra|]. apply lim0_mult; [apply lim0_const|exact Q].
  - apply (lim0_ext (fun k => (sgn (S l) * 2 / PI) * (DK l (n1 k * k * r) / DI l (n1 k * k * r)) * (sph_k (S l) (n1 k * k * r) / sph_i (S l) (n1 k * k * r) * (n1 k * k * r) ^ (2 * S l + 1)))).
    { intros k Hk. unfold pec_scale_int. rewrite ki_scale by (now apply Hx). replace (k * r * n1 k) with (n1 k * k * r) by ring. unfold Rdiv. ring. }
    apply lim0_eq with ((sgn (S l) * 2 / PI) * (- (INR l + 1) / (INR l + 2)) * (PI / 2 * cw (S l))).
    { rewrite S_INR. field. repeat split; lra. }
    apply lim0_mult; [|exact Q].
    apply lim0_mult; [apply lim0_const|]. apply lim0_div; [lra| |]; [apply (lim0_sub (DK l) _ _ Hx), lim0_DK|apply (lim0_sub (DI l) _ _ Hx), lim0_DI].
Qed.

(** ** broadcasting *)
Lemma vmap2_map {A C D E} (f : C -> D -> E) (g : A -> C) (h : A -> D) (l : list A) : vmap2 f (map g l) (map h l) = map (fun x => f (g x) (h x)) l.
Proof. unfold vmap2. induction l as [|x l IH]; [reflexivity|]. cbn [map combine fst snd]. now rewrite IH. Qed.
Lemma bcast_map {A} (f : R -> R -> R) (g h : A -> R) (l : list A) : bcast f (map g l) (map h l) = Val (map (fun x => f (g x) (h x)) l).
Proof.
  unfold bcast. destruct l as [|x [|y l]]; [reflexivity|reflexivity|]. rewrite <- (vmap2_map f g h (x :: y :: l)).
  cbn [map]. cbn [length]. rewrite !map_length, Nat.eqb_refl. reflexivity.
Qed.
Lemma bcast_long f a b r : (2 <= length a)%nat -> bcast f a b = Val r -> length r = length a.
Proof.
  intros H. unfold bcast. destruct a as [|x [|y a]]; cbn [length] in H; try lia. destruct b as [|z [|t b]].
  - cbn. discriminate.
  - intros E. injection E as <-. cbn [length]. now rewrite !map_length.
  - destruct (Nat.eqb_spec (length (x :: y :: a)) (length (z :: t :: b))) as [E|E]; [|discriminate]. intros G. injection G as <-.
    unfold vmap2. rewrite map_length, combine_length, E. lia.
Qed.
Lemma bcast_exc f a b : exists r, bcast f a b = Val r \/ bcast f a b = Exc ValueError.
Proof.
  unfold bcast. destruct a as [|x [|y a]]; destruct b as [|z [|t b]]; try (eexists; left; reflexivity); try (exists []; right; reflexivity).
  destruct (Nat.eqb _ _); [eexists; left; reflexivity|exists []; right; reflexivity].
Qed.
Lemma bcast_sym_long f a b r : (2 <= length b)%nat -> bcast f a b = Val r -> length r = length b.
Proof.
  intros H. unfold bcast. destruct b as [|x [|y b]]; cbn [length] in H; try lia. destruct a as [|z [|t a]].
  - cbn. discriminate.
  - intros E. injection E as <-. cbn [length]. now rewrite !map_length.
  - destruct (Nat.eqb_spec (length (z :: t :: a)) (length (x :: y :: b))) as [E|E]; [|discriminate]. intros G. injection G as <-.
    unfold vmap2. rewrite map_length, combine_length, E. lia.
Qed.

Section Int.
  Context (l0 lmax : nat) (r : R) (Hr : 0 < r) (Hl : (l0 <= lmax)%nat).
  Let ls := seq (l0 + 1) (lmax - l0).
  Definition static_int (pick : coefs -> nat -> nat -> R) (m1 m2 : material) (n1 : R -> R) (row : list R) (cm : list R) : Prop :=
    forall j, (j < lmax - l0)%nat ->
    limit0 (fun k => entry pick (fun ks => mie_internal exact_bessels ks l0 (Z.of_nat lmax) r m1 m2) j k * (k * r * n1 k) ^ (2 * S (l0 + j) + 1))
           (nth j row 0 * exp (nth j cm 0)).
  Lemma static_int_from pick m1 m2 n1 (b : nat -> R) (g : nat -> R -> R) :
    (forall j k, (j < lmax - l0)%nat -> 0 < k -> entry pick (fun ks => mie_internal exact_bessels ks l0 (Z.of_nat lmax) r m1 m2) j k = g j k) ->
    (forall j, (j < lmax - l0)%nat -> lim0 (fun k => g j k * (k * r * n1 k) ^ (2 * S (l0 + j) + 1)) (b (S (l0 + j)) * cw (S (l0 + j)))) ->
    static_int pick m1 m2 n1 (map b ls) (map (fun l => ln (2 * INR l + 1) + 2 * ln_2dbl l) ls).
  Proof.
    intros He Hg j Hj. unfold ls. rewrite !row_nth by assumption. destruct (exp_common (S (l0 + j))) as [_ ->].
    apply (lim0_ext (fun k => g j k * (k * r * n1 k) ^ (2 * S (l0 + j) + 1))); [|now apply Hg]. intros k Hk. now rewrite He.
  Qed.
  Context (m1 : material) (e1 : list osc) (b1 : bprops) (H1 : insulator m1 e1 b1).
  Let n1 := refr (eps_spec e1) (mu_val b1).
  Lemma int_setup : is_pec m1 = false /\ sigma_finite m1 = true /\ dielectric m1 = Ok true /\ mu_of m1 [0] = Val [mu_val b1 0] /\ eps_of m1 [0] = Val [eps_spec e1 0] /\
    has m1 (eps_spec e1) (mu_val b1) /\ to0 (fun k => n1 k * k * r) /\ lim0 (eps_spec e1) (eps_spec e1 0) /\ lim0 (mu_val b1) (mu_val b1 0) /\ 0 < eps_spec e1 0 /\ 0 < mu_val b1 0.
  Proof.
    destruct (insulator_flags _ _ _ H1) as [F1 [F2 [F3 [Hb Hh]]]]. destruct H1 as [E1 [HP [HN _]]].
    destruct (insulator_arg e1 b1 r Hr HP HN Hb) as [X [L1 [L2 [P1 P2]]]].
    repeat (split; [first [assumption|rewrite E1; first [now apply mu_of_0|now apply eps_of_0]]|]). assumption.
  Qed.
  Definition int_result (m2 : material) : Prop :=
    exists te tm cm, mie_internal_k0 m1 m2 l0 lmax r = Val (te, tm, cm) /\ length te = (lmax - l0)%nat /\ length tm = (lmax - l0)%nat /\ length cm = (lmax - l0)%nat /\
      static_int TE m1 m2 n1 te cm /\ static_int TM m1 m2 n1 tm cm.
  Lemma mie_int_k0_pec : int_result PEC.
  Proof.
    destruct int_setup as [F3 [F1 [F2 [EM [EE [Hh [X [L1 [L2 [P1 P2]]]]]]]]]].
    unfold int_result, mie_internal_k0. fold ls. rewrite F1, F2, EM, EE.
    destruct (mu_of PEC [0]) eqn:E; [|discriminate E..]. cbn [obind negb of_res is_pec]. rewrite bcast_map. cbn [obind].
    rewrite map_length, Nat.eqb_refl.
    do 3 eexists. split; [reflexivity|]. do 3 (split; [unfold ls; now rewrite map_length, seq_length|]).
    split.
    - apply (static_int_from _ _ _ n1 _ (fun j k => sgn (S (l0 + j)) * 2 / PI * pec_scale_int (l0 + j) (n1 k) k r)).
      + intros j k Hj Hk. now apply (entry_pec_int l0 lmax r Hr Hl m1 _ _ j k Hh Hj Hk).
      + intros j Hj. rewrite Rmult_1_r. now apply pec_int_limit.
    - apply (static_int_from _ _ _ n1 _ (fun j k => sgn (S (l0 + j)) * 2 / PI * (DK (l0 + j) (n1 k * k * r) / DI (l0 + j) (n1 k * k * r)) * pec_scale_int (l0 + j) (n1 k) k r)).
      + intros j k Hj Hk. now apply (entry_pec_int l0 lmax r Hr Hl m1 _ _ j k Hh Hj Hk).
      + intros j Hj. now apply pec_int_limit.
  Qed.
  Section Damped.
    (** exteriors in which n k r still tends to 0 *)
    Context (m2 : material) (e2 : list osc) (b2 : bprops) (Gh : has m2 (eps_spec e2) (mu_val b2)) (Gb : good_b b2) (Y : to0 (fun k => refr (eps_spec e2) (mu_val b2) k * k * r)).
    Lemma int_te : static_int TE m1 m2 n1 (map (fun l => sgn l * ((- mu_val b2 0 + mu_val b1 0) * INR l / (INR l * (mu_val b1 0 + mu_val b2 0) + mu_val b2 0))) ls)
       (map (fun l => ln (2 * INR l + 1) + 2 * ln_2dbl l) ls).
    Proof.
      destruct int_setup as [F3 [F1 [F2 [EM [EE [Hh [X [L1 [L2 [P1 P2]]]]]]]]]].
      apply (static_int_from _ _ _ n1 _ (fun j k => int_val (l0 + j) (mu_val b1 k) (mu_val b2 k) (n1 k) (refr (eps_spec e2) (mu_val b2) k) k r)).
      + intros j k Hj Hk. now apply (entry_int l0 lmax r Hr Hl m1 m2 _ _ _ _ j k Hh Gh Hj Hk).
      + intros j Hj. assert (HL := pos_INR (l0 + j)). assert (Q2 := mu_val_pos b2 0 Gb ltac:(lra)).
        eapply lim0_eq; [|apply int_limit; [exact X|]; apply (ratio_int_fin (l0 + j) (mu_val b1) (mu_val b2) _ _ _ _ (- (INR (l0 + j) + 1)) P2 Q2 ltac:(lra) L2 (lim0_mu b2 Gb) (lim0_sub (DK (l0 + j)) _ _ Y (lim0_DK _)) X)].
        rewrite !S_INR. field. repeat split; nra.
    Qed.
  End Damped.
  Lemma mie_int_k0_insulator m2 e2 b2 : insulator m2 e2 b2 -> int_result m2.
  Proof.
    intros H2. destruct int_setup as [F3 [F1 [F2 [EM [EE [Hh [X [L1 [L2 [P1 P2]]]]]]]]]].
    destruct (insulator_flags _ _ _ H2) as [G1 [G2 [G3 [Gb Gh]]]]. destruct H2 as [E2 [GP [GN _]]].
    destruct (insulator_arg e2 b2 r Hr GP GN Gb) as [Y [M1 [M2 [Q1 Q2]]]].
    assert (EM2 : mu_of m2 [0] = Val [mu_val b2 0]) by (rewrite E2; now apply mu_of_0).
    assert (EE2 : eps_of m2 [0] = Val [eps_spec e2 0]) by (rewrite E2; now apply eps_of_0).
    unfold int_result, mie_internal_k0. fold ls. rewrite F1, F2, EM, EE, G1, G2, G3, EM2, EE2. cbn [obind negb of_res hd0 nth]. rewrite bcast_map. cbn [obind].
    rewrite map_length, Nat.eqb_refl.
    do 3 eexists. split; [reflexivity|]. do 3 (split; [unfold ls; now rewrite map_length, seq_length|]).
    split; [now apply (int_te m2 e2 b2)|].
    apply (static_int_from _ _ _ n1 _ (fun j k => int_val (l0 + j) (eps_spec e1 k) (eps_spec e2 k) (n1 k) (refr (eps_spec e2) (mu_val b2) k) k r)).
    + intros j k Hj Hk. now apply (entry_int l0 lmax r Hr Hl m1 m2 _ _ _ _ j k Hh Gh Hj Hk).
    + intros j Hj. assert (HL := pos_INR (l0 + j)).
      eapply lim0_eq; [|apply int_limit; [exact X|]; apply (ratio_int_fin (l0 + j) (eps_spec e1) (eps_spec e2) _ _ _ _ (- (INR (l0 + j) + 1)) P1 Q1 ltac:(lra) L1 M1 (lim0_sub (DK (l0 + j)) _ _ Y (lim0_DK _)) X)].
      unfold hd0. cbn [nth]. rewrite !S_INR. field. repeat split; nra.
  Qed.
  Lemma mie_int_k0_drude m2 e2 b2 : drude m2 e2 b2 -> int_result m2.
  Proof.
    intros H2. destruct int_setup as [F3 [F1 [F2 [EM [EE [Hh [X [L1 [L2 [P1 P2]]]]]]]]]].
    destruct (drude_flags _ _ _ H2) as [G1 [G2 [G3 [Gb Gh]]]]. destruct H2 as [E2 [GP [GX [GN _]]]].
    assert (Y := drude_arg e2 b2 r Hr GP GN Gb).
    assert (EM2 : mu_of m2 [0] = Val [mu_val b2 0]) by (rewrite E2; now apply mu_of_0).
    unfold int_result, mie_internal_k0. fold ls. rewrite F1, F2, EM, EE, G1, G2, G3, EM2. cbn [obind negb of_res hd0 nth]. rewrite bcast_map. cbn [obind].
    rewrite map_length, Nat.eqb_refl.
    do 3 eexists. split; [reflexivity|]. do 3 (split; [unfold ls; now rewrite map_length, seq_length|]).
    split; [now apply (int_te m2 e2 b2)|].
    apply (static_int_from _ _ _ n1 _ (fun j k => int_val (l0 + j) (eps_spec e1 k) (eps_spec e2 k) (n1 k) (refr (eps_spec e2) (mu_val b2) k) k r)).
    + intros j k Hj Hk. now apply (entry_int l0 lmax r Hr Hl m1 m2 _ _ _ _ j k Hh Gh Hj Hk).
    + intros j Hj.
      eapply lim0_eq; [|apply int_limit; [exact X|]; eapply (ratio_int_inf (l0 + j) (eps_spec e1) (eps_spec e2)); [intros k Hk; destruct Gh as [_ [Gh _]]; now apply Gh|now apply lim0_inv_eps|exact L1|exact (lim0_sub (DK (l0 + j)) _ _ Y (lim0_DK _))|exact X]].
      ring.
  Qed.

  (** plasma exterior *)
  Definition plasma_int_b (mu1 mu2 : R) (l : nat) (f : R) : R := - (mu2 * INR l + mu1 * f) / ((INR l + 1) * mu2 - mu1 * f).
  Section Plasma.
    Context (m2 : material) (o2 : osc) (e2 : list osc) (b2 : bprops) (H2 : plasma m2 o2 e2 b2) (Hmu : mu_val b2 0 = 1).
    Let w := o_wP o2 * r / omega_norm.
    Lemma w_pos : 0 < w.
    Proof. unfold w. destruct H2 as [_ [_ [H _]]]. apply Rdiv_lt_0_compat; [now apply Rmult_lt_0_compat|apply omega_norm_pos]. Qed.
    (** what the true limit is *)
    Lemma plasma_int_true j : (j < lmax - l0)%nat -> let l := S (l0 + j) in
      limit0 (fun k => entry TE (fun ks => mie_internal exact_bessels ks l0 (Z.of_nat lmax) r m1 m2) j k * (k * r * n1 k) ^ (2 * l + 1))
        (sgn l * plasma_int_b (mu_val b1 0) 1 l (- INR l - w * (sph_k (l0 + j) w / sph_k l w)) * cw l).
    Proof.
      intros Hj l. destruct int_setup as [F3 [F1 [F2 [EM [EE [Hh [X [L1 [L2 [P1 P2]]]]]]]]]].
      destruct (plasma_flags _ _ _ _ H2) as [G1 [G3 [Gb [Gh G4]]]]. assert (W := w_pos).
      assert (Y : lim0 (fun k => refr (eps_spec (o2 :: e2)) (mu_val b2) k * k * r) w).
      { apply plasma_arg; [assumption| |assumption]. assert (E : m2 = Lorentz (o2 :: e2) b2) by apply H2. now rewrite <- E. }
      assert (M2 := lim0_mu b2 Gb). rewrite Hmu in M2.
      apply (lim0_ext (fun k => int_val (l0 + j) (mu_val b1 k) (mu_val b2 k) (n1 k) (refr (eps_spec (o2 :: e2)) (mu_val b2) k) k r * (k * r * n1 k) ^ (2 * l + 1))).
      { intros k Hk. destruct (entry_int l0 lmax r Hr Hl m1 m2 _ _ _ _ j k Hh Gh Hj Hk) as [-> _]. reflexivity. }
      assert (HD := DK_neg (l0 + j) w W). assert (HL := pos_INR (l0 + j)).
      eapply lim0_eq; [|apply int_limit; [exact X|]; apply (ratio_int_fin (l0 + j) (mu_val b1) (mu_val b2) _ _ _ _ (DK (l0 + j) w) P2 Rlt_0_1 ltac:(lra) L2 M2 (lim0_comp (DK (l0 + j)) _ _ (DK_cont _ _ W) Y) X)].
      unfold plasma_int_b, l. rewrite <- (DKE (l0 + j) w W). reflexivity.
    Qed.
    Lemma quotE : vmap2 (fun a b => exp (a - b) * w) (removelast (map hd0 (map (fun l => map (fun t => ln (sph_k l t)) [w]) (seq 0 (S lmax)))))
        (tl (map hd0 (map (fun l => map (fun t => ln (sph_k l t)) [w]) (seq 0 (S lmax))))) = map (fun l => sph_k l w / sph_k (S l) w * w) (seq 0 lmax).
    Proof.
      assert (W := w_pos). rewrite map_map. cbn [map]. unfold hd0. cbn [nth].
      assert (RL : forall n s, removelast (map (fun x => ln (sph_k x w)) (seq s (S n))) = map (fun x => ln (sph_k x w)) (seq s n)).
      { induction n as [|n IH]; intros s; [reflexivity|]. specialize (IH (S s)). cbn [seq map] in IH |- *. cbn [removelast] in IH |- *. now rewrite IH. }
      rewrite RL. cbn [seq map tl]. rewrite <- seq_shift, map_map. rewrite vmap2_map. apply map_ext. intros a. rewrite exp_ln_diff by (now apply sph_k_pos). reflexivity.
    Qed.
    Lemma mie_int_k0_plasma : l0 = 0%nat ->
      exists te tm cm, mie_internal_k0 m1 m2 l0 lmax r = Val (te, tm, cm) /\ length te = (lmax - l0)%nat /\ length tm = (lmax - l0)%nat /\ length cm = (lmax - l0)%nat /\
      static_int TM m1 m2 n1 tm cm /\
      forall j, (j < lmax - l0)%nat -> let l := S j in exp (nth j cm 0) = cw l /\
        nth j te 0 = sgn l * plasma_int_b (mu_val b1 0) 1 l (- INR l - w ^ 2 / (2 * INR l - 1) * (sph_k j w / sph_k l w)).
    Proof.
      intros Z0. destruct int_setup as [F3 [F1 [F2 [EM [EE [Hh [X [L1 [L2 [P1 P2]]]]]]]]]].
      destruct (plasma_flags _ _ _ _ H2) as [G1 [G3 [Gb [Gh G4]]]]. assert (W := w_pos).
      assert (E2 : m2 = Lorentz (o2 :: e2) b2) by apply H2.
      assert (EM2 : mu_of m2 [0] = Val [1]) by (rewrite E2, mu_of_0 by assumption; now rewrite Hmu).
      unfold mie_internal_k0. fold ls. rewrite F1, F2, EM, EE, G1, G3, EM2, G4. cbn [obind negb of_res].
      replace (o_wP o2 * r / 2.998e14) with w by (unfold w, omega_norm; lra).
      rewrite lnknu_spec by (intros t [<-|[]]; exact W). cbn [obind of_res]. unfold lnk_col. rewrite quotE.
      assert (SL : seq 0 lmax = map pred ls).
      { unfold ls. rewrite Z0. cbn [Nat.add]. rewrite Nat.sub_0_r, <- seq_shift, map_map. symmetry. apply map_id. }
      rewrite SL, map_map, !bcast_map. cbn [obind]. rewrite !bcast_map. cbn [obind]. rewrite !bcast_map. cbn [obind]. rewrite vmap2_map, bcast_map. cbn [obind].
      rewrite map_length, Nat.eqb_refl.
      do 3 eexists. split; [reflexivity|]. do 3 (split; [unfold ls; now rewrite map_length, seq_length|]).
      split.
      - apply (static_int_from _ _ _ n1 _ (fun j k => int_val (l0 + j) (eps_spec e1 k) (eps_spec (o2 :: e2) k) (n1 k) (refr (eps_spec (o2 :: e2)) (mu_val b2) k) k r)).
        + intros j k Hj Hk. now apply (entry_int l0 lmax r Hr Hl m1 m2 _ _ _ _ j k Hh Gh Hj Hk).
        + intros j Hj.
          assert (Y : lim0 (fun k => refr (eps_spec (o2 :: e2)) (mu_val b2) k * k * r) w) by (apply plasma_arg; [assumption|now rewrite <- E2|assumption]).
          eapply lim0_eq; [|apply int_limit; [exact X|]; eapply (ratio_int_inf (l0 + j) (eps_spec e1) (eps_spec (o2 :: e2))); [intros k Hk; destruct Gh as [_ [Gh' _]]; now apply Gh'| |exact L1|exact (lim0_comp (DK (l0 + j)) _ _ (DK_cont _ _ W) Y)|exact X]].
          * ring.
          * destruct H2 as [_ [HPP [Hw1 [Hr1 _]]]]. apply lim0_inv_eps; [assumption|]. exists o2. split; [now left|]. split; [lra|assumption].
      - intros j Hj. unfold ls. rewrite !row_nth by assumption. rewrite Z0. cbn [Nat.add Nat.pred hd0 nth]. split; [now destruct (exp_common (S j))|].
        unfold plasma_int_b, hd0. cbn [nth]. f_equal.
        assert (HK : 2 * INR (S j) - 1 <> 0) by (rewrite S_INR; generalize (pos_INR j); lra).
        replace (w * (sph_k j w / sph_k (S j) w * w / (2 * INR (S j) - 1))) with (w ^ 2 / (2 * INR (S j) - 1) * (sph_k j w / sph_k (S j) w)) by (unfold Rdiv; ring).
        reflexivity.
    Qed.
    Lemma plasma_b_inj mu l f g : 0 < mu -> f < 0 -> g < 0 -> plasma_int_b mu 1 l f = plasma_int_b mu 1 l g -> f = g.
    Proof.
      intros Hm Hf Hg. unfold plasma_int_b. assert (HL := pos_INR l). assert (A : 0 < (INR l + 1) * 1 - mu * f) by nra. assert (B : 0 < (INR l + 1) * 1 - mu * g) by nra. intros E.
      assert (C : - (1 * INR l + mu * f) * ((INR l + 1) * 1 - mu * g) = - (1 * INR l + mu * g) * ((INR l + 1) * 1 - mu * f)).
      { apply Rmult_eq_reg_r with (/ ((INR l + 1) * 1 - mu * f) * / ((INR l + 1) * 1 - mu * g)).
        2: { apply Rmult_integral_contrapositive_currified; apply Rinv_neq_0_compat; lra. }
        transitivity (- (1 * INR l + mu * f) / ((INR l + 1) * 1 - mu * f)); [field; lra|]. rewrite E. field. lra. }
      assert (D : mu * (2 * INR l + 1) * (f - g) = 0) by lra. apply Rmult_integral in D. destruct D as [D|D]; [|lra]. apply Rmult_integral in D. lra.
    Qed.
    Lemma plasma_wrong te tm cm : l0 = 0%nat -> mie_internal_k0 m1 m2 l0 lmax r = Val (te, tm, cm) -> forall j, (j < lmax - l0)%nat -> let l := S j in
      limit0 (fun k => entry TE (fun ks => mie_internal exact_bessels ks l0 (Z.of_nat lmax) r m1 m2) j k * (k * r * n1 k) ^ (2 * l + 1)) (nth j te 0 * exp (nth j cm 0))
      <-> w = 2 * INR l - 1.
    Proof.
      intros Z0 E j Hj l. destruct (mie_int_k0_plasma Z0) as [te' [tm' [cm' [E' [_ [_ [_ [_ H]]]]]]]]. rewrite E in E'. injection E' as <- <- <-.
      destruct (H j Hj) as [HC HT]. rewrite HC, HT. assert (T := plasma_int_true j Hj). cbv zeta in T.
      replace (l0 + j)%nat with j in T by (rewrite Z0; reflexivity). fold l in T |- *.
      assert (W := w_pos). assert (HL := pos_INR j). assert (K : 0 < sph_k j w / sph_k l w) by (apply Rdiv_lt_0_compat; now apply sph_k_pos).
      assert (N : 0 < 2 * INR l - 1) by (unfold l; rewrite S_INR; lra). assert (NL : 0 < INR l) by (unfold l; rewrite S_INR; lra).
      assert (Pm : 0 < mu_val b1 0) by apply int_setup.
      split.
      - intros Q. assert (U := limit0_unique _ _ _ Q T). apply Rmult_eq_reg_r in U; [|generalize (cw_pos l); lra].
        apply Rmult_eq_reg_l in U; [|unfold sgn; apply pow_nonzero; lra]. apply plasma_b_inj in U; [|assumption| |].
        + assert (V : (w - (2 * INR l - 1)) * (w / (2 * INR l - 1) * (sph_k j w / sph_k l w)) = 0).
          { transitivity (w ^ 2 / (2 * INR l - 1) * (sph_k j w / sph_k l w) - w * (sph_k j w / sph_k l w)); [|lra]. generalize (sph_k_pos l w W). intros. field. lra. }
          apply Rmult_integral in V. destruct V as [V|V]; [lra|]. assert (0 < w / (2 * INR l - 1) * (sph_k j w / sph_k l w)); [|lra].
          apply Rmult_lt_0_compat; [now apply Rdiv_lt_0_compat|assumption].
        + assert (0 < w ^ 2 / (2 * INR l - 1) * (sph_k j w / sph_k l w)); [|lra]. apply Rmult_lt_0_compat; [|assumption]. apply Rdiv_lt_0_compat; [now apply pow_lt|assumption].
        + assert (0 < w * (sph_k j w / sph_k l w)) by (now apply Rmult_lt_0_compat). lra.
      - intros EW. replace (w ^ 2 / (2 * INR l - 1)) with w; [exact T|]. rewrite <- EW. field. lra.
    Qed.
    Lemma plasma_raises : (0 < l0)%nat -> (l0 < lmax)%nat -> mie_internal_k0 m1 m2 l0 lmax r = Exc ValueError.
    Proof.
      intros Z0 Z1. destruct int_setup as [F3 [F1 [F2 [EM [EE _]]]]].
      destruct (plasma_flags _ _ _ _ H2) as [G1 [G3 [Gb [Gh G4]]]]. assert (W := w_pos).
      assert (E2 : m2 = Lorentz (o2 :: e2) b2) by apply H2.
      assert (EM2 : mu_of m2 [0] = Val [mu_val b2 0]) by (rewrite E2; now apply mu_of_0).
      unfold mie_internal_k0. fold ls. rewrite F1, F2, EM, EE, G1, G3, EM2, G4. cbn [obind negb of_res].
      replace (o_wP o2 * r / 2.998e14) with w by (unfold w, omega_norm; lra).
      rewrite lnknu_spec by (intros t [<-|[]]; exact W). cbn [obind of_res]. unfold lnk_col. rewrite quotE.
      set (qt := map _ (seq 0 lmax)). assert (LQ : length qt = lmax) by (unfold qt; now rewrite map_length, seq_length). clearbody qt.
      assert (LS : length ls = (lmax - l0)%nat) by (unfold ls; now rewrite seq_length).
      match goal with |- context [bcast ?f qt ?b] => destruct (bcast_exc f qt b) as [r1 [A1|A1]]; rewrite A1; [|reflexivity] end.
      apply bcast_long in A1; [|lia]. cbn [obind].
      match goal with |- context [bcast ?f ?a r1] => destruct (bcast_exc f a r1) as [r2 [A2|A2]]; rewrite A2; [|reflexivity] end.
      apply bcast_sym_long in A2; [|lia]. cbn [obind].
      match goal with |- context [bcast ?f ?a r2] => destruct (bcast_exc f a r2) as [r3 [A3|A3]]; rewrite A3; [|reflexivity] end.
      apply bcast_sym_long in A3; [|lia]. cbn [obind].
      match goal with |- context [bcast ?f ?a r2] => destruct (bcast_exc f a r2) as [r4 [A4|A4]]; rewrite A4; [|reflexivity] end.
      apply bcast_sym_long in A4; [|lia]. cbn [obind].
      assert (LV : length (vmap2 Rdiv r3 r4) = lmax) by (unfold vmap2; rewrite map_length, combine_length; lia).
      match goal with |- context [bcast ?f ?a (vmap2 Rdiv r3 r4)] => destruct (bcast_exc f a (vmap2 Rdiv r3 r4)) as [r5 [A5|A5]]; rewrite A5; [|reflexivity] end.
      apply bcast_sym_long in A5; [|lia]. cbn [obind]. rewrite A5, LV, LS. destruct (Nat.eqb_spec lmax (lmax - l0)); [lia|reflexivity].
    Qed.
  End Plasma.
End Int.

(** media with free charges *)
Lemma mie_k0_not_implemented m1 m2 e2 b2 l0 lmax r : drude m2 e2 b2 \/ (exists o, plasma m2 o e2 b2) -> mie_k0 m1 m2 l0 lmax r = Exc NotImplementedError.
Proof.
  intros [H|[o H]].
  - destruct (drude_flags _ _ _ H) as [G1 [G2 [_ [Gb _]]]]. destruct H as [E _]. unfold mie_k0. rewrite G1, G2. rewrite E, mu_of_0 by assumption. reflexivity.
  - destruct (plasma_flags _ _ _ _ H) as [G1 [_ [Gb _]]]. destruct H as [E _]. unfold mie_k0. rewrite G1. rewrite E, mu_of_0 by assumption. reflexivity.
Qed.
Lemma mie_int_k0_not_implemented m1 m2 e1 b1 l0 lmax r v : drude m1 e1 b1 \/ (exists o, plasma m1 o e1 b1) -> mu_of m2 [0] = Val v -> mie_internal_k0 m1 m2 l0 lmax r = Exc NotImplementedError.
Proof.
  intros H V. unfold mie_internal_k0. rewrite V. destruct H as [H|[o H]].
  - destruct (drude_flags _ _ _ H) as [G1 [G2 [_ [Gb _]]]]. destruct H as [E _]. rewrite G1, G2. rewrite E, mu_of_0 by assumption. reflexivity.
  - destruct (plasma_flags _ _ _ _ H) as [G1 [_ [Gb _]]]. destruct H as [E _]. rewrite G1. rewrite E, mu_of_0 by assumption. reflexivity.
Qed.
