(** * mie_k0 against the limits *)
From Coq Require Import Reals.
From Coquelicot Require Import Coquelicot.
From Coq Require Import ZArith List Lia Lra.
From Verif Require Import Base Mat_Model Mat_Spec Mat_Proofs Help_Model Help_Spec Help_Proofs Bessel_Model Bessel_Spec Bessel_Proofs Bessel_Proofs2 Scat_Model Scat_Spec Scat_Proofs Scat_Proofs2 Scat_Proofs4 Scat_Proofs7 Scat_Proofs8.
From Verif Require Bessel_Props.
Import ListNotations.
Open Scope R_scope.

(** ** the code at zero frequency *)
Lemma mu_of_0 e b : good_b b -> mu_of (Lorentz e b) [0] = Val [mu_val b 0].
Proof.
  intros Hb. unfold mu_of. cbn [mu_x of_res obind]. rewrite mu_lorentz; [reflexivity|assumption|].
  intros k [<-|[]]. lra.
Qed.
Lemma eps_of_0 e b : (forall o, In o e -> o_wR o <> 0) -> eps_of (Lorentz e b) [0] = Val [eps_spec e 0].
Proof.
  intros H. unfold eps_of. cbn [eps_x of_res obind]. rewrite epsilon_elementwise. cbn [map]. unfold epsilon1. rewrite fold_sum; [reflexivity|].
  intros o Ho. unfold den. replace (wr o ^ 2 + 0 ^ 2 + gm o * 0) with (wr o ^ 2) by ring. apply pow_nonzero. unfold wr. rewrite scale_zero. now apply H.
Qed.
Lemma insulator_flags m e b : insulator m e b -> sigma_finite m = true /\ dielectric m = Ok true /\ is_pec m = false /\ good_b b /\ has m (eps_spec e) (mu_val b).
Proof.
  intros [-> [HP [H Hb]]]. cbn [sigma_finite dielectric is_pec]. split; [|split; [|split; [|split]]]; try assumption; try reflexivity.
  - apply is_sigma_finite_spec; [assumption|]. intros o Ho _ E. exfalso. exact (H o Ho E).
  - f_equal. apply is_dielectric_spec. intros o Ho _. now apply H.
  - now apply has_lorentz.
Qed.
Lemma drude_flags m e b : drude m e b -> sigma_finite m = true /\ dielectric m = Ok false /\ is_pec m = false /\ good_b b /\ has m (eps_spec e) (mu_val b).
Proof.
  intros [-> [HP [[o [Ho [Hw Hr]]] [H Hb]]]]. cbn [sigma_finite dielectric is_pec]. split; [|split; [|split; [|split]]]; try assumption; try reflexivity.
  - apply is_sigma_finite_spec; [assumption|]. exact H.
  - f_equal. destruct (is_dielectric e) eqn:E; [|reflexivity]. rewrite is_dielectric_spec in E. now apply E in Hr.
  - now apply has_lorentz.
Qed.
Lemma plasma_flags m o e b : plasma m o e b -> sigma_finite m = false /\ is_pec m = false /\ good_b b /\ has m (eps_spec (o :: e)) (mu_val b) /\ first_wP m = o_wP o.
Proof.
  intros [-> [HP [Hw [Hr [Hg [H Hb]]]]]]. cbn [sigma_finite is_pec first_wP]. split; [|split; [|split; [|split]]]; try assumption; try reflexivity.
  - destruct (is_sigma_finite (o :: e)) eqn:E; [|reflexivity]. rewrite is_sigma_finite_spec in E by assumption.
    specialize (E o (or_introl eq_refl) ltac:(lra) Hr). lra.
  - now apply has_lorentz.
Qed.
Lemma eps0_pos e : Forall physical e -> (forall o, In o e -> o_wR o <> 0) -> 0 < eps_spec e 0.
Proof.
  intros HP H. rewrite eps_spec_chi. assert (0 <= fold_right Rplus 0 (map (fun o => chi o 0) e)); [|lra].
  apply sum_nonneg. intros x Hx. apply in_map_iff in Hx. destruct Hx as [o [<- Ho]]. unfold chi, den.
  replace (wr o ^ 2 + 0 ^ 2 + gm o * 0) with (wr o ^ 2) by ring. apply Rmult_le_pos; [apply pow2_ge_0|]. left. apply Rinv_0_lt_compat.
  rewrite <- Rsqr_pow2. apply Rsqr_pos_lt. unfold wr. rewrite scale_zero. now apply H.
Qed.
(** insulator as a medium: n k r tends to 0 *)
Lemma insulator_arg e b r : 0 < r -> Forall physical e -> (forall o, In o e -> o_wR o <> 0) -> good_b b ->
  to0 (fun k => refr (eps_spec e) (mu_val b) k * k * r) /\ lim0 (eps_spec e) (eps_spec e 0) /\ lim0 (mu_val b) (mu_val b 0) /\ 0 < eps_spec e 0 /\ 0 < mu_val b 0.
Proof.
  intros Hr HP H Hb. destruct (has_lorentz e b HP Hb) as [_ [A _]].
  assert (L1 : lim0 (eps_spec e) (eps_spec e 0)) by (apply lim0_eps; intros o Ho; now apply H). assert (L2 := lim0_mu b Hb).
  split; [|split; [|split; [|split]]]; try assumption; [|now apply eps0_pos|apply mu_val_pos; [assumption|lra]].
  apply to0_arg; [assumption|exact A|]. apply lim0_eq with (0 ^ 2 * eps_spec e 0 * mu_val b 0); [ring|].
  apply lim0_mult; [apply lim0_mult; [apply lim0_pow, lim0_id|exact L1]|exact L2].
Qed.
Lemma drude_arg e b r : 0 < r -> Forall physical e -> (forall o, In o e -> o_wP o <> 0 -> o_wR o = 0 -> 0 < o_g o) -> good_b b ->
  to0 (fun k => refr (eps_spec e) (mu_val b) k * k * r).
Proof.
  intros Hr HP H Hb. destruct (has_lorentz e b HP Hb) as [_ [A _]]. apply to0_arg; [assumption|exact A|].
  apply lim0_eq with (0 * mu_val b 0); [ring|]. apply lim0_mult; [|now apply lim0_mu]. apply lim0_k2eps_damped; [assumption|].
  intros o Ho. destruct (Req_dec (o_wP o) 0); [now left|right]. destruct (Req_dec (o_wR o) 0); [right|now left]. now apply H.
Qed.
Lemma plasma_arg o e b r : 0 < r -> plasma (Lorentz (o :: e) b) o e b -> mu_val b 0 = 1 ->
  lim0 (fun k => refr (eps_spec (o :: e)) (mu_val b) k * k * r) (o_wP o * r / omega_norm).
Proof.
  intros Hr Hpl Hmu. destruct Hpl as [_ [HP [Hw [Hr0 [Hg [H Hb]]]]]]. destruct (has_lorentz (o :: e) b HP Hb) as [_ [A _]].
  assert (W : 0 < wp o) by (apply Rdiv_lt_0_compat; [assumption|apply omega_norm_pos]).
  apply lim0_eq with (sqrt (wp o ^ 2 * 1) * r). { rewrite Rmult_1_r, sqrt_pow2 by lra. unfold wp, Rdiv. ring. }
  apply lim0_arg; try assumption; [|rewrite Rmult_1_r; apply pow2_ge_0]. rewrite <- Hmu. apply lim0_mult; [|now apply lim0_mu].
  now apply lim0_k2eps_plasma.
Qed.

(** ** entries at a single wavenumber *)
Section Ext.
  Context (l0 lmax : nat) (r : R) (Hr : 0 < r) (Hl : (l0 <= lmax)%nat).
  Lemma entry_ext m1 m2 e1 u1 e2 u2 j k : has m1 e1 u1 -> has m2 e2 u2 -> (j < lmax - l0)%nat -> 0 < k ->
    let F := fun ks => mie exact_bessels ks l0 (Z.of_nat lmax) r m1 m2 in
    entry TE F j k = ext_val (l0 + j) (u1 k) (u2 k) (refr e1 u1 k) (refr e2 u2 k) k r /\
    entry TM F j k = ext_val (l0 + j) (e1 k) (e2 k) (refr e1 u1 k) (refr e2 u2 k) k r.
  Proof.
    intros H1 H2 Hj Hk F. destruct (mie_exact [k] l0 (Z.of_nat lmax)) with (r := r) (m1 := m1) (m2 := m2) (e1 := e1) (u1 := u1) (e2 := e2) (u2 := u2) as [c [E C]]; try assumption; [intros k' [<-|[]]; exact Hk|lia|].
    unfold entry, F. rewrite E. destruct (C j 0%nat ltac:(lia) ltac:(cbn; lia)) as [A B]. rewrite A, B. split; reflexivity.
  Qed.
  Lemma entry_int m1 m2 e1 u1 e2 u2 j k : has m1 e1 u1 -> has m2 e2 u2 -> (j < lmax - l0)%nat -> 0 < k ->
    let F := fun ks => mie_internal exact_bessels ks l0 (Z.of_nat lmax) r m1 m2 in
    entry TE F j k = int_val (l0 + j) (u1 k) (u2 k) (refr e1 u1 k) (refr e2 u2 k) k r /\
    entry TM F j k = int_val (l0 + j) (e1 k) (e2 k) (refr e1 u1 k) (refr e2 u2 k) k r.
  Proof.
    intros H1 H2 Hj Hk F. destruct (mie_int_exact [k] l0 (Z.of_nat lmax)) with (r := r) (m1 := m1) (m2 := m2) (e1 := e1) (u1 := u1) (e2 := e2) (u2 := u2) as [c [E C]]; try assumption; [intros k' [<-|[]]; exact Hk|lia|].
    unfold entry, F. rewrite E. destruct (C j 0%nat ltac:(lia) ltac:(cbn; lia)) as [A B]. rewrite A, B. split; reflexivity.
  Qed.
  Lemma entry_pec m e u j k : has m e u -> (j < lmax - l0)%nat -> 0 < k ->
    let F := fun ks => mie exact_bessels ks l0 (Z.of_nat lmax) r PEC m in let x := refr e u k * k * r in
    entry TE F j k = sgn (S (l0 + j)) * PI * 0.5 * pec_scale (l0 + j) (refr e u k) k r /\
    entry TM F j k = sgn (S (l0 + j)) * PI * 0.5 * DI (l0 + j) x / DK (l0 + j) x * pec_scale (l0 + j) (refr e u k) k r.
  Proof.
    intros H Hj Hk F x. destruct (mie_pec_exact [k] l0 (Z.of_nat lmax)) with (r := r) (m2 := m) (e2 := e) (u2 := u) as [c [E C]]; try assumption; [intros k' [<-|[]]; exact Hk|lia|].
    unfold entry, F. rewrite E. destruct (C j 0%nat ltac:(lia) ltac:(cbn; lia)) as [A B]. rewrite A, B. split; reflexivity.
  Qed.
  Lemma entry_pec_int m e u j k : has m e u -> (j < lmax - l0)%nat -> 0 < k ->
    let F := fun ks => mie_internal exact_bessels ks l0 (Z.of_nat lmax) r m PEC in let x := refr e u k * k * r in
    entry TE F j k = sgn (S (l0 + j)) * 2 / PI * pec_scale_int (l0 + j) (refr e u k) k r /\
    entry TM F j k = sgn (S (l0 + j)) * 2 / PI * (DK (l0 + j) x / DI (l0 + j) x) * pec_scale_int (l0 + j) (refr e u k) k r.
  Proof.
    intros H Hj Hk F x. destruct (mie_pec_int_exact [k] l0 (Z.of_nat lmax)) with (r := r) (m1 := m) (e1 := e) (u1 := u) as [c [E C]]; try assumption; [intros k' [<-|[]]; exact Hk|lia|].
    unfold entry, F. rewrite E. destruct (C j 0%nat ltac:(lia) ltac:(cbn; lia)) as [A B]. rewrite A, B. split; reflexivity.
  Qed.

  (** rows of the result *)
  Let ls := seq (l0 + 1) (lmax - l0).
  Lemma row_nth (f : nat -> R) j : (j < lmax - l0)%nat -> nth j (map f ls) 0 = f (S (l0 + j)).
  Proof. intros Hj. rewrite (nth_map_in _ ls j 0 0%nat) by (unfold ls; now rewrite seq_length). unfold ls. rewrite seq_nth by assumption. f_equal. lia. Qed.

  (** the static coefficients [t] of a sphere [m1] in [m2] (index n2) are the limits *)
  Definition static_ext (pick : coefs -> nat -> nat -> R) (m1 m2 : material) (n2 : R -> R) (row : list R) (cm : list R) : Prop :=
    forall j, (j < lmax - l0)%nat ->
    limit0 (fun k => entry pick (fun ks => mie exact_bessels ks l0 (Z.of_nat lmax) r m1 m2) j k / (k * r * n2 k) ^ (2 * S (l0 + j) + 1))
           (nth j row 0 * exp (nth j cm 0)).
  Lemma static_from pick m1 m2 n2 (b : nat -> R) (g : nat -> R -> R) :
    (forall j k, (j < lmax - l0)%nat -> 0 < k -> entry pick (fun ks => mie exact_bessels ks l0 (Z.of_nat lmax) r m1 m2) j k = g j k) ->
    (forall j, (j < lmax - l0)%nat -> lim0 (fun k => g j k / (k * r * n2 k) ^ (2 * S (l0 + j) + 1)) (b (S (l0 + j)) * / cw (S (l0 + j)))) ->
    static_ext pick m1 m2 n2 (map b ls) (map (fun l => - ln (2 * INR l + 1) - 2 * ln_2dbl l) ls).
  Proof.
    intros He Hg j Hj. rewrite !row_nth by assumption. destruct (exp_common (S (l0 + j))) as [-> _].
    apply (lim0_ext (fun k => g j k / (k * r * n2 k) ^ (2 * S (l0 + j) + 1))); [|now apply Hg]. intros k Hk. now rewrite He.
  Qed.

  Section Medium.
    Context (m2 : material) (e2 : list osc) (b2 : bprops) (H2 : insulator m2 e2 b2).
    Let n2 := refr (eps_spec e2) (mu_val b2).
    Lemma mie_k0_pec : exists te tm cm, mie_k0 PEC m2 l0 lmax r = Val (te, tm, cm) /\ length te = (lmax - l0)%nat /\ length tm = (lmax - l0)%nat /\ length cm = (lmax - l0)%nat /\
      static_ext TE PEC m2 n2 te cm /\ static_ext TM PEC m2 n2 tm cm.
    Proof.
      destruct (insulator_flags _ _ _ H2) as [F1 [F2 [F3 [Hb Hh]]]]. destruct H2 as [E2 [HP [HN _]]].
      destruct (insulator_arg e2 b2 r Hr HP HN Hb) as [X [L1 [L2 [P1 P2]]]].
      unfold mie_k0. fold ls. rewrite F1, F2. rewrite E2, mu_of_0, eps_of_0 by assumption. cbn [obind negb of_res is_pec].
      do 3 eexists. split; [reflexivity|]. do 3 (split; [unfold ls; now rewrite map_length, seq_length|]). rewrite <- E2.
      split.
      - apply (static_from _ _ _ n2 _ (fun j k => sgn (S (l0 + j)) * PI * 0.5 * pec_scale (l0 + j) (n2 k) k r)).
        + intros j k Hj Hk. now apply (entry_pec m2 _ _ j k Hh Hj Hk).
        + intros j Hj. rewrite Rmult_1_r. now apply pec_limit.
      - apply (static_from _ _ _ n2 _ (fun j k => sgn (S (l0 + j)) * PI * 0.5 * DI (l0 + j) (n2 k * k * r) / DK (l0 + j) (n2 k * k * r) * pec_scale (l0 + j) (n2 k) k r)).
        + intros j k Hj Hk. now apply (entry_pec m2 _ _ j k Hh Hj Hk).
        + intros j Hj. now apply pec_limit.
    Qed.
    Lemma mie_k0_insulator m1 e1 b1 : insulator m1 e1 b1 -> exists te tm cm, mie_k0 m1 m2 l0 lmax r = Val (te, tm, cm) /\ length te = (lmax - l0)%nat /\ length tm = (lmax - l0)%nat /\ length cm = (lmax - l0)%nat /\
      static_ext TE m1 m2 n2 te cm /\ static_ext TM m1 m2 n2 tm cm.
    Proof.
      intros H1. destruct (insulator_flags _ _ _ H1) as [G1 [G2 [G3 [Gb Gh]]]]. destruct (insulator_flags _ _ _ H2) as [F1 [F2 [F3 [Hb Hh]]]].
      destruct H2 as [E2 [HP [HN _]]]. destruct H1 as [E1 [GP [GN _]]].
      destruct (insulator_arg e2 b2 r Hr HP HN Hb) as [X [L1 [L2 [P1 P2]]]]. destruct (insulator_arg e1 b1 r Hr GP GN Gb) as [Y [M1 [M2 [Q1 Q2]]]].
      unfold mie_k0. fold ls. rewrite F1, F2, G1, G2, G3. rewrite E1, E2, !mu_of_0, !eps_of_0 by assumption. cbn [obind negb of_res hd0 nth].
      do 3 eexists. split; [reflexivity|]. do 3 (split; [unfold ls; now rewrite map_length, seq_length|]). rewrite <- E2, <- E1.
      assert (D : forall l, lim0 (fun k => DI l (refr (eps_spec e1) (mu_val b1) k * k * r)) (INR l + 2)).
      { intros l. apply (lim0_sub (DI l) _ _ Y). apply lim0_DI. }
      split.
      - apply (static_from _ _ _ n2 _ (fun j k => ext_val (l0 + j) (mu_val b1 k) (mu_val b2 k) (refr (eps_spec e1) (mu_val b1) k) (n2 k) k r)).
        + intros j k Hj Hk. now apply (entry_ext m1 m2 _ _ _ _ j k Gh Hh Hj Hk).
        + intros j Hj. assert (HL := pos_INR (l0 + j)). eapply lim0_eq; [|apply ext_limit; [exact X|]; apply (ratio_ext_fin (l0 + j) (mu_val b1) (mu_val b2) _ _ _ _ (INR (l0 + j) + 2) Q2 P2 ltac:(lra) M2 L2 (D _) X)].
          rewrite !S_INR. generalize (cw_pos (S (l0 + j))). intros. field. repeat split; nra.
      - apply (static_from _ _ _ n2 _ (fun j k => ext_val (l0 + j) (eps_spec e1 k) (eps_spec e2 k) (refr (eps_spec e1) (mu_val b1) k) (n2 k) k r)).
        + intros j k Hj Hk. now apply (entry_ext m1 m2 _ _ _ _ j k Gh Hh Hj Hk).
        + intros j Hj. assert (HL := pos_INR (l0 + j)). eapply lim0_eq; [|apply ext_limit; [exact X|]; apply (ratio_ext_fin (l0 + j) (eps_spec e1) (eps_spec e2) _ _ _ _ (INR (l0 + j) + 2) Q1 P1 ltac:(lra) M1 L1 (D _) X)].
          rewrite !pow2_sqrt by (left; now apply Rmult_lt_0_compat). rewrite !S_INR. generalize (cw_pos (S (l0 + j))). intros.
          set (n := INR (l0 + j)) in *. clearbody n. set (E1' := eps_spec e1 0) in *. set (E2' := eps_spec e2 0) in *. set (U1 := mu_val b1 0) in *. set (U2 := mu_val b2 0) in *. clearbody E1' E2' U1 U2.
          assert (0 < E2' * (n + 2) + E1' * (n + 1)) by nra.
          assert (0 < (n + 1) * E1' + (n + 1 + 1) * E2') by nra.
          assert (K : (U2 * (U1 * E1') - U1 * (E2' * U2)) / ((n + 1) * U2 * (U1 * E1') + (n + 1 + 1) * U1 * (E2' * U2)) = (E1' - E2') / ((n + 1) * E1' + (n + 1 + 1) * E2')).
          { replace (U2 * (U1 * E1') - U1 * (E2' * U2)) with (U1 * U2 * (E1' - E2')) by ring.
            replace ((n + 1) * U2 * (U1 * E1') + (n + 1 + 1) * U1 * (E2' * U2)) with (U1 * U2 * ((n + 1) * E1' + (n + 1 + 1) * E2')) by ring.
            field. repeat split; lra. }
          rewrite K. field. repeat split; lra.
    Qed.
    Lemma mie_k0_drude m1 e1 b1 : drude m1 e1 b1 -> exists te tm cm, mie_k0 m1 m2 l0 lmax r = Val (te, tm, cm) /\ length te = (lmax - l0)%nat /\ length tm = (lmax - l0)%nat /\ length cm = (lmax - l0)%nat /\
      static_ext TE m1 m2 n2 te cm /\ static_ext TM m1 m2 n2 tm cm.
    Proof.
      intros H1. destruct (drude_flags _ _ _ H1) as [G1 [G2 [G3 [Gb Gh]]]]. destruct (insulator_flags _ _ _ H2) as [F1 [F2 [F3 [Hb Hh]]]].
      destruct H2 as [E2 [HP [HN _]]]. destruct H1 as [E1 [GP [GX [GN _]]]].
      destruct (insulator_arg e2 b2 r Hr HP HN Hb) as [X [L1 [L2 [P1 P2]]]]. assert (Y := drude_arg e1 b1 r Hr GP GN Gb).
      assert (M2 := lim0_mu b1 Gb). assert (Q2 := mu_val_pos b1 0 Gb ltac:(lra)).
      unfold mie_k0. fold ls. rewrite F1, F2, G1, G2, G3. rewrite E1, E2, !mu_of_0, !eps_of_0 by assumption. cbn [obind negb of_res hd0 nth].
      do 3 eexists. split; [reflexivity|]. do 3 (split; [unfold ls; now rewrite map_length, seq_length|]). rewrite <- E2, <- E1.
      assert (D : forall l, lim0 (fun k => DI l (refr (eps_spec e1) (mu_val b1) k * k * r)) (INR l + 2)).
      { intros l. apply (lim0_sub (DI l) _ _ Y). apply lim0_DI. }
      split.
      - apply (static_from _ _ _ n2 _ (fun j k => ext_val (l0 + j) (mu_val b1 k) (mu_val b2 k) (refr (eps_spec e1) (mu_val b1) k) (n2 k) k r)).
        + intros j k Hj Hk. now apply (entry_ext m1 m2 _ _ _ _ j k Gh Hh Hj Hk).
        + intros j Hj. assert (HL := pos_INR (l0 + j)). eapply lim0_eq; [|apply ext_limit; [exact X|]; apply (ratio_ext_fin (l0 + j) (mu_val b1) (mu_val b2) _ _ _ _ (INR (l0 + j) + 2) Q2 P2 ltac:(lra) M2 L2 (D _) X)].
          rewrite !S_INR. generalize (cw_pos (S (l0 + j))). intros. field. repeat split; nra.
      - apply (static_from _ _ _ n2 _ (fun j k => ext_val (l0 + j) (eps_spec e1 k) (eps_spec e2 k) (refr (eps_spec e1) (mu_val b1) k) (n2 k) k r)).
        + intros j k Hj Hk. now apply (entry_ext m1 m2 _ _ _ _ j k Gh Hh Hj Hk).
        + intros j Hj. eapply lim0_eq; [|apply ext_limit; [exact X|]; eapply (ratio_ext_inf (l0 + j) (eps_spec e1) (eps_spec e2)); [intros k Hk; destruct Gh as [_ [Gh _]]; now apply Gh|now apply lim0_inv_eps|exact L1|exact (D _)|exact X]].
          ring.
    Qed.
    (** plasma: the TE row has the continued fraction [f] in place of i_{l-1}/i_l *)
    Definition plasma_b (mu1 mu2 w : R) (l : nat) (f : R) : R :=
      (mu2 * (- INR l + w * f) - mu1 * (INR l + 1)) / (mu1 * INR l + mu2 * (- INR l + w * f)).
    Lemma mie_k0_plasma m1 o1 e1 b1 : plasma m1 o1 e1 b1 -> mu_val b1 0 = 1 -> let w := o_wP o1 * r / omega_norm in
      exists te tm cm, mie_k0 m1 m2 l0 lmax r = Val (te, tm, cm) /\ length te = (lmax - l0)%nat /\ length tm = (lmax - l0)%nat /\ length cm = (lmax - l0)%nat /\
      static_ext TM m1 m2 n2 tm cm /\
      forall j, (j < lmax - l0)%nat -> let l := S (l0 + j) in
        nth j te 0 = sgn l * plasma_b 1 (mu_val b2 0) w l (cfrac w l (if Rltb 100 w then 140 else 80)) /\
        limit0 (fun k => entry TE (fun ks => mie exact_bessels ks l0 (Z.of_nat lmax) r m1 m2) j k / (k * r * n2 k) ^ (2 * l + 1))
               (sgn l * plasma_b 1 (mu_val b2 0) w l (sph_i (l0 + j) w / sph_i l w) * exp (nth j cm 0)).
    Proof.
      intros H1 Hmu w. destruct (plasma_flags _ _ _ _ H1) as [G1 [G3 [Gb [Gh G4]]]]. destruct (insulator_flags _ _ _ H2) as [F1 [F2 [F3 [Hb Hh]]]].
      assert (W : 0 < w). { unfold w. destruct H1 as [_ [_ [H1 _]]]. apply Rdiv_lt_0_compat; [now apply Rmult_lt_0_compat|apply omega_norm_pos]. }
      destruct H2 as [E2 [HP [HN _]]]. assert (E1 : m1 = Lorentz (o1 :: e1) b1) by apply H1.
      destruct (insulator_arg e2 b2 r Hr HP HN Hb) as [X [L1 [L2 [P1 P2]]]].
      assert (Y : lim0 (fun k => refr (eps_spec (o1 :: e1)) (mu_val b1) k * k * r) w) by (apply plasma_arg; [assumption|now rewrite <- E1|assumption]).
      assert (M2 := lim0_mu b1 Gb). rewrite Hmu in M2.
      assert (D : forall l, lim0 (fun k => DI l (refr (eps_spec (o1 :: e1)) (mu_val b1) k * k * r)) (DI l w)).
      { intros l. apply (lim0_comp (DI l)); [now apply DI_cont|exact Y]. }
      unfold mie_k0. fold ls. rewrite F1, F2, G1, G3, G4.
      assert (EM1 : mu_of m1 [0] = Val [1]) by (rewrite E1, mu_of_0 by assumption; now rewrite Hmu).
      assert (EM2 : mu_of m2 [0] = Val [mu_val b2 0]) by (rewrite E2; now apply mu_of_0).
      assert (EE2 : eps_of m2 [0] = Val [eps_spec e2 0]) by (rewrite E2; now apply eps_of_0).
      rewrite EM1, EM2, EE2. cbn [obind negb of_res hd0 nth].
      replace (o_wP o1 * r / 2.998e14) with w by (unfold w, omega_norm; lra).
      replace (map (fun l : nat => INR l - 0.5) ls) with (map (fun l => INR l + 0.5) (seq l0 (lmax - l0))).
      2: { unfold ls. rewrite Nat.add_1_r, <- seq_shift, map_map. apply map_ext. intros a. rewrite S_INR. lra. }
      rewrite Bessel_Props.C28_i_fraction by discriminate. cbn [obind of_res last map].
      do 3 eexists. split; [reflexivity|]. do 3 (split; [unfold ls; now rewrite map_length, seq_length|]).
      split.
      - apply (static_from _ _ _ n2 _ (fun j k => ext_val (l0 + j) (eps_spec (o1 :: e1) k) (eps_spec e2 k) (refr (eps_spec (o1 :: e1)) (mu_val b1) k) (n2 k) k r)).
        + intros j k Hj Hk. now apply (entry_ext m1 m2 _ _ _ _ j k Gh Hh Hj Hk).
        + intros j Hj. eapply lim0_eq; [|apply ext_limit; [exact X|]; eapply (ratio_ext_inf (l0 + j) (eps_spec (o1 :: e1)) (eps_spec e2)); [intros k Hk; destruct Gh as [_ [Gh' _]]; now apply Gh'| |exact L1|exact (D _)|exact X]].
          * ring.
          * destruct H1 as [_ [HPP [Hw1 [Hr1 _]]]]. apply lim0_inv_eps; [assumption|]. exists o1. split; [now left|]. split; [lra|assumption].
      - intros j Hj. rewrite !row_nth by assumption. destruct (exp_common (S (l0 + j))) as [-> _]. set (l := S (l0 + j)). split.
        + unfold plasma_b. f_equal. replace (l - (l0 + 1))%nat with j by (unfold l; lia).
          rewrite (nth_map_in _ _ j [] 0%nat) by (now rewrite seq_length). rewrite seq_nth by assumption. cbn [hd0 nth].
          unfold hd0. cbn [nth]. fold l. reflexivity.
        + apply (lim0_ext (fun k => ext_val (l0 + j) (mu_val b1 k) (mu_val b2 k) (refr (eps_spec (o1 :: e1)) (mu_val b1) k) (n2 k) k r / (k * r * n2 k) ^ (2 * l + 1))).
          { intros k Hk. destruct (entry_ext m1 m2 _ _ _ _ j k Gh Hh Hj Hk) as [-> _]. reflexivity. }
          assert (HD := DI_pos (l0 + j) w W). assert (HL := pos_INR (l0 + j)).
          eapply lim0_eq; [|apply ext_limit; [exact X|]; apply (ratio_ext_fin (l0 + j) (mu_val b1) (mu_val b2) _ _ _ _ (DI (l0 + j) w) Rlt_0_1 P2 ltac:(lra) M2 L2 (D _) X)].
          unfold plasma_b, l. rewrite <- (DIE (l0 + j) w W). f_equal. f_equal. f_equal; ring.
    Qed.
  End Medium.
End Ext.
