(** * Properties C44, C45 *)
From Coq Require Import Reals.
From Coquelicot Require Import Coquelicot.
From Coq Require Import Bool ZArith List Lia Lra.
From Verif Require Import Base Mat_Model Mat_Spec Help_Proofs Bessel_Model Bessel_Spec Gaunt_Model Gaunt_Proofs
  Scat_Model Scat_Spec Scat_Proofs Scat_Proofs2 Scat_Proofs7 Scat_Proofs9 Scat_Props2 Trans_Model Trans_Spec Trans_Proofs Trans_Proofs3 Trans_Proofs4 Trans_Proofs5.
Import ListNotations.
Open Scope R_scope.

(** ** C44: parity, selection rules and symmetries, whatever Bessel functions were computed *)
Theorem C44_parity : forall (t : translation) (l1 l2 : nat) (v : vrow), get_vl1l2 t l1 l2 = Val v ->
  v_EEba v = map (fun s => (-1) ^ (l1 + l2) * s) (v_EEab v) /\
  v_EMba v = map (fun s => - (-1) ^ (l1 + l2) * s) (v_EMab v).
Proof. exact parity_rows. Qed.
Theorem C44_no_mixing_for_m0 : forall (t : translation) (l1 l2 : nat) (v : vrow), get_vl1l2 t l1 l2 = Val v -> t_m t = 0%Z ->
  (forall s, In s (v_EMab v) -> s = 0) /\ (forall s, In s (v_EMba v) -> s = 0).
Proof. exact mixing_zero. Qed.
Theorem C44_symmetric : forall (t : translation) (l1 l2 : nat), get_vl1l2 t l2 l1 = get_vl1l2 t l1 l2.
Proof. exact swap_rows. Qed.
Theorem C44_opposite_m : forall (t : translation) (l1 l2 : nat) (v : vrow), get_vl1l2 t l1 l2 = Val v ->
  exists v', get_vl1l2 {| t_lmin := t_lmin t; t_lmax := t_lmax t; t_lssmax := t_lssmax t; t_m := - t_m t; t_L := t_L t;
                          t_medium := t_medium t; t_k := t_k t; t_ext := t_ext t; t_bessels := t_bessels t |} l1 l2 = Val v' /\
    v_EEab v' = v_EEab v /\ v_EEba v' = v_EEba v /\ v_EMab v' = map Ropp (v_EMab v) /\ v_EMba v' = map Ropp (v_EMba v) /\ v_skal v' = v_skal v.
Proof. exact neg_m. Qed.
(** the constructor and trans_ab succeed for positive wavenumbers; one number per wavenumber and pair of orders *)
Theorem C44_defined : forall lmax lssmax m med e u L ks ext, has med e u -> 0 < L -> ks <> [] -> (forall k, In k ks -> 0 < k) ->
  exists t V, translation_init trans_bessels lmax lssmax m med L ks ext false = Val t /\ trans_ab t = Val (Dynamic V) /\
    length V = (lmax + 1 - Z.to_nat (Z.max 1 m))%nat /\
    forall i, (Z.to_nat (Z.max 1 m) + i <= lmax)%nat -> length (nth i V []) = (lssmax + 1 - Z.to_nat (Z.max 1 m))%nat /\
    forall j, (Z.to_nat (Z.max 1 m) + j <= lssmax)%nat ->
      exists v, nth_error (nth i V []) j = Some v /\ get_vl1l2 t (Z.to_nat (Z.max 1 m) + i) (Z.to_nat (Z.max 1 m) + j) = Val v /\
        length (v_EEab v) = length ks /\ length (v_EEba v) = length ks /\ length (v_EMab v) = length ks /\ length (v_EMba v) = length ks /\ length (v_skal v) = length ks.
Proof.
  intros lmax lssmax m med e u L ks ext Hh HL Hks Hk.
  destruct (constructed lmax lssmax m med e u L ks ext Hh HL Hks Hk) as [t [Et [T1 [T2 [T3 [T4 [T5 [T6 H]]]]]]]]. exists t.
  set (lmin := Z.to_nat (Z.max 1 m)) in *.
  assert (R : forall a, (a <= lmax)%nat -> exists r, omap (fun b => get_vl1l2 t a b) (orders lmin lssmax) = Val r).
  { intros a Ha. destruct (omap_val (fun b => get_vl1l2 t a b) (fun _ _ => True) (orders lmin lssmax)) as [r [E _]]; [|now exists r].
    intros b Hb. apply orders_in in Hb. destruct (H a b Ha (proj2 Hb)) as [v [Ev _]]. now exists v. }
  destruct (omap_val (fun a => omap (fun b => get_vl1l2 t a b) (orders lmin lssmax)) (fun _ _ => True) (orders lmin lmax)) as [V [EV [LV _]]].
  { intros a Ha. apply orders_in in Ha. destruct (R a (proj2 Ha)) as [r E]. now exists r. }
  exists V. split; [exact Et|]. split.
  - rewrite nonzero_dynamic by (rewrite T4; intros k Hin; apply Rgt_not_eq, Hk, Hin). rewrite T1, T2, T3, EV. reflexivity.
  - rewrite orders_length in LV. split; [exact LV|]. intros i Hi. destruct (omap_nth _ _ _ EV i _ (orders_nth lmin lmax i Hi)) as [r [Er E]].
    rewrite (nth_error_nth V i [] Er). split; [rewrite (omap_length _ _ _ E); apply orders_length|]. intros j Hj.
    destruct (omap_nth _ _ _ E j _ (orders_nth lmin lssmax j Hj)) as [v [Ej Ev]]. exists v. split; [exact Ej|]. split; [exact Ev|].
    destruct (H (lmin + i) (lmin + j) Hi Hj)%nat as [v' [Ev' Q]]. rewrite Ev in Ev'. injection Ev' as <-. exact Q.
Qed.
(** the force flag never gives an object (the method it refers to does not exist); a zero wavenumber gives an object
    that raises AttributeError for every pair of orders, unless it is the only wavenumber *)
Theorem C44_failures : forall bessels lmax lssmax m med L ks ext,
  (forall t, translation_init bessels lmax lssmax m med L ks ext true <> Val t) /\
  (In 0 ks -> exists t, translation_init bessels lmax lssmax m med L ks ext false = Val t /\
     forall l1 l2, (exists x, trans_arg L med ks = Val x) -> get_vl1l2 t l1 l2 = Exc AttributeError).
Proof.
  intros bessels lmax lssmax m med L ks ext. split.
  - intros t. unfold translation_init. destruct (existsb _ ks); cbn [obind]; [discriminate|]. destruct (trans_arg L med ks); cbn [obind]; try discriminate.
    destruct (bessels _ _ _); cbn [of_res obind]; discriminate.
  - intros H0. assert (E : existsb (fun k => Reqb k 0) ks = true).
    { apply existsb_exists. exists 0. split; [exact H0|]. destruct (Reqb_spec 0 0); congruence. }
    unfold translation_init. rewrite E. cbn [obind]. eexists. split; [reflexivity|]. intros l1 l2 [x Ex]. unfold get_vl1l2. cbn [t_m t_L t_medium t_k].
    assert (G : exists g, gaunt (Z.of_nat l1) (Z.of_nat l2) m = Def g).
    { destruct (Z.lt_ge_cases (Z.of_nat (Nat.min l1 l2)) (Z.abs m)); [eexists; now apply gaunt_zero|]. destruct (gaunt_ok l1 l2 m) as [g [c [Eg _]]]; [lia|now exists g]. }
    destruct G as [g ->]. cbn [of_cres obind]. rewrite Ex. reflexivity.
Qed.
Print Assumptions C44_parity.
Print Assumptions C44_no_mixing_for_m0.
Print Assumptions C44_symmetric.
Print Assumptions C44_opposite_m.
Print Assumptions C44_defined.
Print Assumptions C44_failures.

(** ** C45: the zero-frequency coefficients (sign and logarithm) are the limits of the finite-frequency ones, computed
    with the code's own Bessel functions, after removing the power of x = n k L *)
Theorem C45_static_exterior : forall (med : material) (e : list osc) (b : bprops) (L : R) (lmax lssmax l1 l2 : nat) (m : Z),
  insulator med e b \/ drude med e b -> 0 < L -> (1 <= l1 <= lmax)%nat -> (1 <= l2 <= lssmax)%nat -> (Z.abs m <= Z.of_nat (Nat.min l1 l2))%Z ->
  let x k := k * L * sqrt (eps_spec e k) in
  let V pick k := coefficient pick trans_bessels lmax lssmax m med L true l1 l2 k in
  limit0 (fun k => x k ^ (l1 + l2 + 1) * V v_EEab k) (static_value (trans_k0_ext m l1 l2)) /\
  limit0 (fun k => x k ^ (l1 + l2 + 1) * V v_EEba k) ((-1) ^ (l1 + l2) * static_value (trans_k0_ext m l1 l2)) /\
  limit0 (fun k => x k ^ (l1 + l2 + 1) * V v_EMab k) 0 /\ limit0 (fun k => x k ^ (l1 + l2 + 1) * V v_EMba k) 0.
Proof.
  intros med e b L lmax lssmax l1 l2 m [H|H] HL H1 H2 Hm.
  - destruct (insulator_flags med e b H) as [_ [_ [_ [_ Hh]]]]. apply (ext_limits med (eps_spec e) (mu_val b)); try assumption. now apply to0_insulator with med b.
  - destruct (drude_flags med e b H) as [_ [_ [_ [_ Hh]]]]. apply (ext_limits med (eps_spec e) (mu_val b)); try assumption. now apply to0_drude with med b.
Qed.
Theorem C45_static_interior : forall (med : material) (e : list osc) (b : bprops) (L : R) (lmax lssmax l1 l2 : nat) (m : Z),
  insulator med e b \/ drude med e b -> 0 < L -> (1 <= l1 <= lmax)%nat -> (1 <= l2 <= lssmax)%nat -> (Z.abs m <= Z.of_nat (Nat.min l1 l2))%Z ->
  let x k := k * L * sqrt (eps_spec e k) in let d := (Nat.max l1 l2 - Nat.min l1 l2)%nat in
  let V pick k := coefficient pick trans_bessels lmax lssmax m med L false l1 l2 k in
  limit0 (fun k => V v_EEab k / x k ^ d) ((-1) ^ d * static_value (trans_k0_int m l1 l2)) /\
  limit0 (fun k => V v_EEba k / x k ^ d) (static_value (trans_k0_int m l1 l2)) /\
  limit0 (fun k => V v_EMab k / x k ^ d) 0 /\ limit0 (fun k => V v_EMba k / x k ^ d) 0.
Proof.
  intros med e b L lmax lssmax l1 l2 m [H|H] HL H1 H2 Hm.
  - destruct (insulator_flags med e b H) as [_ [_ [_ [_ Hh]]]]. apply (int_limits med (eps_spec e) (mu_val b)); try assumption. now apply to0_insulator with med b.
  - destruct (drude_flags med e b H) as [_ [_ [_ [_ Hh]]]]. apply (int_limits med (eps_spec e) (mu_val b)); try assumption. now apply to0_drude with med b.
Qed.
(** trans_ab at k = [0] is the table of these values *)
Theorem C45_static_table : forall bessels lmax lssmax m med L ext, exists t T,
  translation_init bessels lmax lssmax m med L [0] ext false = Val t /\ trans_ab t = Val (Static T) /\
  length T = (lmax + 1 - Z.to_nat (Z.max 1 m))%nat /\
  forall i j, (Z.to_nat (Z.max 1 m) + i <= lmax)%nat -> (Z.to_nat (Z.max 1 m) + j <= lssmax)%nat ->
    exists row, nth_error T i = Some row /\ length row = (lssmax + 1 - Z.to_nat (Z.max 1 m))%nat /\
      nth_error row j = Some ((if ext then trans_k0_ext else trans_k0_int) m (Z.to_nat (Z.max 1 m) + i)%nat (Z.to_nat (Z.max 1 m) + j)%nat).
Proof.
  intros bessels lmax lssmax m med L ext. assert (E : Reqb 0 0 = true) by (destruct (Reqb_spec 0 0); congruence).
  do 2 eexists. split; [unfold translation_init; cbn [existsb]; rewrite E; reflexivity|]. split; [unfold trans_ab; cbn [t_k]; rewrite E; reflexivity|].
  cbn [t_lmin t_lmax t_lssmax t_m t_ext]. split; [now rewrite map_length, orders_length|]. intros i j Hi Hj.
  eexists. split; [rewrite (map_nth_error _ _ _ (orders_nth _ _ i Hi)); reflexivity|]. split; [now rewrite map_length, orders_length|].
  now rewrite (map_nth_error _ _ _ (orders_nth _ _ j Hj)).
Qed.
(** the translation over a vanishing distance is the identity *)
Theorem C45_identity_at_zero_distance : forall (med : material) (e : list osc) (b : bprops) (L : R) (lmax lssmax l1 l2 : nat) (m : Z),
  insulator med e b \/ drude med e b -> 0 < L -> (1 <= l1 <= lmax)%nat -> (1 <= l2 <= lssmax)%nat -> (Z.abs m <= Z.of_nat (Nat.min l1 l2))%Z ->
  let V pick k := coefficient pick trans_bessels lmax lssmax m med L false l1 l2 k in
  let delta := if Nat.eqb l1 l2 then 1 else 0 in
  limit0 (V v_EEab) delta /\ limit0 (V v_EEba) delta /\ limit0 (V v_EMab) 0 /\ limit0 (V v_EMba) 0.
Proof.
  intros med e b L lmax lssmax l1 l2 m H HL H1 H2 Hm V delta.
  assert (X : to0 (fun k => k * L * sqrt (eps_spec e k))) by (destruct H; [now apply to0_insulator with med b|now apply to0_drude with med b]).
  destruct (C45_static_interior med e b L lmax lssmax l1 l2 m H HL H1 H2 Hm) as [A [B [C D]]].
  set (d := (Nat.max l1 l2 - Nat.min l1 l2)%nat) in *.
  assert (P : forall f v, limit0 (fun k => f k / (k * L * sqrt (eps_spec e k)) ^ d) v -> limit0 f (0 ^ d * v)).
  { intros f v Hf. apply (lim0_ext (fun k => (k * L * sqrt (eps_spec e k)) ^ d * (f k / (k * L * sqrt (eps_spec e k)) ^ d))).
    - intros k Hk. assert (0 < k * L * sqrt (eps_spec e k)) by exact (proj1 X k Hk). field. apply pow_nonzero. lra.
    - apply lim0_mult; [|exact Hf]. apply (lim0_sub (fun y => y ^ d) (fun k => k * L * sqrt (eps_spec e k))); [exact X|]. apply lim0_pow, lim0_id. }
  apply P in A, B, C, D. rewrite !Rmult_0_r in *. unfold delta. destruct (Nat.eqb_spec l1 l2) as [->|N].
  - assert (d = 0)%nat as -> by lia. assert (S : static_value (trans_k0_int m l2 l2) = 1) by (apply diagonal_one; lia).
    rewrite S, ?pow_O, ?Rmult_1_l in *. auto.
  - assert (E : 0 ^ d = 0) by (apply pow_ne_zero; lia). rewrite E, ?Rmult_0_l in *. auto.
Qed.
Print Assumptions C45_static_exterior.
Print Assumptions C45_static_interior.
Print Assumptions C45_static_table.
Print Assumptions C45_identity_at_zero_distance.

(** ** the hypotheses are met *)
Lemma static_value_pos m l1 l2 : 0 < static_value (trans_k0_int m l1 l2) /\ static_value (trans_k0_ext m l1 l2) <> 0.
Proof.
  unfold static_value, trans_k0_int, trans_k0_ext. cbn [fst snd]. split.
  - rewrite Rmult_1_l. apply exp_pos.
  - match goal with |- _ * exp ?a <> 0 => pose proof (exp_pos a) end. unfold sgnZ. destruct (Z.even m); nra.
Qed.
(** gold is no medium between spheres, but water is: at wavenumbers 1 and 2, m = 1, there are coefficients *)
Example C44_water : exists t V v, translation_init trans_bessels 3 4 1 (Lorentz e_Water None) 2 [1; 2] true false = Val t /\
  trans_ab t = Val (Dynamic V) /\ nth_error (nth 2 V []) 3 = Some v /\ length (v_EMab v) = 2%nat.
Proof.
  destruct (insulator_flags _ _ _ water_insulator) as [_ [_ [_ [_ Hh]]]].
  destruct (C44_defined 3 4 1 _ _ _ 2 [1; 2] true Hh) as [t [V [E1 [E2 [_ H]]]]]; [lra|discriminate|intros k [<-|[<-|[]]]; lra|].
  destruct (H 2%nat) as [_ K]; [cbn; lia|]. destruct (K 3%nat) as [v [E3 [_ [_ [_ [E4 _]]]]]]; [cbn; lia|]. exists t, V, v. auto.
Qed.
Example C45_water : exists w, w <> 0 /\
  limit0 (fun k => (k * 2 * sqrt (eps_spec e_Water k)) ^ 6 * coefficient v_EEab trans_bessels 3 4 (-2) (Lorentz e_Water None) 2 true 2 3 k) w.
Proof.
  exists (static_value (trans_k0_ext (-2) 2 3)). split; [apply static_value_pos|].
  apply (C45_static_exterior _ e_Water None 2 3 4 2 3 (-2)); [left; exact water_insulator|lra|lia|lia|cbn; lia].
Qed.
