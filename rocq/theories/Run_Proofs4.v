(** * Free energies from sums over m that depend on the slice *)
From Coq Require Import Bool Reals List ZArith Lia Lra.
From Verif Require Import Base Thermo_Model Thermo_Spec Thermo_Proofs Geo_Spec Mat_Spec Scat_Model Scat_Spec Scat_Proofs Scat_Proofs9 RT_Spec Run_Model Run_Spec.
Import ListNotations.
Open Scope R_scope.

Lemma slice_loop_run {S A} (func : list Z -> M S (list A)) (P : S -> Prop) (f : Z -> A) n0 nmax step :
  (0 < step)%Z ->
  (forall a s, P s -> (n0 <= a <= nmax)%Z -> (step | a - n0)%Z ->
     let c := arange a (Z.min (a + step - 1) nmax + 1) in exists s', P s' /\ func c s = (s', Ok (map f c))) ->
  forall fuel nmin rest s, (n0 <= nmin <= nmax + 1)%Z -> (nmin = nmax + 1 \/ (step | nmin - n0))%Z ->
    (Z.to_nat (nmax - nmin + 1) < fuel)%nat -> length rest = Z.to_nat (nmax - nmin + 1) -> P s ->
    exists s', P s' /\ slice_loop fuel func (- n0) nmin nmax step (map f (arange n0 nmin) ++ rest) s = Some (s', Ok (map f (arange n0 (nmax + 1)))).
Proof.
  intros Hs Hf. induction fuel as [|fuel IH]; intros nmin rest s Hn Hd Hfu Hr HP; [lia|]. cbn [slice_loop].
  destruct (Z.leb_spec nmin nmax) as [Hle|Hgt].
  - set (nsl := Z.min (nmin + step - 1) nmax). assert (Hnsl : (nmin <= nsl <= nmax)%Z) by lia.
    destruct Hd as [Hd|Hd]; [lia|].
    destruct (Hf nmin s HP (conj (proj1 Hn) Hle) Hd) as [s1 [HP1 E]]. fold nsl in E. rewrite E. clear E.
    unfold slice_assign. rewrite map_length, arange_length.
    replace (Z.to_nat (nsl + 1 - nmin)) with (Z.to_nat (- n0 + nsl + 1) - Z.to_nat (- n0 + nmin))%nat by lia. rewrite Nat.eqb_refl.
    rewrite firstn_app, map_length, arange_length. replace (Z.to_nat (- n0 + nmin) - Z.to_nat (nmin - n0))%nat with 0%nat by lia.
    rewrite firstn_O, app_nil_r, firstn_all2 by (rewrite map_length, arange_length; lia).
    rewrite skipn_app, skipn_all2, app_nil_l by (rewrite map_length, arange_length; lia).
    rewrite map_length, arange_length, app_assoc, <- map_app, <- arange_app by lia.
    apply IH; [lia| | |rewrite skipn_length; lia|exact HP1]; [|lia].
    destruct (Z.leb_spec (nmin + step - 1) nmax); [right|left; lia].
    replace nsl with (nmin + step - 1)%Z by lia. replace (nmin + step - 1 + 1 - n0)%Z with ((nmin - n0) + step)%Z by lia.
    apply Z.divide_add_r; [exact Hd|apply Z.divide_refl].
  - exists s. split; [exact HP|]. replace nmin with (nmax + 1)%Z by lia. destruct rest; [now rewrite app_nil_r|simpl in Hr; lia].
Qed.
Lemma slicewise_run {S A} garbage (func : list Z -> M S (list A)) (P : S -> Prop) (f : Z -> A) n0 nmax step s :
  (0 < step)%Z -> (n0 <= nmax + 1)%Z ->
  (forall a s, P s -> (n0 <= a <= nmax)%Z -> (step | a - n0)%Z ->
     let c := arange a (Z.min (a + step - 1) nmax + 1) in exists s', P s' /\ func c s = (s', Ok (map f c))) ->
  P s -> exists s', P s' /\ slicewise_eval garbage func n0 nmax (PyInt step) s = Some (s', Ok (map f (arange n0 (nmax + 1)))).
Proof.
  intros Hs Hn Hf HP. unfold slicewise_eval. cbn [py_int]. destruct (Z.leb_spec step 0); [lia|]. destruct (Z.ltb_spec (nmax - n0 + 1) 0); [lia|].
  pose proof (slice_loop_run func P f n0 nmax step Hs Hf (Datatypes.S (Z.to_nat (nmax - n0 + 1))) n0 (map garbage (seq 0 (Z.to_nat (nmax - n0 + 1)))) s) as H1.
  assert (E0 : arange n0 n0 = []) by (unfold arange; rewrite Z.sub_diag; reflexivity). rewrite E0 in H1. cbn [map app] in H1.
  apply H1; [lia|right; rewrite Z.sub_diag; apply Z.divide_0_r|lia|rewrite map_length, seq_length; lia|exact HP].
Qed.

Lemma filter_interval a n b : filter (fun i => Nat.leb 1 i && Nat.leb i b) (seq a n) = seq (Nat.max 1 a) (Nat.min (a + n) (b + 1) - Nat.max 1 a).
Proof.
  revert a. induction n as [|n IH]; intros a; cbn [seq filter].
  - replace (Nat.min (a + 0) (b + 1) - Nat.max 1 a)%nat with 0%nat by lia. reflexivity.
  - rewrite IH. destruct (Nat.leb_spec 1 a); cbn [andb]; [destruct (Nat.leb_spec a b)|].
    + replace (Nat.max 1 a) with a by lia. replace (Nat.max 1 (S a)) with (S a) by lia.
      replace (Nat.min (a + S n) (b + 1) - a)%nat with (S (Nat.min (S a + n) (b + 1) - S a))%nat by lia. reflexivity.
    + replace (Nat.min (S a + n) (b + 1) - Nat.max 1 (S a))%nat with 0%nat by lia. replace (Nat.min (a + S n) (b + 1) - Nat.max 1 a)%nat with 0%nat by lia. reflexivity.
    + f_equal; lia.
Qed.
Lemma freqs_arange dT nmax q : (50 * q <= nmax)%nat ->
  freqs dT nmax q = map (fun n => dT * IZR n) (arange (Z.max 1 (50 * Z.of_nat q)) (Z.min (50 * Z.of_nat q + 50 - 1) (Z.of_nat nmax) + 1)).
Proof.
  intros H. unfold freqs. rewrite filter_interval. unfold arange. rewrite map_map.
  replace (Z.to_nat (Z.min (50 * Z.of_nat q + 50 - 1) (Z.of_nat nmax) + 1 - Z.max 1 (50 * Z.of_nat q))) with (Nat.min (50 * q + 50) (nmax + 1) - Nat.max 1 (50 * q))%nat by lia.
  set (L := (Nat.min (50 * q + 50) (nmax + 1) - Nat.max 1 (50 * q))%nat). clearbody L.
  replace (seq (Nat.max 1 (50 * q)) L) with (map (fun i => (Nat.max 1 (50 * q) + i)%nat) (seq 0 L)).
  - rewrite map_map. apply map_ext. intros i. f_equal. rewrite INR_IZR_INZ. f_equal. lia.
  - generalize (Nat.max 1 (50 * q)) as a. induction L as [|L IH]; intros a; [reflexivity|]. rewrite !seq_S, map_app, IH. reflexivity.
Qed.
Lemma arange_0 b : (0 <= b)%Z -> arange 0 (b + 1) = 0%Z :: arange 1 (b + 1).
Proof. intros H. rewrite (arange_app 0 1 (b + 1)) by lia. reflexivity. Qed.
Lemma in_arange n a b : In n (arange a b) -> (a <= n < b)%Z.
Proof. unfold arange. intros H. apply in_map_iff in H. destruct H as [i [<- Hi]]. apply in_seq in Hi. lia. Qed.

Section FE.
  Context {G : Type} (ops : geo_ops G) (garbage : nat -> R) (P : G -> Prop) (v0 : R) (v : nat -> R -> R) (t : finiteT G) (nmax : nat).
  Context (Hn : t_nmax t = Z.of_nat nmax) (Hp : t_nprocs t = 0%Z) (Hf : t_force t = false) (HT : t_deltaT t <> 0).
  Context (Hk0 : t_analytic t = true -> forall s, P s -> exists s', P s' /\ g_mSumme_k0 ops s = (s', Ok [v0])).
  Context (Hk1 : t_analytic t = false -> (1 <= nmax)%nat /\ forall s, P s -> exists s', P s' /\ g_mSumme ops [1e-10] s = (s', Ok [v0])).
  Context (Hq : forall q, freqs (t_deltaT t) nmax q <> [] -> forall s, P s -> exists s', P s' /\
            g_mSumme ops (freqs (t_deltaT t) nmax q) s = (s', Ok (map (v q) (freqs (t_deltaT t) nmax q)))).
  Let wz (n : Z) : R := if (n =? 0)%Z then v0 / 2 else v (Z.to_nat n / 50)%nat (t_deltaT t * IZR n).
  Let PT (t' : finiteT G) : Prop := same_but_geom t t' /\ P (t_geom t').

  Lemma with_geom_same t' g : same_but_geom t t' -> same_but_geom t (with_geom t' g).
  Proof. intros H. exact H. Qed.
  Lemma freqs_terms q : (50 * q <= nmax)%nat -> map (v q) (freqs (t_deltaT t) nmax q)
    = map wz (arange (Z.max 1 (50 * Z.of_nat q)) (Z.min (50 * Z.of_nat q + 50 - 1) (Z.of_nat nmax) + 1)).
  Proof.
    intros H. rewrite freqs_arange, map_map by exact H. apply map_ext_in. intros n Hn'. apply in_arange in Hn'. unfold wz.
    destruct (Z.eqb_spec n 0); [lia|]. do 1 f_equal.
    apply (Nat.div_unique (Z.to_nat n) 50 q (Z.to_nat n - 50 * q)); lia.
  Qed.
  Lemma half_val x : 0.5 * x = x / 2. Proof. lra. Qed.
  Lemma chunk_run a t' : PT t' -> (0 <= a <= Z.of_nat nmax)%Z -> (50 | a - 0)%Z ->
    let c := arange a (Z.min (a + 50 - 1) (Z.of_nat nmax) + 1) in
    exists t'', PT t'' /\ F_alle ops (map (fun n => t_deltaT t * IZR n) c) t' = (t'', Ok (map wz c)).
  Proof.
    intros [Hsame HP] Ha [q0 Hq0] c. destruct Hsame as (S1&S2&S3&S4&S5&S6&S7&S8) eqn:Es. pose proof Hsame as Hsame'. clear Es.
    set (q := Z.to_nat q0). assert (Eq : a = (50 * Z.of_nat q)%Z) by lia. assert (Hqn : (50 * q <= nmax)%nat) by lia.
    destruct (Nat.eq_dec q 0) as [E0|E0].
    - assert (Ea : a = 0%Z) by lia. pose proof (freqs_terms q Hqn) as Ev. pose proof (freqs_arange (t_deltaT t) nmax q Hqn) as Ef.
      rewrite E0 in Ev, Ef. change (50 * Z.of_nat 0)%Z with 0%Z in Ev, Ef. change (Z.max 1 0) with 1%Z in Ev, Ef. unfold c. rewrite Ea.
      rewrite arange_0 by lia. cbn [map]. rewrite <- Ef, <- Ev. replace (wz 0) with (v0 / 2) by reflexivity.
      rewrite Rmult_0_r. unfold F_alle. destruct (Reqb_spec 0 0) as [_|N]; [|lra]. rewrite S6, Hf, S4. cbn [negb andb].
      destruct (t_analytic t) eqn:Ean.
      + destruct (Hk0 eq_refl _ HP) as [s1 [HP1 E1]]. unfold mbind, on_geom, ret. rewrite E1. cbn [half map]. rewrite half_val.
        destruct (freqs (t_deltaT t) nmax 0) as [|k ks] eqn:Efr.
        * exists (with_geom t' s1). split; [split; [now apply with_geom_same|exact HP1]|reflexivity].
        * destruct (Hq 0%nat ltac:(rewrite Efr; discriminate) s1 HP1) as [s2 [HP2 E2]]. rewrite Efr in E2. cbn [t_geom with_geom]. rewrite E2.
          exists (with_geom (with_geom t' s1) s2). split; [split; [now repeat apply with_geom_same|exact HP2]|reflexivity].
      + destruct (Hk1 eq_refl) as [Hn1 Hk]. destruct (Hk _ HP) as [s1 [HP1 E1]]. unfold mbind, on_geom, ret. rewrite E1. cbn [half map]. rewrite half_val.
        assert (Hne : freqs (t_deltaT t) nmax 0 <> []).
        { rewrite Ef. intros H. apply (f_equal (@length R)) in H. rewrite map_length, arange_length in H. cbn in H. lia. }
        destruct (Hq 0%nat Hne s1 HP1) as [s2 [HP2 E2]]. cbn [t_geom with_geom]. rewrite E2.
        exists (with_geom (with_geom t' s1) s2). split; [split; [now repeat apply with_geom_same|exact HP2]|reflexivity].
    - pose proof (freqs_terms q Hqn) as Ev. pose proof (freqs_arange (t_deltaT t) nmax q Hqn) as Ef. replace (Z.max 1 (50 * Z.of_nat q)) with a in * by lia. rewrite <- Eq in Ev, Ef.
      unfold c. rewrite <- Ef, <- Ev.
      assert (Hne : freqs (t_deltaT t) nmax q <> []).
      { rewrite Ef. intros H. apply (f_equal (@length R)) in H. rewrite map_length, arange_length in H. cbn [length] in H. lia. }
      destruct (Hq q Hne _ HP) as [s2 [HP2 E2]]. unfold F_alle. destruct (freqs (t_deltaT t) nmax q) as [|k ks] eqn:Efr; [now elim Hne|].
      assert (Hk : k <> 0).
      { assert (Hin : In k (k :: ks)) by now left. rewrite Ef in Hin. apply in_map_iff in Hin. destruct Hin as [n [<- Hin]]. apply in_arange in Hin.
        intros H. apply Rmult_integral in H. destruct H as [H|H]; [now apply HT|]. apply eq_IZR in H. lia. }
      destruct (Reqb_spec k 0); [contradiction|]. rewrite S6, Hf. unfold on_geom. rewrite E2.
      exists (with_geom t' s2). split; [split; [now apply with_geom_same|exact HP2]|reflexivity].
  Qed.

  Lemma sliced_sum_eq i : (0 < i)%nat -> INR i * t_deltaT t * sum_multiples i (map wz (arange 0 (Z.of_nat nmax + 1))) = sliced_sum v0 v (t_deltaT t) nmax i.
  Proof.
    intros Hi. unfold sliced_sum, sum_multiples. f_equal. rewrite map_length, arange_length, Z.sub_0_r.
    replace (Z.to_nat (Z.of_nat nmax + 1)) with (S nmax) by lia. rewrite multiples_filter by exact Hi.
    assert (Hnth : forall n, (n <= nmax)%nat -> nth n (map wz (arange 0 (Z.of_nat nmax + 1))) 0 = wz (Z.of_nat n)).
    { intros n Hle. apply nth_error_nth. rewrite arange_consecutive. erewrite map_nth_error; [reflexivity|]. rewrite nth_error_consecutive by lia. reflexivity. }
    cbn [seq map Rsum fold_right]. fold Rsum. rewrite Nat.mul_0_l, Hnth by lia. cbn [Z.of_nat]. f_equal.
    rewrite map_map. unfold Rsum; f_equal. apply map_ext_in. intros j Hj. apply in_seq in Hj.
    assert (Hji : (1 <= j * i <= nmax)%nat). { split; [nia|]. pose proof (Nat.mul_div_le nmax i ltac:(lia)). nia. }
    rewrite Hnth by lia. unfold wz. destruct (Z.eqb_spec (Z.of_nat (j * i)) 0); [lia|]. rewrite Nat2Z.id, <- INR_IZR_INZ, mult_INR, (Nat.mul_comm j i). f_equal. ring.
  Qed.

  Lemma free_energy_run : t_f t = None -> P (t_geom t) ->
    exists t' F, free_energy ops garbage t = (t', Ok F) /\ P (t_geom t') /\ length F = Z.to_nat (pyround (t_Tmax t / t_deltaT t)) /\
      forall i, (1 <= i <= length F)%nat -> nth_error F (i - 1) = Some (sliced_sum v0 v (t_deltaT t) nmax i).
  Proof.
    intros Hnone HP.
    assert (HPT : PT t) by (split; [apply same_refl|exact HP]).
    destruct (slicewise_run garbage (fun x => F_alle ops (map (fun n => t_deltaT t * IZR n) x)) PT wz 0 (Z.of_nat nmax) 50 t ltac:(lia) ltac:(lia)
      (fun a s HPs Ha Hd => chunk_run a s HPs Ha Hd) HPT) as [t1 [[Hs HP1] E]].
    assert (Eg : get_f_matsubaras ops garbage 0 (PyInt 50) t = (t1, Ok (map wz (arange 0 (Z.of_nat nmax + 1))))).
    { unfold get_f_matsubaras. rewrite Hp, Hn. cbn [Z.eqb]. rewrite E. reflexivity. }
    set (f := map wz (arange 0 (Z.of_nat nmax + 1))) in *.
    assert (Ee : exists t' F, free_energy ops garbage t = (t', Ok F) /\ t' = with_f t1 f).
    { unfold free_energy, mbind, ensure_f. rewrite Hnone. unfold mbind. rewrite Eg. eexists. eexists. split; reflexivity. }
    destruct Ee as [t' [F [Ee Et]]]. exists t', F. split; [exact Ee|]. split; [rewrite Et; exact HP1|].
    destruct (free_energy_table ops garbage t t' F Ee) as [f' [Ef' [_ [HL HF]]]].
    rewrite Et in Ef'. cbn in Ef'. injection Ef' as <-. split; [exact HL|].
    intros i Hi. rewrite HF by exact Hi. f_equal. apply sliced_sum_eq. lia.
  Qed.
End FE.

(** finite terms *)
Lemma weighted_fin a l : weighted (Fin a) (map Fin l) = Fin (a + 2 * Rsum l).
Proof.
  unfold weighted. revert a. induction l as [|x l IH]; intros a; cbn [map fold_left]; [cbn; f_equal; lra|].
  cbn [xadd xmul]. rewrite IH. f_equal. change (Rsum (x :: l)) with (x + Rsum l). lra.
Qed.
Lemma msum_fin (f : nat -> xr) (g : nat -> R) M : (forall m, (m <= M)%nat -> f m = Fin (g m)) -> msum f M = Fin (rsum g M).
Proof.
  intros H. unfold msum, rsum. rewrite H by lia.
  replace (map f (seq 1 M)) with (map Fin (map g (seq 1 M))); [apply weighted_fin|].
  rewrite map_map. apply map_ext_in. intros m Hm. apply in_seq in Hm. symmetry. apply H. lia.
Qed.
Lemma finite_map l : finite (map Fin l) = Some l.
Proof. induction l as [|x l IH]; [reflexivity|]. cbn. now rewrite IH. Qed.
Lemma freqs_small dT nmax q : freqs dT nmax q <> [] -> (q <= nmax)%nat.
Proof.
  unfold freqs. rewrite filter_interval. intros h. destruct (Compare_dec.le_dec q nmax) as [H|H]; [exact H|]. exfalso. apply h.
  replace (Nat.min (50 * q + 50) (nmax + 1) - Nat.max 1 (50 * q))%nat with 0%nat by lia. reflexivity.
Qed.
Lemma freqs_seq dT nmax q : freqs dT nmax q = map (fun n => dT * INR n) (seq (Nat.max 1 (50 * q)) (Nat.min (50 * q + 50) (nmax + 1) - Nat.max 1 (50 * q))).
Proof. unfold freqs. rewrite filter_interval. reflexivity. Qed.
Lemma freqs_pos dT nmax q k : 0 < dT -> In k (freqs dT nmax q) -> exists n, (1 <= n <= nmax)%nat /\ k = dT * INR n /\ 0 < k.
Proof.
  intros Hd H. rewrite freqs_seq in H. apply in_map_iff in H. destruct H as [n [<- H]]. apply in_seq in H.
  exists n. split; [lia|]. split; [reflexivity|].
  apply Rmult_lt_0_compat; [exact Hd|]. apply lt_0_INR. lia.
Qed.
Lemma insulator_has m e b : insulator m e b -> has m (eps_spec e) (mu_val b).
Proof. intros H. apply insulator_flags in H. tauto. Qed.

(** ** bounds of the sums *)
Lemma Rsum_abs (l : list R) d : (forall x, In x l -> Rabs x <= d) -> Rabs (Rsum l) <= INR (length l) * d.
Proof.
  induction l as [|x l IH]; intros H; [cbn; rewrite Rabs_R0; lra|]. change (Rsum (x :: l)) with (x + Rsum l).
  cbn [length]. rewrite S_INR. eapply Rle_trans; [apply Rabs_triang|].
  assert (H1 := H x (or_introl eq_refl)). assert (H2 := IH (fun y Hy => H y (or_intror Hy))). lra.
Qed.
Lemma rsum_abs (g : nat -> R) M d : (forall m, (m <= M)%nat -> Rabs (g m) <= d) -> Rabs (rsum g M) <= (2 * INR M + 1) * d.
Proof.
  intros H. unfold rsum. assert (H0 := H 0%nat ltac:(lia)).
  assert (H1 : Rabs (Rsum (map g (seq 1 M))) <= INR M * d).
  { replace M with (length (map g (seq 1 M))) at 2 by (now rewrite map_length, seq_length).
    apply Rsum_abs. intros x Hx. apply in_map_iff in Hx. destruct Hx as [m [<- Hm]]. apply in_seq in Hm. apply H. lia. }
  eapply Rle_trans; [apply Rabs_triang|]. rewrite Rabs_mult, (Rabs_pos_eq 2) by lra. lra.
Qed.
Lemma used_freq dT nmax i j : (1 <= i)%nat -> In j (seq 1 (nmax / i)) -> (1 <= i * j <= nmax)%nat /\ INR j * (INR i * dT) = dT * INR (i * j).
Proof.
  intros Hi Hj. apply in_seq in Hj. split; [|rewrite mult_INR; ring]. pose proof (Nat.mul_div_le nmax i ltac:(lia)). nia.
Qed.
Lemma sliced_abs g0 g dT nmax i d : 0 < dT -> (1 <= i)%nat -> Rabs g0 <= d ->
  (forall n, (1 <= n <= nmax)%nat -> Rabs (g (n / 50)%nat (dT * INR n)) <= d) -> Rabs (sliced_sum g0 g dT nmax i) <= INR i * dT * ((INR nmax + 1) * d).
Proof.
  intros HT Hi H0 H. unfold sliced_sum. assert (Pi : 0 < INR i) by (apply lt_0_INR; lia).
  rewrite Rabs_mult, (Rabs_pos_eq (INR i * dT)) by (apply Rmult_le_pos; lra). apply Rmult_le_compat_l; [apply Rmult_le_pos; lra|].
  assert (Hd : 0 <= d) by (generalize (Rabs_pos g0); lra).
  eapply Rle_trans; [apply Rabs_triang|].
  assert (H1 : Rabs (g0 / 2) <= d) by (unfold Rdiv; rewrite Rabs_mult, (Rabs_pos_eq (/ 2)) by lra; lra).
  assert (H2 : Rabs (Rsum (map (fun j => g (i * j / 50)%nat (INR j * (INR i * dT))) (seq 1 (nmax / i)))) <= INR (nmax / i) * d).
  { replace (nmax / i)%nat with (length (map (fun j => g (i * j / 50)%nat (INR j * (INR i * dT))) (seq 1 (nmax / i)))) at 2 by (now rewrite map_length, seq_length).
    apply Rsum_abs. intros x Hx. apply in_map_iff in Hx. destruct Hx as [j [<- Hj]]. destruct (used_freq dT nmax i j Hi Hj) as [Hb ->]. now apply H. }
  assert (H3 : INR (nmax / i) <= INR nmax) by (apply le_INR, Nat.div_le_upper_bound; nia).
  assert (H4 := Rmult_le_compat_r d _ _ Hd H3). lra.
Qed.
Lemma Rsum_nonneg (l : list R) : (forall x, In x l -> 0 <= x) -> 0 <= Rsum l.
Proof.
  induction l as [|x l IH]; intros H; [cbn; lra|]. change (Rsum (x :: l)) with (x + Rsum l).
  assert (H1 := H x (or_introl eq_refl)). assert (H2 := IH (fun y Hy => H y (or_intror Hy))). lra.
Qed.
Lemma rsum_nonneg (g : nat -> R) M : (forall m, (m <= M)%nat -> 0 <= g m) -> 0 <= rsum g M.
Proof.
  intros H. unfold rsum. assert (H0 := H 0%nat ltac:(lia)).
  assert (0 <= Rsum (map g (seq 1 M))); [|lra]. apply Rsum_nonneg. intros x Hx. apply in_map_iff in Hx. destruct Hx as [m [<- Hm]]. apply in_seq in Hm. apply H. lia.
Qed.
Lemma sliced_nonneg g0 g dT nmax i : 0 < dT -> (1 <= i)%nat -> 0 <= g0 ->
  (forall n, (1 <= n <= nmax)%nat -> 0 <= g (n / 50)%nat (dT * INR n)) -> 0 <= sliced_sum g0 g dT nmax i.
Proof.
  intros HT Hi H0 H. unfold sliced_sum. assert (Pi : 0 < INR i) by (apply lt_0_INR; lia). apply Rmult_le_pos; [apply Rmult_le_pos; lra|].
  assert (0 <= Rsum (map (fun j => g (i * j / 50)%nat (INR j * (INR i * dT))) (seq 1 (nmax / i)))); [|lra].
  apply Rsum_nonneg. intros x Hx. apply in_map_iff in Hx. destruct Hx as [j [<- Hj]]. destruct (used_freq dT nmax i j Hi Hj) as [Hb ->]. now apply H.
Qed.
Lemma Rsum_opp (l : list R) : Rsum (map Ropp l) = - Rsum l.
Proof. induction l as [|x l IH]; [cbn; lra|]. change (- x + Rsum (map Ropp l) = - (x + Rsum l)). rewrite IH. ring. Qed.
Lemma rsum_nonpos (g : nat -> R) M : (forall m, (m <= M)%nat -> g m <= 0) -> rsum g M <= 0.
Proof.
  intros H. assert (0 <= rsum (fun m => - g m) M) by (apply rsum_nonneg; intros m Hm; specialize (H m Hm); lra).
  unfold rsum in *. rewrite <- (map_map g Ropp), Rsum_opp in H0. lra.
Qed.
Lemma sliced_nonpos g0 g dT nmax i : 0 < dT -> (1 <= i)%nat -> g0 <= 0 ->
  (forall n, (1 <= n <= nmax)%nat -> g (n / 50)%nat (dT * INR n) <= 0) -> sliced_sum g0 g dT nmax i <= 0.
Proof.
  intros HT Hi H0 H. assert (X : 0 <= sliced_sum (- g0) (fun q k => - g q k) dT nmax i).
  { apply sliced_nonneg; [exact HT|exact Hi|lra|]. intros n Hn. specialize (H n Hn). lra. }
  unfold sliced_sum in *. rewrite <- (map_map (fun j => g (i * j / 50)%nat (INR j * (INR i * dT))) Ropp), Rsum_opp in X.
  replace (- g0 / 2 + - Rsum (map (fun j => g (i * j / 50)%nat (INR j * (INR i * dT))) (seq 1 (nmax / i)))) with (- (g0 / 2 + Rsum (map (fun j => g (i * j / 50)%nat (INR j * (INR i * dT))) (seq 1 (nmax / i))))) in X by lra.
  rewrite <- Ropp_mult_distr_r in X. lra.
Qed.
(** the slice of n holds n dT *)
Lemma freqs_has dT nmax n : (1 <= n <= nmax)%nat -> In (dT * INR n) (freqs dT nmax (n / 50)).
Proof.
  intros H. rewrite freqs_seq. apply (in_map (fun n => dT * INR n)). apply in_seq.
  pose proof (Nat.div_mod n 50 ltac:(lia)). pose proof (Nat.mod_upper_bound n 50 ltac:(lia)). lia.
Qed.
