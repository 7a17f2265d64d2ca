(** * Low-frequency limits of the Mie coefficients, for the Bessel functions of the code *)
From Coq Require Import Reals.
From Coquelicot Require Import Coquelicot.
From Coq Require Import Bool ZArith List Lia Lra.
From Verif Require Import Base Mat_Model Mat_Spec Mat_Proofs Help_Model Help_Spec Help_Proofs Bessel_Model Bessel_Spec Bessel_Proofs Bessel_Proofs2 Bessel_Proofs3 Bessel_Proofs4 Bessel_Proofs6
  Scat_Model Scat_Spec Scat_Proofs Scat_Proofs2 Scat_Proofs4 Scat_Proofs6 Scat_Proofs7 Scat_Proofs8 Scat_Proofs9 Scat_Proofs10 Trans_Proofs4 RT_Spec.
Import ListNotations.
Open Scope R_scope.

(** Bessel functions for the Mie coefficients: exact k_l, and [I l] for ln i_l, right to leading order *)
Definition good_bes (bes : list R -> nat -> Z -> res (list (list R) * list (list R))) (I : nat -> R -> R) (d : R) : Prop :=
  0 < d /\
  (forall x n, 0 < x < d -> bes [x] 0%nat (Z.of_nat n) = Ok (map (fun l => [I l x]) (seq 0 (n + 1)), map (fun l => [ln (sph_k l x)]) (seq 0 (n + 1)))) /\
  forall l, lim0 (fun x => exp (I l x) / x ^ l) (/ odd_fact l).

Lemma exact_good : good_bes exact_bessels (fun l x => ln (sph_i l x)) 1.
Proof.
  split; [lra|]. split.
  - intros x n _. unfold exact_bessels. replace (Z.of_nat n <? Z.of_nat 0)%Z with false by (symmetry; apply Z.ltb_ge; lia).
    rewrite Nat2Z.id. replace (S n - 0)%nat with (n + 1)%nat by lia. reflexivity.
  - intros l. apply (lim0_ext (fun x => sph_i l x / x ^ l)); [|apply lim0_i]. intros x Hx. now rewrite exp_ln by (now apply sph_i_pos).
Qed.
Lemma skipn_0 {A} (l : list A) : skipn 0 l = l.
Proof. reflexivity. Qed.
Lemma code_good : good_bes mie_bessels ci 1e-3.
Proof.
  split; [lra|]. split; [|apply lim0_code_i]. intros x n Hx. unfold mie_bessels.
  replace (Z.of_nat n <? Z.of_nat 0)%Z with false by (symmetry; apply Z.ltb_ge; lia).
  assert (A := code_int x n Hx). unfold trans_bessels in A.
  destruct (lniknu [x] (AnInt (Z.of_nat n))) as [[iv kv]|] eqn:E; [|discriminate]. cbn [bind fst snd] in *. injection A as ->.
  rewrite lniknu_spec in E; [|discriminate|intros t [<-|[]]; lra]. injection E as _ <-. rewrite !skipn_0.
  rewrite Nat.add_1_r. f_equal.
Qed.

Lemma ev_small x d : to0 x -> 0 < d -> at_right 0 (fun k => 0 < k /\ x k < d).
Proof.
  intros [_ H0] Hd. assert (S : at_right 0 (fun k => x k < d)).
  { apply (H0 (fun y => y < d)). exists (mkposreal d Hd). intros y B. change (Rabs (y + - 0) < d) in B. apply Rabs_def2 in B. lra. }
  generalize (filter_and _ _ at_right_pos S). apply filter_imp. tauto.
Qed.
Lemma lim0_ext_ev f g v (P : R -> Prop) : at_right 0 P -> (forall k, P k -> f k = g k) -> lim0 f v -> lim0 g v.
Proof. intros HP E H. apply (filterlim_ext_loc f); [|exact H]. now apply (filter_imp P). Qed.

(** ** ratios *)
Lemma rat_fin (p1 p2 di de ke : R -> R) P1 P2 D E K : P2 * D - P1 * K <> 0 -> lim0 p1 P1 -> lim0 p2 P2 -> lim0 di D -> lim0 de E -> lim0 ke K ->
  lim0 (fun k => ratio_ext (p1 k) (p2 k) (di k) (de k) (ke k)) (ratio_ext P1 P2 D E K).
Proof. intros N H1 H2 H3 H4 H5. unfold ratio_ext. apply lim0_div; [exact N| |]; apply lim0_minus; now apply lim0_mult. Qed.
Lemma common_factor a b c : c <> 0 -> c * a / (c * b) = a / b.
Proof. intros Hc. unfold Rdiv. rewrite Rinv_mult. replace (c * a * (/ c * / b)) with (a * / b * (c * / c)) by ring. rewrite Rinv_r by assumption. ring. Qed.
Lemma rat_inf (p1 p2 di de ke : R -> R) P2 D E K : K <> 0 -> (forall k, 0 < k -> 0 < p1 k) -> lim0 (fun k => / p1 k) 0 -> lim0 p2 P2 -> lim0 di D -> lim0 de E -> lim0 ke K ->
  lim0 (fun k => ratio_ext (p1 k) (p2 k) (di k) (de k) (ke k)) (E / K).
Proof.
  intros N HP H1 H2 H3 H4 H5. apply (lim0_ext (fun k => (/ p1 k * p2 k * di k - de k) / (/ p1 k * p2 k * di k - ke k))).
  - intros k Hk. assert (p1 k <> 0) by (specialize (HP k Hk); lra). unfold ratio_ext. rewrite <- (common_factor _ _ (p1 k)) by assumption. f_equal; field; assumption.
  - apply lim0_eq with ((0 * P2 * D - E) / (0 * P2 * D - K)); [field; lra|]. apply lim0_div; [lra| |]; (apply lim0_minus; [|assumption]); (apply lim0_mult; [now apply lim0_mult|assumption]).
Qed.
Lemma rat_int_fin (p1 p2 di ki ke : R -> R) P1 P2 D K1 K : P2 * D - P1 * K <> 0 -> lim0 p1 P1 -> lim0 p2 P2 -> lim0 di D -> lim0 ki K1 -> lim0 ke K ->
  lim0 (fun k => ratio_int (p1 k) (p2 k) (di k) (ki k) (ke k)) (ratio_int P1 P2 D K1 K).
Proof. intros N H1 H2 H3 H4 H5. unfold ratio_int. apply lim0_div; [exact N| |]; apply lim0_minus; now apply lim0_mult. Qed.
Lemma rat_int_inf (p1 p2 di ki ke : R -> R) P1 D K1 K : D <> 0 -> (forall k, 0 < k -> 0 < p2 k) -> lim0 (fun k => / p2 k) 0 -> lim0 p1 P1 -> lim0 di D -> lim0 ki K1 -> lim0 ke K ->
  lim0 (fun k => ratio_int (p1 k) (p2 k) (di k) (ki k) (ke k)) (K1 / D).
Proof.
  intros N HP H2 H1 H3 H4 H5. apply (lim0_ext (fun k => (ki k - / p2 k * p1 k * ke k) / (di k - / p2 k * p1 k * ke k))).
  - intros k Hk. assert (p2 k <> 0) by (specialize (HP k Hk); lra). unfold ratio_int. rewrite <- (common_factor _ _ (p2 k)) by assumption. f_equal; field; assumption.
  - apply lim0_eq with ((K1 - 0 * P1 * K) / (D - 0 * P1 * K)); [field; lra|]. apply lim0_div; [lra| |]; (apply lim0_minus; [assumption|]); (apply lim0_mult; [now apply lim0_mult|assumption]).
Qed.

Section Good.
  Context (bes : list R -> nat -> Z -> res (list (list R) * list (list R))) (I : nat -> R -> R) (d : R) (HB : good_bes bes I d).
  Definition DB (l : nat) (x : R) : R := dI (S l) x (I l x) (I (S l) x).
  Lemma lim0_DB l : lim0 (DB l) (INR l + 2).
  Proof.
    destruct HB as [_ [_ HI]].
    apply (lim0_ext (fun x => - INR (S l) + (exp (I l x) / x ^ l) / (exp (I (S l) x) / x ^ (S l)))).
    { intros x Hx. unfold DB, dI. f_equal. unfold Rminus. rewrite exp_plus, exp_Ropp. assert (H1 := exp_pos (I l x)). assert (H2 := exp_pos (I (S l) x)).
      cbn [pow]. assert (x ^ l <> 0) by (apply pow_nonzero; lra). field. repeat split; lra || assumption. }
    apply lim0_eq with (- INR (S l) + / odd_fact l / / odd_fact (S l)).
    { cbn [odd_fact]. rewrite S_INR. generalize (odd_fact_pos l) (pos_INR l). intros. field. split; lra. }
    apply lim0_plus; [apply lim0_const|]. apply lim0_div; [|apply HI|apply HI]. apply Rinv_neq_0_compat. generalize (odd_fact_pos (S l)). lra.
  Qed.
  Lemma lim0_scale l : lim0 (fun x => exp (I l x - ln (sph_k l x)) / x ^ (2 * l + 1)) (2 / PI / cw l).
  Proof.
    destruct HB as [_ [_ HI]]. generalize PI_RGT_0 (odd_dfact_pos l) (odd_fact_pos l) (pos_INR l). intros HP HD HF HL.
    apply (lim0_ext (fun x => (exp (I l x) / x ^ l) / (sph_k l x * x ^ (l + 1)))).
    { intros x Hx. assert (H2 := sph_k_pos l x Hx). unfold Rminus. rewrite exp_plus, exp_Ropp, exp_ln by assumption. replace (2 * l + 1)%nat with (l + (l + 1))%nat by lia. rewrite (pow_add x l (l + 1)).
      assert (x ^ (l + 1) <> 0) by (apply pow_nonzero; lra). assert (x ^ l <> 0) by (apply pow_nonzero; lra). field. repeat split; lra || assumption. }
    apply lim0_eq with (/ odd_fact l / (PI / 2 * odd_dfact l)); [unfold cw; rewrite odd_fact_dfact; field; repeat split; lra|].
    apply lim0_div; [|apply HI|apply lim0_k]. apply Rgt_not_eq. apply Rmult_lt_0_compat; lra.
  Qed.
  Lemma lim0_scale_inv l : lim0 (fun x => exp (ln (sph_k l x) - I l x) * x ^ (2 * l + 1)) (PI / 2 * cw l).
  Proof.
    generalize PI_RGT_0 (cw_pos l). intros HP HC. apply (lim0_ext (fun x => / (exp (I l x - ln (sph_k l x)) / x ^ (2 * l + 1)))).
    { intros x Hx. replace (ln (sph_k l x) - I l x) with (- (I l x - ln (sph_k l x))) by ring. rewrite exp_Ropp. assert (H := exp_pos (I l x - ln (sph_k l x))).
      assert (x ^ (2 * l + 1) <> 0) by (apply pow_nonzero; lra). field. split; [lra|assumption]. }
    apply lim0_eq with (/ (2 / PI / cw l)); [field; split; lra|]. apply lim0_inv; [|apply lim0_scale]. apply Rgt_not_eq. apply Rdiv_lt_0_compat; [apply Rdiv_lt_0_compat; lra|lra].
  Qed.

  Lemma cells n x j : (j <= n)%nat -> cell (map (fun l => [I l x]) (seq 0 (n + 1))) j 0 = I j x /\ cell (map (fun l => [ln (sph_k l x)]) (seq 0 (n + 1))) j 0 = ln (sph_k j x).
  Proof. intros Hj. unfold cell. rewrite !nth_map_seq by lia. split; reflexivity. Qed.

  Context (r : R) (Hr : 0 < r) (lmax : nat) (j : nat) (Hj : (j < lmax)%nat).
  Lemma nl0 : (j < Z.to_nat (Z.of_nat lmax - Z.of_nat 0))%nat.
  Proof. lia. Qed.
  Lemma bes1 e u k : 0 < k -> 0 < refr e u k * k * r < d -> bes (xs (refr e u) r [k]) 0%nat (Z.of_nat lmax) =
     Ok (map (fun l => [I l (refr e u k * k * r)]) (seq 0 (lmax + 1)), map (fun l => [ln (sph_k l (refr e u k * k * r))]) (seq 0 (lmax + 1))).
  Proof.
    intros Hk Hx. destruct HB as [_ [B _]]. unfold xs. cbn [map]. replace (k * r * refr e u k) with (refr e u k * k * r) by ring. now apply B.
  Qed.
  Lemma one (k : R) : 0 < k -> forall k', In k' [k] -> 0 < k'.
  Proof. intros Hk k' [<-|[]]. exact Hk. Qed.

  (** *** exterior *)
  Lemma val_ext m1 m2 e1 u1 e2 u2 k : has m1 e1 u1 -> has m2 e2 u2 -> 0 < k -> let xi := refr e1 u1 k * k * r in let xe := refr e2 u2 k * k * r in
    0 < xi < d -> 0 < xe < d -> let F := fun ks => mie bes ks 0 (Z.of_nat lmax) r m1 m2 in
    entry TE F j k = ratio_ext (u1 k) (u2 k) (DB j xi) (DB j xe) (DK j xe) * (sgn (S j) * PI * 0.5) * exp (I (S j) xe - ln (sph_k (S j) xe)) /\
    entry TM F j k = ratio_ext (e1 k) (e2 k) (DB j xi) (DB j xe) (DK j xe) * (sgn (S j) * PI * 0.5) * exp (I (S j) xe - ln (sph_k (S j) xe)).
  Proof.
    intros H1 H2 Hk xi xe Xi Xe F.
    destruct (mie_lossy_run bes [k] 0 (Z.of_nat lmax) r (one k Hk) m1 m2 e1 u1 e2 u2 _ _ _ _ H1 H2 (bes1 e2 u2 k Hk Xe) (bes1 e1 u1 k Hk Xi)) as [c [E C]].
    destruct (C j 0%nat nl0 ltac:(cbn; lia)) as [A [B S0]]. cbv zeta in A, B, S0.
    change (nth 0 [k] 0) with k in A, B. change (0 + 1 + j)%nat with (S j) in A, B.
    fold xi xe in A, B, S0. destruct (cells lmax xi j ltac:(lia)) as [C1 C2]. destruct (cells lmax xi (S j) ltac:(lia)) as [C3 C4].
    destruct (cells lmax xe j ltac:(lia)) as [C5 C6]. destruct (cells lmax xe (S j) ltac:(lia)) as [C7 C8].
    rewrite C1, C3, C5, C6, C7, C8 in A, B. rewrite C7, C8 in S0.
    replace (k * r * refr e1 u1 k) with xi in A, B by (unfold xi; ring). replace (k * r * refr e2 u2 k) with xe in A, B by (unfold xe; ring).
    unfold entry, F. rewrite E. unfold TE, TM. rewrite A, B, S0. split; reflexivity.
  Qed.
  Lemma val_pec m2 e2 u2 k : has m2 e2 u2 -> 0 < k -> let xe := refr e2 u2 k * k * r in
    0 < xe < d -> let F := fun ks => mie bes ks 0 (Z.of_nat lmax) r PEC m2 in
    entry TE F j k = sgn (S j) * PI * 0.5 * exp (I (S j) xe - ln (sph_k (S j) xe)) /\
    entry TM F j k = sgn (S j) * PI * 0.5 * DB j xe / DK j xe * exp (I (S j) xe - ln (sph_k (S j) xe)).
  Proof.
    intros H2 Hk xe Xe F. destruct (mie_pec_run bes [k] 0 (Z.of_nat lmax) r (one k Hk) m2 e2 u2 _ _ H2 (bes1 e2 u2 k Hk Xe)) as [c [E C]].
    destruct (C j 0%nat nl0 ltac:(cbn; lia)) as [A [B S0]]. cbv zeta in A, B, S0. change (nth 0 [k] 0) with k in B. change (0 + 1 + j)%nat with (S j) in A, B.
    fold xe in B, S0. destruct (cells lmax xe j ltac:(lia)) as [C5 C6]. destruct (cells lmax xe (S j) ltac:(lia)) as [C7 C8]. rewrite C5, C6, C7, C8 in B. rewrite C7, C8 in S0.
    replace (k * r * refr e2 u2 k) with xe in B by (unfold xe; ring).
    unfold entry, F. rewrite E. unfold TE, TM. rewrite A, B, S0. split; reflexivity.
  Qed.
  Lemma lim_scaled (x : R -> R) (g : R -> R) v : to0 x -> lim0 g v -> lim0 (fun k => g k * (sgn (S j) * PI * 0.5) * exp (I (S j) (x k) - ln (sph_k (S j) (x k))) / x k ^ (2 * S j + 1)) (sgn (S j) * v * / cw (S j)).
  Proof.
    intros Hx Hg. apply (lim0_ext (fun k => g k * (sgn (S j) * PI * / 2) * (exp (I (S j) (x k) - ln (sph_k (S j) (x k))) / x k ^ (2 * S j + 1)))).
    { intros k Hk. replace 0.5 with (/ 2) by lra. unfold Rdiv. ring. }
    apply lim0_eq with (v * (sgn (S j) * PI * / 2) * (2 / PI / cw (S j))). { generalize PI_RGT_0 (cw_pos (S j)). intros. field. split; lra. }
    apply lim0_mult; [apply lim0_mult; [exact Hg|apply lim0_const]|].
    apply (lim0_sub (fun y => exp (I (S j) y - ln (sph_k (S j) y)) / y ^ (2 * S j + 1)) x _ Hx). apply lim0_scale.
  Qed.
  (** *** interior *)
  Lemma val_int m1 m2 e1 u1 e2 u2 k : has m1 e1 u1 -> has m2 e2 u2 -> 0 < k -> let xi := refr e1 u1 k * k * r in let xe := refr e2 u2 k * k * r in
    0 < xi < d -> 0 < xe < d -> let F := fun ks => mie_internal bes ks 0 (Z.of_nat lmax) r m1 m2 in
    entry TE F j k = ratio_int (u1 k) (u2 k) (DB j xi) (DK j xi) (DK j xe) * (sgn (S j) * 2 / PI) * exp (ln (sph_k (S j) xi) - I (S j) xi) /\
    entry TM F j k = ratio_int (e1 k) (e2 k) (DB j xi) (DK j xi) (DK j xe) * (sgn (S j) * 2 / PI) * exp (ln (sph_k (S j) xi) - I (S j) xi).
  Proof.
    intros H1 H2 Hk xi xe Xi Xe F.
    destruct (mie_int_run bes [k] 0 (Z.of_nat lmax) r (one k Hk) m1 m2 e1 u1 e2 u2 _ _ _ _ H1 H2 (bes1 e2 u2 k Hk Xe) (bes1 e1 u1 k Hk Xi)) as [c [E C]].
    destruct (C j 0%nat nl0 ltac:(cbn; lia)) as [A [B S0]]. cbv zeta in A, B, S0.
    change (nth 0 [k] 0) with k in A, B. change (0 + 1 + j)%nat with (S j) in A, B.
    fold xi xe in A, B, S0. destruct (cells lmax xi j ltac:(lia)) as [C1 C2]. destruct (cells lmax xi (S j) ltac:(lia)) as [C3 C4].
    destruct (cells lmax xe j ltac:(lia)) as [C5 C6]. destruct (cells lmax xe (S j) ltac:(lia)) as [C7 C8].
    rewrite C1, C2, C3, C4, C6, C8 in A, B. rewrite C3, C4 in S0.
    replace (k * r * refr e1 u1 k) with xi in A, B by (unfold xi; ring). replace (k * r * refr e2 u2 k) with xe in A, B by (unfold xe; ring).
    unfold entry, F. rewrite E. unfold TE, TM. rewrite A, B, S0. split; reflexivity.
  Qed.
  Lemma val_pec_int m1 e1 u1 k : has m1 e1 u1 -> 0 < k -> let xi := refr e1 u1 k * k * r in
    0 < xi < d -> let F := fun ks => mie_internal bes ks 0 (Z.of_nat lmax) r m1 PEC in
    entry TE F j k = sgn (S j) * 2 / PI * exp (ln (sph_k (S j) xi) - I (S j) xi) /\
    entry TM F j k = sgn (S j) * 2 / PI * (DK j xi / DB j xi) * exp (ln (sph_k (S j) xi) - I (S j) xi).
  Proof.
    intros H2 Hk xe Xe F. destruct (mie_pec_int_run bes [k] 0 (Z.of_nat lmax) r (one k Hk) m1 e1 u1 _ _ H2 (bes1 e1 u1 k Hk Xe)) as [c [E C]].
    destruct (C j 0%nat nl0 ltac:(cbn; lia)) as [A [B S0]]. cbv zeta in A, B, S0. change (nth 0 [k] 0) with k in B. change (0 + 1 + j)%nat with (S j) in A, B.
    fold xe in B, S0. destruct (cells lmax xe j ltac:(lia)) as [C5 C6]. destruct (cells lmax xe (S j) ltac:(lia)) as [C7 C8]. rewrite C5, C6, C7, C8 in B. rewrite C7, C8 in S0.
    replace (k * r * refr e1 u1 k) with xe in B by (unfold xe; ring).
    unfold entry, F. rewrite E. unfold TE, TM. rewrite A, B, S0. split; reflexivity.
  Qed.
  Lemma lim_scaled_int (x : R -> R) (g : R -> R) v : to0 x -> lim0 g v -> lim0 (fun k => g k * (sgn (S j) * 2 / PI) * exp (ln (sph_k (S j) (x k)) - I (S j) (x k)) * x k ^ (2 * S j + 1)) (sgn (S j) * v * cw (S j)).
  Proof.
    intros Hx Hg. apply (lim0_ext (fun k => g k * (sgn (S j) * 2 / PI) * (exp (ln (sph_k (S j) (x k)) - I (S j) (x k)) * x k ^ (2 * S j + 1)))).
    { intros k Hk. unfold Rdiv. ring. }
    apply lim0_eq with (v * (sgn (S j) * 2 / PI) * (PI / 2 * cw (S j))). { generalize PI_RGT_0 (cw_pos (S j)). intros. field. lra. }
    apply lim0_mult; [apply lim0_mult; [exact Hg|apply lim0_const]|].
    apply (lim0_sub (fun y => exp (ln (sph_k (S j) y) - I (S j) y) * y ^ (2 * S j + 1)) x _ Hx). apply lim0_scale_inv.
  Qed.
End Good.

(** a finite or infinite limit of a positive function, and the limit of the ratios for it *)
Definition lim_or_inf (p : R -> R) (v : option R) : Prop :=
  match v with Some P => 0 < P /\ lim0 p P | None => (forall k, 0 < k -> 0 < p k) /\ lim0 (fun k => / p k) 0 end.
Definition rlim_ext (l : nat) (v : option R) (P2 : R) : R :=
  match v with Some P1 => ratio_ext P1 P2 (INR l + 2) (INR l + 2) (- (INR l + 1)) | None => (INR l + 2) / - (INR l + 1) end.
Definition rlim_int (l : nat) (P1 : R) (v : option R) : R :=
  match v with Some P2 => ratio_int P1 P2 (INR l + 2) (- (INR l + 1)) (- (INR l + 1)) | None => - (INR l + 1) / (INR l + 2) end.
Lemma ratio_lim bes I d l p1 p2 xi xe v P2 : good_bes bes I d -> 0 < P2 -> lim_or_inf p1 v -> lim0 p2 P2 -> to0 xi -> to0 xe ->
  lim0 (fun k => ratio_ext (p1 k) (p2 k) (DB I l (xi k)) (DB I l (xe k)) (DK l (xe k))) (rlim_ext l v P2).
Proof.
  intros HB HP H1 H2 Xi Xe. assert (HL := pos_INR l). assert (L1 := lim0_sub _ _ _ Xi (lim0_DB bes I d HB l)). assert (L2 := lim0_sub _ _ _ Xe (lim0_DB bes I d HB l)). assert (L3 := lim0_sub _ _ _ Xe (lim0_DK l)).
  destruct v as [P1|]; destruct H1 as [A B].
  - apply rat_fin; try assumption. assert (0 < P2 * (INR l + 2)) by (apply Rmult_lt_0_compat; lra). assert (0 < P1 * (INR l + 1)) by (apply Rmult_lt_0_compat; lra). lra.
  - eapply rat_inf; try eassumption. lra.
Qed.
Lemma ratio_lim_int bes I d l p1 p2 xi xe v P1 : good_bes bes I d -> 0 < P1 -> lim_or_inf p2 v -> lim0 p1 P1 -> to0 xi -> to0 xe ->
  lim0 (fun k => ratio_int (p1 k) (p2 k) (DB I l (xi k)) (DK l (xi k)) (DK l (xe k))) (rlim_int l P1 v).
Proof.
  intros HB HP H2 H1 Xi Xe. assert (HL := pos_INR l). assert (L1 := lim0_sub _ _ _ Xi (lim0_DB bes I d HB l)). assert (L2 := lim0_sub _ _ _ Xi (lim0_DK l)). assert (L3 := lim0_sub _ _ _ Xe (lim0_DK l)).
  destruct v as [P2|]; destruct H2 as [A B].
  - apply rat_int_fin; try assumption. assert (0 < P2 * (INR l + 2)) by (apply Rmult_lt_0_compat; lra). assert (0 < P1 * (INR l + 1)) by (apply Rmult_lt_0_compat; lra). lra.
  - eapply rat_int_inf; try eassumption. lra.
Qed.
(** a sphere that is not perfectly conducting *)
Lemma static_lossy m : static_sphere m -> m = PEC \/ exists e u ve vu, has m e u /\ lim_or_inf e ve /\ lim_or_inf u vu /\ (forall r, 0 < r -> to0 (fun k => refr e u k * k * r)).
Proof.
  intros [->|[[e [b H]]|[e [b H]]]]; [now left|right|right].
  - destruct (insulator_flags _ _ _ H) as [_ [_ [_ [Hb Hh]]]]. destruct H as [_ [HP [HN _]]].
    destruct (insulator_arg e b 1 Rlt_0_1 HP HN Hb) as [_ [L1 [L2 [P1 P2]]]].
    exists (eps_spec e), (mu_val b), (Some (eps_spec e 0)), (Some (mu_val b 0)). split; [exact Hh|]. split; [split; assumption|]. split; [split; assumption|].
    intros r Hr. now apply insulator_arg.
  - destruct (drude_flags _ _ _ H) as [_ [_ [_ [Hb Hh]]]]. destruct H as [_ [HP [HF [HN _]]]].
    exists (eps_spec e), (mu_val b), None, (Some (mu_val b 0)). split; [exact Hh|]. split; [split; [|now apply lim0_inv_eps]|split; [split; [|now apply lim0_mu]|]].
    + intros k Hk. now apply Hh.
    + apply mu_val_pos; [assumption|lra].
    + intros r Hr. now apply drude_arg.
Qed.

Lemma mie_static m1 m2 e2 b2 r lmax j : 0 < r -> insulator m2 e2 b2 -> static_sphere m1 -> (j < lmax)%nat -> let n2 := refr (eps_spec e2) (mu_val b2) in
  exists te tm, forall bes I d, good_bes bes I d -> let F := fun ks => mie bes ks 0 (Z.of_nat lmax) r m1 m2 in
    lim0 (fun k => entry TE F j k / (k * r * n2 k) ^ (2 * S j + 1)) te /\ lim0 (fun k => entry TM F j k / (k * r * n2 k) ^ (2 * S j + 1)) tm.
Proof.
  intros Hr H2 H1 Hj n2. destruct (insulator_flags _ _ _ H2) as [_ [_ [_ [Hb Hh]]]]. destruct H2 as [_ [HP [HN _]]].
  destruct (insulator_arg e2 b2 r Hr HP HN Hb) as [X [L1 [L2 [P1 P2]]]]. destruct (static_lossy m1 H1) as [->|[e1 [u1 [ve [vu [Hh1 [Ve [Vu X1]]]]]]]].
  - exists (sgn (S j) * 1 * / cw (S j)), (sgn (S j) * ((INR j + 2) / - (INR j + 1)) * / cw (S j)). intros bes I d HB. cbv zeta.
    assert (EV := ev_small _ d X (proj1 HB)). split.
    + eapply (lim0_ext_ev _ _ _ _ EV); [|apply (lim_scaled bes I d HB j (fun k => n2 k * k * r) (fun _ => 1) 1 X (lim0_const 1))].
      intros k [Hk Hs]. cbv beta. destruct (val_pec bes I d HB r lmax j Hj m2 _ _ k Hh Hk (conj (proj1 X k Hk) Hs)) as [-> _]. fold n2. replace (k * r * n2 k) with (n2 k * k * r) by ring. rewrite Rmult_1_l. reflexivity.
    + assert (HL := pos_INR j).
      eapply (lim0_ext_ev _ _ _ _ EV); [|apply (lim_scaled bes I d HB j (fun k => n2 k * k * r) (fun k => DB I j (n2 k * k * r) / DK j (n2 k * k * r)) _ X)].
      * intros k [Hk Hs]. cbv beta. destruct (val_pec bes I d HB r lmax j Hj m2 _ _ k Hh Hk (conj (proj1 X k Hk) Hs)) as [_ ->]. fold n2. replace (k * r * n2 k) with (n2 k * k * r) by ring. unfold Rdiv. ring.
      * apply lim0_div; [lra|apply (lim0_sub _ _ _ X (lim0_DB bes I d HB j))|apply (lim0_sub _ _ _ X (lim0_DK j))].
  - exists (sgn (S j) * rlim_ext j vu (mu_val b2 0) * / cw (S j)), (sgn (S j) * rlim_ext j ve (eps_spec e2 0) * / cw (S j)). intros bes I d HB. cbv zeta.
    assert (EV := filter_and _ _ (ev_small _ d X (proj1 HB)) (ev_small _ d (X1 r Hr) (proj1 HB))). split.
    + eapply (lim0_ext_ev _ _ _ _ EV); [|apply (lim_scaled bes I d HB j (fun k => n2 k * k * r) (fun k => ratio_ext (u1 k) (mu_val b2 k) (DB I j (refr e1 u1 k * k * r)) (DB I j (n2 k * k * r)) (DK j (n2 k * k * r))) _ X)].
      * intros k [[Hk Hs] [_ Hs']]. cbv beta. destruct (val_ext bes I d HB r lmax j Hj m1 m2 _ _ _ _ k Hh1 Hh Hk (conj (proj1 (X1 r Hr) k Hk) Hs') (conj (proj1 X k Hk) Hs)) as [-> _]. fold n2. replace (k * r * n2 k) with (n2 k * k * r) by ring. reflexivity.
      * apply (ratio_lim bes I d); try assumption. now apply X1.
    + eapply (lim0_ext_ev _ _ _ _ EV); [|apply (lim_scaled bes I d HB j (fun k => n2 k * k * r) (fun k => ratio_ext (e1 k) (eps_spec e2 k) (DB I j (refr e1 u1 k * k * r)) (DB I j (n2 k * k * r)) (DK j (n2 k * k * r))) _ X)].
      * intros k [[Hk Hs] [_ Hs']]. cbv beta. destruct (val_ext bes I d HB r lmax j Hj m1 m2 _ _ _ _ k Hh1 Hh Hk (conj (proj1 (X1 r Hr) k Hk) Hs') (conj (proj1 X k Hk) Hs)) as [_ ->]. fold n2. replace (k * r * n2 k) with (n2 k * k * r) by ring. reflexivity.
      * apply (ratio_lim bes I d); try assumption. now apply X1.
Qed.
Lemma mie_int_static m1 m2 e1 b1 r lmax j : 0 < r -> insulator m1 e1 b1 -> static_sphere m2 -> (j < lmax)%nat -> let n1 := refr (eps_spec e1) (mu_val b1) in
  exists te tm, forall bes I d, good_bes bes I d -> let F := fun ks => mie_internal bes ks 0 (Z.of_nat lmax) r m1 m2 in
    lim0 (fun k => entry TE F j k * (k * r * n1 k) ^ (2 * S j + 1)) te /\ lim0 (fun k => entry TM F j k * (k * r * n1 k) ^ (2 * S j + 1)) tm.
Proof.
  intros Hr H2 H1 Hj n2. destruct (insulator_flags _ _ _ H2) as [_ [_ [_ [Hb Hh]]]]. destruct H2 as [_ [HP [HN _]]].
  destruct (insulator_arg e1 b1 r Hr HP HN Hb) as [X [L1 [L2 [P1 P2]]]]. destruct (static_lossy m2 H1) as [->|[e2 [u2 [ve [vu [Hh1 [Ve [Vu X1]]]]]]]].
  - exists (sgn (S j) * 1 * cw (S j)), (sgn (S j) * (- (INR j + 1) / (INR j + 2)) * cw (S j)). intros bes I d HB. cbv zeta.
    assert (EV := ev_small _ d X (proj1 HB)). split.
    + eapply (lim0_ext_ev _ _ _ _ EV); [|apply (lim_scaled_int bes I d HB j (fun k => n2 k * k * r) (fun _ => 1) 1 X (lim0_const 1))].
      intros k [Hk Hs]. cbv beta. destruct (val_pec_int bes I d HB r lmax j Hj m1 _ _ k Hh Hk (conj (proj1 X k Hk) Hs)) as [-> _]. fold n2. replace (k * r * n2 k) with (n2 k * k * r) by ring. rewrite Rmult_1_l. reflexivity.
    + assert (HL := pos_INR j).
      eapply (lim0_ext_ev _ _ _ _ EV); [|apply (lim_scaled_int bes I d HB j (fun k => n2 k * k * r) (fun k => DK j (n2 k * k * r) / DB I j (n2 k * k * r)) _ X)].
      * intros k [Hk Hs]. cbv beta. destruct (val_pec_int bes I d HB r lmax j Hj m1 _ _ k Hh Hk (conj (proj1 X k Hk) Hs)) as [_ ->]. fold n2. replace (k * r * n2 k) with (n2 k * k * r) by ring. unfold Rdiv. ring.
      * apply lim0_div; [lra|apply (lim0_sub _ _ _ X (lim0_DK j))|apply (lim0_sub _ _ _ X (lim0_DB bes I d HB j))].
  - exists (sgn (S j) * rlim_int j (mu_val b1 0) vu * cw (S j)), (sgn (S j) * rlim_int j (eps_spec e1 0) ve * cw (S j)). intros bes I d HB. cbv zeta.
    assert (EV := filter_and _ _ (ev_small _ d X (proj1 HB)) (ev_small _ d (X1 r Hr) (proj1 HB))). split.
    + eapply (lim0_ext_ev _ _ _ _ EV); [|apply (lim_scaled_int bes I d HB j (fun k => n2 k * k * r) (fun k => ratio_int (mu_val b1 k) (u2 k) (DB I j (n2 k * k * r)) (DK j (n2 k * k * r)) (DK j (refr e2 u2 k * k * r))) _ X)].
      * intros k [[Hk Hs] [_ Hs']]. cbv beta. destruct (val_int bes I d HB r lmax j Hj m1 m2 _ _ _ _ k Hh Hh1 Hk (conj (proj1 X k Hk) Hs) (conj (proj1 (X1 r Hr) k Hk) Hs')) as [-> _]. fold n2. replace (k * r * n2 k) with (n2 k * k * r) by ring. reflexivity.
      * apply (ratio_lim_int bes I d); try assumption. now apply X1.
    + eapply (lim0_ext_ev _ _ _ _ EV); [|apply (lim_scaled_int bes I d HB j (fun k => n2 k * k * r) (fun k => ratio_int (eps_spec e1 k) (e2 k) (DB I j (n2 k * k * r)) (DK j (n2 k * k * r)) (DK j (refr e2 u2 k * k * r))) _ X)].
      * intros k [[Hk Hs] [_ Hs']]. cbv beta. destruct (val_int bes I d HB r lmax j Hj m1 m2 _ _ _ _ k Hh Hh1 Hk (conj (proj1 X k Hk) Hs) (conj (proj1 (X1 r Hr) k Hk) Hs')) as [_ ->]. fold n2. replace (k * r * n2 k) with (n2 k * k * r) by ring. reflexivity.
      * apply (ratio_lim_int bes I d); try assumption. now apply X1.
Qed.
