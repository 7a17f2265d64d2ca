(** * Entries of the round-trip blocks at low frequency *)
From Coq Require Import Reals.
From Coquelicot Require Import Coquelicot.
From Coq Require Import Bool ZArith List Lia Lra.
From Verif Require Import Base Mat_Model Mat_Spec Mat_Proofs Help_Proofs Bessel_Model Bessel_Spec
  Scat_Model Scat_Spec Scat_Proofs Scat_Proofs2 Scat_Proofs6 Scat_Proofs7 Scat_Proofs8 Scat_Proofs9 Scat_Proofs10 Scat_Props2
  Trans_Model Trans_Spec Trans_Proofs Trans_Proofs3 Trans_Proofs4 Trans_Proofs5 Trans_Props Lin_Model Trip_Proofs RT_Model RT_Spec RT_Proofs.
Import ListNotations.
Open Scope R_scope.

(** ** the static rows are limits of what the code computes *)
Lemma rows_ext m1 med e b r lmax : 0 < r -> insulator med e b -> static_sphere m1 -> let n := refr (eps_spec e) (mu_val b) in
  exists te tm cm, mie_k0 m1 med 0 lmax r = Val (te, tm, cm) /\ forall j, (j < lmax)%nat ->
    let F := fun ks => mie mie_bessels ks 0 (Z.of_nat lmax) r m1 med in
    lim0 (fun k => entry TE F j k / (k * r * n k) ^ (2 * S j + 1)) (at_ te j * exp (at_ cm j)) /\
    lim0 (fun k => entry TM F j k / (k * r * n k) ^ (2 * S j + 1)) (at_ tm j * exp (at_ cm j)).
Proof.
  intros Hr Hm H1 n. destruct (C41_static_exterior m1 med e b 0 lmax r Hr (Nat.le_0_l _) Hm H1) as [te [tm [cm [E [[_ [_ A]] [_ [_ B]]]]]]].
  exists te, tm, cm. split; [exact E|]. intros j Hj F. destruct (mie_static m1 med e b r lmax j Hr Hm H1 Hj) as [v [w K]].
  destruct (K _ _ _ exact_good) as [K1 K2]. destruct (K _ _ _ code_good) as [K3 K4].
  specialize (A j ltac:(lia)). specialize (B j ltac:(lia)). change (0 + j)%nat with j in A, B.
  assert (v = at_ te j * exp (at_ cm j)) as <- by exact (limit0_unique _ _ _ K1 A).
  assert (w = at_ tm j * exp (at_ cm j)) as <- by exact (limit0_unique _ _ _ K2 B). split; assumption.
Qed.
Lemma rows_int m2 med e b r lmax : 0 < r -> insulator med e b -> static_sphere m2 -> let n := refr (eps_spec e) (mu_val b) in
  exists te tm cm, mie_internal_k0 med m2 0 lmax r = Val (te, tm, cm) /\ forall j, (j < lmax)%nat ->
    let F := fun ks => mie_internal mie_bessels ks 0 (Z.of_nat lmax) r med m2 in
    lim0 (fun k => entry TE F j k * (k * r * n k) ^ (2 * S j + 1)) (at_ te j * exp (at_ cm j)) /\
    lim0 (fun k => entry TM F j k * (k * r * n k) ^ (2 * S j + 1)) (at_ tm j * exp (at_ cm j)).
Proof.
  intros Hr Hm H1 n. destruct (C41_static_interior med m2 e b 0 lmax r Hr (Nat.le_0_l _) Hm H1) as [te [tm [cm [E [[_ [_ A]] [_ [_ B]]]]]]].
  exists te, tm, cm. split; [exact E|]. intros j Hj F. destruct (mie_int_static med m2 e b r lmax j Hr Hm H1 Hj) as [v [w K]].
  destruct (K _ _ _ exact_good) as [K1 K2]. destruct (K _ _ _ code_good) as [K3 K4].
  specialize (A j ltac:(lia)). specialize (B j ltac:(lia)). change (0 + j)%nat with j in A, B.
  assert (v = at_ te j * exp (at_ cm j)) as <- by exact (limit0_unique _ _ _ K1 A).
  assert (w = at_ tm j * exp (at_ cm j)) as <- by exact (limit0_unique _ _ _ K2 B). split; assumption.
Qed.

Lemma lim0_sumn n (f : nat -> R -> R) (v : nat -> R) : (forall s, (s < n)%nat -> lim0 (f s) (v s)) -> lim0 (fun k => sumn n (fun s => f s k)) (sumn n v).
Proof.
  induction n as [|n IH]; intros H; cbn [sumn]; [apply lim0_const|]. apply lim0_plus; [apply IH; intros s Hs; apply H; lia|apply H; lia].
Qed.
Lemma sumn_ext n f g : (forall s, (s < n)%nat -> f s = g s) -> sumn n f = sumn n g.
Proof. induction n as [|n IH]; intros H; cbn [sumn]; [reflexivity|]. rewrite IH by (intros s Hs; apply H; lia). now rewrite H by lia. Qed.
Lemma sumn_zero n f : (forall s, f s = 0) -> sumn n f = 0.
Proof. intros H. induction n as [|n IH]; cbn [sumn]; [reflexivity|]. rewrite IH, H. ring. Qed.
Lemma sumn_scal n c f : sumn n (fun s => c * f s) = c * sumn n f.
Proof. induction n as [|n IH]; cbn [sumn]; [ring|]. rewrite IH. ring. Qed.

(** powers of the arguments *)
Lemma powers x y w (li lj ls : nat) a v b v' : 0 < x -> 0 < y -> 0 < w ->
  y ^ lj / y ^ li * (a * (v * b * v')) =
  (a / y ^ (2 * li + 1)) * (x ^ (li + ls + 1) * v) * (b / w ^ (2 * ls + 1)) * (x ^ (lj + ls + 1) * v') * (y / x) ^ (li + lj + 1) * (w / x) ^ (2 * ls + 1).
Proof.
  intros Hx Hy Hw. assert (PD : forall a b n, (a / b) ^ n = a ^ n / b ^ n) by (intros; unfold Rdiv; now rewrite Rpow_mult_distr, pow_inv).
  rewrite !PD. replace (2 * li)%nat with (li + li)%nat by lia. replace (2 * ls)%nat with (ls + ls)%nat by lia.
  rewrite !pow_add, !pow_1. assert (0 < x ^ li) by now apply pow_lt. assert (0 < x ^ lj) by now apply pow_lt. assert (0 < x ^ ls) by now apply pow_lt.
  assert (0 < y ^ li) by now apply pow_lt. assert (0 < y ^ lj) by now apply pow_lt. assert (0 < w ^ ls) by now apply pow_lt. field. repeat split; lra.
Qed.

Definition sgn2 (a b : nat) : R := (-1) ^ (a + b).
Lemma sgnZ_sub a b : sgnZ (Z.of_nat a - Z.of_nat b) = sgn2 a b.
Proof.
  unfold sgnZ, sgn2. rewrite Z.even_sub. rewrite pow_add. assert (E : forall n, (-1) ^ n = if Z.even (Z.of_nat n) then 1 else -1).
  { induction n as [|n IH]; [reflexivity|]. cbn [pow]. rewrite IH, Nat2Z.inj_succ, Z.even_succ, <- Z.negb_even. destruct (Z.even (Z.of_nat n)); cbn [negb]; ring. }
  rewrite !E. destruct (Z.even (Z.of_nat a)), (Z.even (Z.of_nat b)); cbn [Bool.eqb]; ring.
Qed.
Lemma exp_INR_ln n x : 0 < x -> exp (INR n * ln x) = x ^ n.
Proof. intros Hx. rewrite <- Rpower_pow by assumption. reflexivity. Qed.

(** ** exterior geometry *)
Section Ext.
  Context (c : config) (m1 m2 : material) (ra rb : R) (e : list osc) (b : bprops) (HC : two_spheres c m1 m2 ra rb e b).
  Context (S1 : static_sphere m1) (S2 : static_sphere m2) (Hext : c_ext c = true) (m : Z) (Hm : (0 <= m)%Z).
  Let L := c_L c.
  Let o := (lmin m - 1)%nat.
  Let l i := (lmin m + i)%nat.
  Let sv i s := static_value (trans_k0_ext m (l i) (l s)).
  (** the static block for rows [a], [b'] of scattering coefficients and radii stretched by [q] *)
  Definition sblock (q : R) (al be : nat -> R) : mat := fun i j =>
    sumn (n2 c m) (fun s => sgn2 (l s) (l j) * sv i s * sv j s * al i * be s * (q * (ra / L)) ^ (l i + l j + 1) * (q * (rb / L)) ^ (2 * l s + 1)).

  Lemma pos : 0 < ra /\ 0 < rb /\ 0 < L.
  Proof. destruct HC as [_ [_ [_ [A [B C]]]]]. repeat split; assumption. Qed.
  Lemma lmin_pos : (1 <= lmin m)%nat.
  Proof. unfold lmin. lia. Qed.
  Lemma l_pos i : (1 <= l i)%nat.
  Proof. unfold l. generalize lmin_pos. lia. Qed.
  Lemma l_so i : l i = S (o + i).
  Proof. unfold l, o. generalize lmin_pos. lia. Qed.
  Lemma i_lmax i : (i < n1 c m)%nat -> (l i <= c_lmax c)%nat.
  Proof. unfold n1, l. lia. Qed.
  Lemma s_lmax i : (i < n2 c m)%nat -> (l i <= c_lssmax c)%nat.
  Proof. unfold n2, l. lia. Qed.
  Lemma abs_m i s : (Z.abs m <= Z.of_nat (Nat.min (l i) (l s)))%Z.
  Proof. unfold l, lmin. lia. Qed.

  Lemma table : exists t T, translation_init trans_bessels (c_lmax c) (c_lssmax c) m (c_med c) L [0] true false = Val t /\ trans_ab t = Val (Static T) /\
    forall i s, (i < n1 c m)%nat -> (s < n2 c m)%nat -> vpair T i s = trans_k0_ext m (l i) (l s).
  Proof.
    destruct (C45_static_table trans_bessels (c_lmax c) (c_lssmax c) m (c_med c) L true) as [t [T [E1 [E2 [_ H]]]]]. exists t, T. split; [exact E1|]. split; [exact E2|].
    intros i s Hi Hs. destruct (H i s) as [row [R1 [_ R2]]]; [exact (i_lmax i Hi)|exact (s_lmax s Hs)|]. unfold vpair. rewrite (nth_error_nth _ _ [] R1). now rewrite (nth_error_nth _ _ _ R2).
  Qed.

  Definition rows (te tm cm : list R) (F : list R -> out coefs) (r : R) (lm : nat) : Prop := forall j, (j < lm)%nat ->
    lim0 (fun k => entry TE F j k / (k * r * refr (eps_spec e) (mu_val b) k) ^ (2 * S j + 1)) (at_ te j * exp (at_ cm j)) /\
    lim0 (fun k => entry TM F j k / (k * r * refr (eps_spec e) (mu_val b) k) ^ (2 * S j + 1)) (at_ tm j * exp (at_ cm j)).
  Lemma k0_blocks : (n1 c m <= 1)%nat \/ (0 < n2 c m)%nat -> exists ate atm aln bte btm bln A0 B0 kap,
    mie_k0 m1 (c_med c) 0 (c_lmax c) ra = Val (ate, atm, aln) /\ mie_k0 m2 (c_med c) 0 (c_lssmax c) rb = Val (bte, btm, bln) /\
    rows ate atm aln (mieA mie_bessels c) ra (c_lmax c) /\ rows bte btm bln (mieB mie_bessels c) rb (c_lssmax c) /\
    blockmatrices_k0 trans_bessels c m = Val (Arr2 (n1 c m) (n1 c m) A0, Arr2 (n1 c m) (n1 c m) B0) /\
    forall i j, (i < n1 c m)%nat -> (j < n1 c m)%nat ->
      A0 i j = exp (kap * (INR i - INR j)) * sblock 1 (fun i => at_ ate (o + i) * exp (at_ aln (o + i))) (fun s => at_ bte (o + s) * exp (at_ bln (o + s))) i j /\
      B0 i j = exp (kap * (INR i - INR j)) * sblock 1 (fun i => at_ atm (o + i) * exp (at_ aln (o + i))) (fun s => at_ btm (o + s) * exp (at_ bln (o + s))) i j.
  Proof.
    intros Hn. destruct HC as [C1 [C2 [CM [P1 [P2 P3]]]]]. fold L in P3.
    destruct (rows_ext m1 (c_med c) e b ra (c_lmax c) P1 CM S1) as [ate [atm [aln [EA LA]]]].
    destruct (rows_ext m2 (c_med c) e b rb (c_lssmax c) P2 CM S2) as [bte [btm [bln [EB LB]]]].
    destruct table as [t [T [T1 [T2 TT]]]].
    unfold blockmatrices_k0, blockmatrices_k0_ext. rewrite Hext.
    assert (EL : elements_k0 trans_bessels c m = Val ((ate, atm, aln), (bte, btm, bln), T, (ra, rb))).
    { unfold elements_k0. rewrite C1, C2, Hext. fold L. rewrite EA. cbn [obind]. rewrite EB. cbn [obind]. rewrite T1. cbn [obind]. rewrite T2. reflexivity. }
    rewrite EL. cbn [obind]. unfold sum_k0.
    replace (Nat.ltb 1 (n1 c m) && Nat.eqb (n2 c m) 0)%bool with false by (destruct (Nat.ltb_spec 1 (n1 c m)), (Nat.eqb_spec (n2 c m) 0); cbn; (reflexivity || lia)).
    cbn [obind].
    match goal with |- context [single_k_scale _ _ ?M] => set (LM := M) end.
    assert (K : exists kap, forall i j s, (if Nat.ltb 1 (n1 c m) then single_k_scale (n1 c m) (n2 c m) LM else LM) i j s = kap * (INR i - INR j) + LM i j s).
    { destruct (Nat.ltb 1 (n1 c m)); [apply single_k_form|]. exists 0. intros. ring. }
    destruct K as [kap K]. set (lm := if Nat.ltb 1 (n1 c m) then single_k_scale (n1 c m) (n2 c m) LM else LM) in *.
    exists ate, atm, aln, bte, btm, bln. do 2 eexists. exists kap. split; [exact EA|]. split; [exact EB|]. split; [|split; [|split; [reflexivity|]]].
    - intros j Hj. unfold mieA. rewrite C1. exact (LA j Hj).
    - intros j Hj. unfold mieB. rewrite C2, Hext. exact (LB j Hj).
    - intros i j Hi Hj. unfold sblock.
      assert (X : forall s, (s < n2 c m)%nat -> exp (lm i j s) = exp (kap * (INR i - INR j)) * (exp (at_ aln (o + i)) * exp (at_ bln (o + s)) * exp (snd (trans_k0_ext m (l i) (l s))) * exp (snd (trans_k0_ext m (l j) (l s)))
         * (1 * (ra / L)) ^ (l i + l j + 1) * (1 * (rb / L)) ^ (2 * l s + 1))).
      { intros s Hs. rewrite K. unfold LM. cbv zeta. fold o. fold L. rewrite !TT by assumption. rewrite !exp_plus.
        assert (Q1 : 0 < ra / L) by (now apply Rdiv_lt_0_compat). assert (Q2 : 0 < rb / L) by (now apply Rdiv_lt_0_compat).
        replace (INR (lmin m + i) + INR (lmin m + j) + 1) with (INR (l i + l j + 1)) by (unfold l; rewrite !plus_INR; reflexivity).
        replace (2 * INR (lmin m + s) + 1) with (INR (2 * l s + 1)) by (unfold l; rewrite !plus_INR, mult_INR, plus_INR; cbn [INR]; ring).
        rewrite !exp_INR_ln by assumption. rewrite !Rmult_1_l. ring. }
      split; rewrite <- sumn_scal; apply sumn_ext; intros s Hs; rewrite X by exact Hs; rewrite sgnZ_sub; fold o; rewrite !TT by assumption; unfold sv, static_value; fold (l s) (l j); ring.
  Qed.

  (** the blocks at finite frequency, with powers of n k r removed *)
  Let y k := k * ra * refr (eps_spec e) (mu_val b) k.
  Definition rblocks (k : R) := blocks (n2 c m) (fun _ _ _ => 1) (rt_at c m k).
  Definition rescaled (M : mat) (k : R) (i j : nat) : R := y k ^ l j / y k ^ l i * M i j.
  Let q := sqrt (mu_val b 0).

  Lemma arg_facts : to0 (fun k => k * ra * refr (eps_spec e) (mu_val b) k) /\ to0 (fun k => k * rb * refr (eps_spec e) (mu_val b) k) /\ to0 (fun k => k * L * sqrt (eps_spec e k)) /\
    (forall k, 0 < k -> (k * ra * refr (eps_spec e) (mu_val b) k) / (k * L * sqrt (eps_spec e k)) = sqrt (mu_val b k) * (ra / L)) /\
    (forall k, 0 < k -> (k * rb * refr (eps_spec e) (mu_val b) k) / (k * L * sqrt (eps_spec e k)) = sqrt (mu_val b k) * (rb / L)) /\
    lim0 (fun k => sqrt (mu_val b k)) q.
  Proof.
    destruct HC as [_ [_ [CM [P1 [P2 P3]]]]]. fold L in P3. destruct (insulator_flags _ _ _ CM) as [_ [_ [_ [Hb [_ [Hh _]]]]]]. assert (X3 := to0_insulator _ _ _ L CM P3). destruct CM as [_ [HP [HN _]]].
    assert (T : forall r, 0 < r -> to0 (fun k => k * r * refr (eps_spec e) (mu_val b) k)).
    { intros r Hr. destruct (insulator_arg e b r Hr HP HN Hb) as [[A B] _]. split; [intros k Hk; replace (k * r * refr (eps_spec e) (mu_val b) k) with (refr (eps_spec e) (mu_val b) k * k * r) by ring; now apply A|].
      apply (lim0_ext (fun k => refr (eps_spec e) (mu_val b) k * k * r)); [intros; ring|exact B]. }
    assert (Q : forall r k, 0 < k -> (k * r * refr (eps_spec e) (mu_val b) k) / (k * L * sqrt (eps_spec e k)) = sqrt (mu_val b k) * (r / L)).
    { intros r k Hk. destruct (Hh k Hk). unfold refr. rewrite sqrt_mult by lra. field. repeat split; try lra. apply Rgt_not_eq. now apply sqrt_lt_R0. }
    split; [now apply T|]. split; [now apply T|]. split; [exact X3|]. split; [now apply Q|]. split; [now apply Q|].
    destruct (insulator_arg e b 1 Rlt_0_1 HP HN Hb) as [_ [_ [L2 [_ P]]]]. apply (lim0_comp sqrt); [|exact L2]. apply continuity_pt_sqrt. lra.
  Qed.

  Context (ate atm aln bte btm bln : list R).
  Context (RA : rows ate atm aln (mieA mie_bessels c) ra (c_lmax c)) (RB : rows bte btm bln (mieB mie_bessels c) rb (c_lssmax c)).
  Lemma term_limit (A B V V' : R -> R) i j s a b' v v' :
    lim0 (fun k => A k / (k * ra * refr (eps_spec e) (mu_val b) k) ^ (2 * l i + 1)) a ->
    lim0 (fun k => B k / (k * rb * refr (eps_spec e) (mu_val b) k) ^ (2 * l s + 1)) b' ->
    lim0 (fun k => (k * L * sqrt (eps_spec e k)) ^ (l i + l s + 1) * V k) v ->
    lim0 (fun k => (k * L * sqrt (eps_spec e k)) ^ (l j + l s + 1) * V' k) v' ->
    lim0 (fun k => y k ^ l j / y k ^ l i * (A k * (V k * B k * V' k))) (a * v * b' * v' * (q * (ra / L)) ^ (l i + l j + 1) * (q * (rb / L)) ^ (2 * l s + 1)).
  Proof.
    intros HA HB HV HV'. destruct arg_facts as [Y [W [X [YX [WX Q]]]]].
    apply (lim0_ext (fun k => (A k / (k * ra * refr (eps_spec e) (mu_val b) k) ^ (2 * l i + 1)) * ((k * L * sqrt (eps_spec e k)) ^ (l i + l s + 1) * V k)
       * (B k / (k * rb * refr (eps_spec e) (mu_val b) k) ^ (2 * l s + 1)) * ((k * L * sqrt (eps_spec e k)) ^ (l j + l s + 1) * V' k)
       * (sqrt (mu_val b k) * (ra / L)) ^ (l i + l j + 1) * (sqrt (mu_val b k) * (rb / L)) ^ (2 * l s + 1))).
    - intros k Hk. rewrite <- YX, <- WX by assumption. symmetry. unfold y. apply powers; [now apply X|now apply Y|now apply W].
    - repeat apply lim0_mult; try assumption; apply lim0_pow; (apply lim0_mult; [exact Q|apply lim0_const]).
  Qed.
  Lemma V_limits i s : (i < n1 c m)%nat -> (s < n2 c m)%nat -> let x k := k * L * sqrt (eps_spec e k) in
    lim0 (fun k => x k ^ (l i + l s + 1) * V0 (rt_at c m k) i s) (sv i s) /\ lim0 (fun k => x k ^ (l i + l s + 1) * V1 (rt_at c m k) i s) (sgn2 (l s) (l i) * sv i s) /\
    lim0 (fun k => x k ^ (l i + l s + 1) * V2 (rt_at c m k) i s) 0 /\ lim0 (fun k => x k ^ (l i + l s + 1) * V3 (rt_at c m k) i s) 0.
  Proof.
    intros Hi Hs x. destruct HC as [_ [_ [CM [P1 [P2 P3]]]]]. unfold sgn2. rewrite (Nat.add_comm (l s)).
    unfold rt_at, rt_with. cbn [V0 V1 V2 V3]. rewrite Hext. fold (l i) (l s).
    apply (C45_static_exterior (c_med c) e b L (c_lmax c) (c_lssmax c) (l i) (l s) m); [now left|exact P3|split; [apply l_pos|now apply i_lmax]|split; [apply l_pos|now apply s_lmax]|apply abs_m].
  Qed.
  Let alTE i := at_ ate (o + i) * exp (at_ aln (o + i)).
  Let alTM i := at_ atm (o + i) * exp (at_ aln (o + i)).
  Let beTE s := at_ bte (o + s) * exp (at_ bln (o + s)).
  Let beTM s := at_ btm (o + s) * exp (at_ bln (o + s)).
  Lemma block_limits i j : (i < n1 c m)%nat -> (j < n1 c m)%nat ->
    lim0 (fun k => rescaled (fst (fst (fst (rblocks k)))) k i j) (sblock q alTE beTE i j) /\
    lim0 (fun k => rescaled (snd (fst (fst (rblocks k)))) k i j) 0 /\
    lim0 (fun k => rescaled (snd (fst (rblocks k))) k i j) 0 /\
    lim0 (fun k => rescaled (snd (rblocks k)) k i j) (sblock q alTM beTM i j).
  Proof.
    intros Hi Hj. unfold rescaled, rblocks, blocks. cbn [fst snd].
    assert (HA : forall i, (i < n1 c m)%nat -> lim0 (fun k => aTE (rt_at c m k) i / (k * ra * refr (eps_spec e) (mu_val b) k) ^ (2 * l i + 1)) (alTE i) /\
                                 lim0 (fun k => aTM (rt_at c m k) i / (k * ra * refr (eps_spec e) (mu_val b) k) ^ (2 * l i + 1)) (alTM i)).
    { intros i0 H0. rewrite l_so. apply RA. generalize (i_lmax i0 H0). rewrite l_so. lia. }
    assert (HB : forall s, (s < n2 c m)%nat -> lim0 (fun k => bTE (rt_at c m k) s / (k * rb * refr (eps_spec e) (mu_val b) k) ^ (2 * l s + 1)) (beTE s) /\
                                 lim0 (fun k => bTM (rt_at c m k) s / (k * rb * refr (eps_spec e) (mu_val b) k) ^ (2 * l s + 1)) (beTM s)).
    { intros i0 H0. rewrite l_so. apply RB. generalize (s_lmax i0 H0). rewrite l_so. lia. }
    assert (SUM : forall (G : nat -> R -> R) (v : nat -> R) k0, (forall s, (s < n2 c m)%nat -> lim0 (fun k => y k ^ l j / y k ^ l i * G s k) (v s)) -> sumn (n2 c m) v = k0 ->
                    lim0 (fun k => y k ^ l j / y k ^ l i * sumn (n2 c m) (fun s => G s k)) k0).
    { intros G v k0 H E. rewrite <- E. apply (lim0_ext (fun k => sumn (n2 c m) (fun s => y k ^ l j / y k ^ l i * G s k))); [intros k _; apply sumn_scal|]. now apply lim0_sumn. }
    assert (Z : forall f : nat -> R, (forall s, f s = 0) -> sumn (n2 c m) f = 0).
    { intros f H. now apply sumn_zero. }
    assert (TT : forall (A B1 W1 W2 B2 W3 W4 : R -> R) s x1 x2, lim0 (fun k => y k ^ l j / y k ^ l i * (A k * (W1 k * B1 k * W2 k))) x1 -> lim0 (fun k => y k ^ l j / y k ^ l i * (A k * (W3 k * B2 k * W4 k))) x2 ->
       (s < n2 c m)%nat -> lim0 (fun k => y k ^ l j / y k ^ l i * (1 * A k * (W1 k * B1 k * W2 k + W3 k * B2 k * W4 k))) (x1 + x2)).
    { intros A B1 W1 W2 B2 W3 W4 s x1 x2 H1 H2 _. apply (lim0_ext (fun k => y k ^ l j / y k ^ l i * (A k * (W1 k * B1 k * W2 k)) + y k ^ l j / y k ^ l i * (A k * (W3 k * B2 k * W4 k)))); [intros k _; ring|]. now apply lim0_plus. }
    destruct (HA i Hi) as [A1 A2].
    split; [|split; [|split]].
    - eapply (SUM (fun s k => 1 * aTE (rt_at c m k) i * (V0 (rt_at c m k) i s * bTE (rt_at c m k) s * V1 (rt_at c m k) j s + V2 (rt_at c m k) i s * bTM (rt_at c m k) s * V3 (rt_at c m k) j s))).
      + intros s Hs. destruct (HB s Hs) as [B1 B2]. destruct (V_limits i s Hi Hs) as [v0 [v1 [v2 v3]]]. destruct (V_limits j s Hj Hs) as [w0 [w1 [w2 w3]]].
        apply (TT _ _ _ _ _ _ _ s); [apply (term_limit _ _ _ _ i j s _ _ _ _ A1 B1 v0 w1)|apply (term_limit _ _ _ _ i j s _ _ _ _ A1 B2 v2 w3)|exact Hs].
      + cbv beta. unfold sblock. apply sumn_ext. intros s Hs. ring.
    - eapply (SUM (fun s k => 1 * aTE (rt_at c m k) i * (V0 (rt_at c m k) i s * bTE (rt_at c m k) s * V3 (rt_at c m k) j s + V2 (rt_at c m k) i s * bTM (rt_at c m k) s * V1 (rt_at c m k) j s))).
      + intros s Hs. destruct (HB s Hs) as [B1 B2]. destruct (V_limits i s Hi Hs) as [v0 [v1 [v2 v3]]]. destruct (V_limits j s Hj Hs) as [w0 [w1 [w2 w3]]].
        apply (TT _ _ _ _ _ _ _ s); [apply (term_limit _ _ _ _ i j s _ _ _ _ A1 B1 v0 w3)|apply (term_limit _ _ _ _ i j s _ _ _ _ A1 B2 v2 w1)|exact Hs].
      + cbv beta. apply Z. intros s. ring.
    - eapply (SUM (fun s k => 1 * aTM (rt_at c m k) i * (V2 (rt_at c m k) i s * bTE (rt_at c m k) s * V1 (rt_at c m k) j s + V0 (rt_at c m k) i s * bTM (rt_at c m k) s * V3 (rt_at c m k) j s))).
      + intros s Hs. destruct (HB s Hs) as [B1 B2]. destruct (V_limits i s Hi Hs) as [v0 [v1 [v2 v3]]]. destruct (V_limits j s Hj Hs) as [w0 [w1 [w2 w3]]].
        apply (TT _ _ _ _ _ _ _ s); [apply (term_limit _ _ _ _ i j s _ _ _ _ A2 B1 v2 w1)|apply (term_limit _ _ _ _ i j s _ _ _ _ A2 B2 v0 w3)|exact Hs].
      + cbv beta. apply Z. intros s. ring.
    - eapply (SUM (fun s k => 1 * aTM (rt_at c m k) i * (V2 (rt_at c m k) i s * bTE (rt_at c m k) s * V3 (rt_at c m k) j s + V0 (rt_at c m k) i s * bTM (rt_at c m k) s * V1 (rt_at c m k) j s))).
      + intros s Hs. destruct (HB s Hs) as [B1 B2]. destruct (V_limits i s Hi Hs) as [v0 [v1 [v2 v3]]]. destruct (V_limits j s Hj Hs) as [w0 [w1 [w2 w3]]].
        apply (TT _ _ _ _ _ _ _ s); [apply (term_limit _ _ _ _ i j s _ _ _ _ A2 B1 v2 w3)|apply (term_limit _ _ _ _ i j s _ _ _ _ A2 B2 v0 w1)|exact Hs].
      + cbv beta. unfold sblock. apply sumn_ext. intros s Hs. ring.
  Qed.
End Ext.
