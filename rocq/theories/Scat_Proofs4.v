(** * Coated and stratified spheres: the arrays *)
From Coq Require Import Reals.
From Coquelicot Require Import Coquelicot.
From Coq Require Import Bool ZArith List Lia Lra Sorted.
From Verif Require Import Base Mat_Model Bessel_Model Bessel_Spec Bessel_Proofs Bessel_Proofs2 Scat_Model Scat_Spec Scat_Proofs Scat_Proofs2 Scat_Proofs3.
From Verif Require Misc_Model Misc_Proofs.
Import ListNotations.
Open Scope R_scope.

(** the shell formula for one element *)
Definition shellf (s p_i p_e id_i kd_i id_e kd_e e1 mi : R) : R :=
  s * (PI / 2) * ((kd_i * p_e - id_e * p_i) * (1 / (PI / 2)) * s * e1 * mi - (id_i * p_e - id_e * p_i)) /
  ((kd_i * p_e - kd_e * p_i) * (1 / (PI / 2)) * s * e1 * mi - (id_i * p_e - kd_e * p_i)).
Lemma sgn_sq l : sgn l * sgn l = 1.
Proof. unfold sgn. rewrite <- Rpow_mult_distr. replace (-1 * -1) with 1 by ring. apply pow1. Qed.
(** shell of the medium *)
Lemma shellf_medium l p id kd e1 mi : p <> 0 -> id <> kd -> shellf (sgn l) p p id kd id kd e1 mi = e1 * mi.
Proof.
  intros Hp Hd. unfold shellf. generalize PI_RGT_0 (sgn_sq l). set (s := sgn l). clearbody s. intros P S.
  replace ((kd * p - kd * p) * (1 / (PI / 2)) * s * e1 * mi - (id * p - kd * p)) with (- (p * (id - kd))) by ring.
  replace (id * p - id * p) with 0 by ring. rewrite Rminus_0_r.
  transitivity (s * s * (e1 * mi)); [field; repeat split; lra|rewrite S; ring].
Qed.
(** nothing inside the shell *)
Lemma shellf_0 l p_i p_e id_i kd_i id_e kd_e e1 : p_e * id_i - p_i * kd_e <> 0 ->
  shellf (sgn l) p_i p_e id_i kd_i id_e kd_e e1 0 = ratio_ext p_i p_e id_i id_e kd_e * (sgn l * PI * 0.5).
Proof.
  intros H. unfold shellf, ratio_ext. rewrite !Rmult_0_r. replace 0.5 with (/ 2) by lra. field.
  assumption.
Qed.

Section Coat.
  Context (bessels : list R -> nat -> Z -> res (list (list R) * list (list R))).
  Context (ks : list R) (l0 : nat) (lmax : Z).
  Context (Hks : forall k, In k ks -> 0 < k).
  Let nk := length ks.
  Let nl := Z.to_nat (lmax - Z.of_nat l0).
  Lemma coat_run r m1 m2 e1 u1 e2 u2 ive kve ivi kvi inner : has m1 e1 u1 -> has m2 e2 u2 ->
    bessels (xs (refr e2 u2) r ks) l0 lmax = Ok (ive, kve) -> bessels (xs (refr e1 u1) r ks) l0 lmax = Ok (ivi, kvi) ->
    exists c, coat bessels ks l0 lmax r m1 m2 inner = Val c /\ forall j q, (j < nl)%nat -> (q < nk)%nat ->
      let k := nth q ks 0 in let l := (l0 + 1 + j)%nat in
      let xi := k * r * refr e1 u1 k in let xe := k * r * refr e2 u2 k in
      let id_i := dI l xi (cell ivi j q) (cell ivi (S j) q) in
      let kd_i := dK l xi (cell kvi j q) (cell kvi (S j) q) in
      let id_e := dI l xe (cell ive j q) (cell ive (S j) q) in
      let kd_e := dK l xe (cell kve j q) (cell kve (S j) q) in
      let e := exp (cell kvi (S j) q - cell ivi (S j) q + scale_at inner j q) in
      te_at c j q = shellf (sgn l) (u1 k) (u2 k) id_i kd_i id_e kd_e e (te_at inner j q) /\
      tm_at c j q = shellf (sgn l) (e1 k) (e2 k) id_i kd_i id_e kd_e e (tm_at inner j q) /\
      scale_at c j q = cell ive (S j) q - cell kve (S j) q.
  Proof.
    intros [H1 [_ P1]] [H2 [_ P2]] Be Bi. destruct (H1 ks Hks) as [E1 U1]. destruct (H2 ks Hks) as [E2 U2]. destruct inner as [[tein tmin] insc].
    eexists. split.
    - unfold coat. rewrite E1, U1, E2, U2. cbn [obind]. rewrite !index_map, !times_map, Be, Bi. cbn [of_res obind]. reflexivity.
    - intros j q Hj Hq. fold nl nk. match goal with |- context [assemble nl nk ?f] => destruct (assemble_entries nl nk f j q Hj Hq) as [-> [-> ->]] end.
      cbn [fst snd]. rewrite !xs_nth, !at_map by assumption. repeat split; reflexivity.
  Qed.
  (** any Bessel values: a shell of the surrounding medium changes nothing *)
  Lemma coat_medium r m e u iv kv inner : 0 < r -> has m e u -> bessels (xs (refr e u) r ks) l0 lmax = Ok (iv, kv) ->
    exists c, coat bessels ks l0 lmax r m m inner = Val c /\
      forall j q, (j < nl)%nat -> (q < nk)%nat -> TE c j q = TE inner j q /\ TM c j q = TM inner j q.
  Proof.
    intros Hr Hm Hb. destruct (coat_run r m m e u e u iv kv iv kv inner Hm Hm Hb Hb) as [c [Ec Hc]]. exists c. split; [exact Ec|].
    intros j q Hj Hq. destruct (Hc j q Hj Hq) as [A [B C]]. cbv zeta in A, B.
    assert (Hk : 0 < nth q ks 0) by (apply Hks, nth_In; exact Hq). destruct Hm as [_ [Hm _]]. destruct (Hm _ Hk) as [He Hu].
    assert (Hx : 0 < nth q ks 0 * r * refr e u (nth q ks 0)).
    { apply Rmult_lt_0_compat; [now apply Rmult_lt_0_compat|]. apply sqrt_lt_R0. now apply Rmult_lt_0_compat. }
    assert (D : forall l x a b c d, 0 < x -> dI l x a b <> dK l x c d).
    { intros l x a b c' d Px. apply Rgt_not_eq. unfold dI, dK. generalize (exp_pos (a - b)) (exp_pos (c' - d)). intros X Y.
      assert (0 < x * exp (a - b)) by (now apply Rmult_lt_0_compat). assert (0 < x * exp (c' - d)) by (now apply Rmult_lt_0_compat). lra. }
    assert (N : forall a b, exp (a - b + scale_at inner j q) * exp (b - a) = exp (scale_at inner j q)).
    { intros a b. rewrite <- exp_plus. f_equal. ring. }
    unfold TE, TM. rewrite A, B, C. rewrite !shellf_medium by (lra || (apply D; exact Hx)).
    split; match goal with |- exp ?E * ?mi * exp ?F = _ => transitivity (mi * (exp E * exp F)); [ring|]; now rewrite N end.
  Qed.
  (** any Bessel values with nonzero denominators: a shell of the core material is the larger sphere *)
  Lemma coat_core ri ra m1 m3 e1 u1 e3 u3 ivo kvo ivi kvi ive kve : 0 < ri -> 0 < ra -> has m1 e1 u1 -> has m3 e3 u3 ->
    bessels (xs (refr e1 u1) ri ks) l0 lmax = Ok (ivo, kvo) ->
    bessels (xs (refr e1 u1) ra ks) l0 lmax = Ok (ivi, kvi) -> bessels (xs (refr e3 u3) ra ks) l0 lmax = Ok (ive, kve) ->
    (forall j q, (j < nl)%nat -> (q < nk)%nat -> 0 < dI (l0 + 1 + j) (nth q ks 0 * ra * refr e1 u1 (nth q ks 0)) (cell ivi j q) (cell ivi (S j) q)) ->
    exists c c', mie_coated bessels ks l0 lmax ri ra m1 m1 m3 = Val c /\ mie bessels ks l0 lmax ra m1 m3 = Val c' /\
      forall j q, (j < nl)%nat -> (q < nk)%nat -> te_at c j q = te_at c' j q /\ tm_at c j q = tm_at c' j q /\ scale_at c j q = scale_at c' j q.
  Proof.
    intros Hri Hra H1 H3 Bo Bi Be HD.
    destruct (mie_lossy_run bessels ks l0 lmax ri Hks m1 m1 e1 u1 e1 u1 _ _ _ _ H1 H1 Bo Bo) as [c1 [E1 C1]].
    destruct (mie_lossy_run bessels ks l0 lmax ra Hks m1 m3 e1 u1 e3 u3 _ _ _ _ H1 H3 Be Bi) as [c2 [E2 C2]].
    destruct (coat_run ra m1 m3 e1 u1 e3 u3 _ _ _ _ c1 H1 H3 Be Bi) as [c3 [E3 C3]].
    exists c3, c2. split; [unfold mie_coated; rewrite E1; exact E3|]. split; [exact E2|].
    intros j q Hj Hq. destruct (C1 j q Hj Hq) as [A1 [B1 _]]. destruct (C2 j q Hj Hq) as [A2 [B2 S2]]. destruct (C3 j q Hj Hq) as [A3 [B3 S3]].
    assert (Hk : 0 < nth q ks 0) by (apply Hks, nth_In; exact Hq).
    destruct H1 as [_ [H1 _]]. destruct (H1 _ Hk) as [He1 Hu1]. destruct H3 as [_ [H3 _]]. destruct (H3 _ Hk) as [He3 Hu3].
    assert (Z0 : forall p d dk, ratio_ext p p d d dk = 0) by (intros; unfold ratio_ext, Rdiv; ring).
    assert (Hx : 0 < nth q ks 0 * ra * refr e3 u3 (nth q ks 0)).
    { apply Rmult_lt_0_compat; [now apply Rmult_lt_0_compat|]. apply sqrt_lt_R0. now apply Rmult_lt_0_compat. }
    assert (DN : forall a b, dK (l0 + 1 + j) (nth q ks 0 * ra * refr e3 u3 (nth q ks 0)) a b < 0).
    { intros a b. unfold dK. assert (0 < nth q ks 0 * ra * refr e3 u3 (nth q ks 0) * exp (a - b)) by (apply Rmult_lt_0_compat; [assumption|apply exp_pos]). generalize (pos_INR (l0 + 1 + j)). lra. }
    rewrite A3, B3, S3, A2, B2, S2, A1, B1, !Z0, !Rmult_0_l.
    split; [|split; [|reflexivity]]; apply shellf_0; apply Rgt_not_eq; apply dpos; solve [assumption | apply HD; assumption | apply DN].
  Qed.
End Coat.

(** ** exact Bessel functions *)
Lemma shellf_step l p2 p3 n2 n3 k r m sc : 0 < p2 -> 0 < p3 -> 0 < n2 -> 0 < n3 -> 0 < k -> 0 < r -> good l (n2 * k * r) (m * exp sc) ->
  let x2 := n2 * k * r in let x3 := n3 * k * r in let L := S l in
  shellf (sgn L) p2 p3 (DI l x2) (DK l x2) (DI l x3) (DK l x3) (exp (ln (sph_k L x2) - ln (sph_i L x2) + sc)) m * exp (ln (sph_i L x3) - ln (sph_k L x3))
  = step_val l p2 p3 n2 n3 k r (m * exp sc).
Proof.
  intros Hp2 Hp3 Hn2 Hn3 Hk Hr HG x2 x3 L.
  assert (H2 : 0 < x2) by (unfold x2; repeat apply Rmult_lt_0_compat; assumption). assert (H3 : 0 < x3) by (unfold x3; repeat apply Rmult_lt_0_compat; assumption).
  generalize (sph_i_pos L x2 H2) (sph_k_pos L x2 H2) (sph_i_pos L x3 H3) (sph_k_pos L x3 H3) (sph_h_0 L x3 H3). intros I2 K2 I3 K3 N3.
  rewrite exp_plus, !exp_ln_diff by assumption.
  generalize (h_val l x2). fold L. intros HV. generalize (h_inv l x3 H3). fold L. intros HI.
  assert (E1 : forall a, a * (1 / (PI / 2)) * sgn L * (sph_k L x2 / sph_i L x2 * exp sc) * m = - a * (sph_h L x2 / sph_i L x2 * (m * exp sc))).
  { intros a. transitivity (a * (sgn L * 2 / PI * sph_k L x2) / sph_i L x2 * (m * exp sc)); [field; generalize PI_RGT_0; lra|]. rewrite HV. unfold Rdiv. ring. }
  unfold shellf. rewrite !E1. unfold step_val. fold x2 x3 L.
  generalize (den_pos l p2 p3 n2 n3 k r Hp2 Hp3 Hn3 Hk Hr (m * exp sc) HG). fold x2 x3. intros DP.
  set (M := m * exp sc) in *. unfold fval, gval in *. fold L in DP |- *.
  set (di2 := DI l x2) in *. set (dk2 := DK l x2) in *. set (di3 := DI l x3) in *. set (dk3 := DK l x3) in *.
  set (i2 := sph_i L x2) in *. set (h2 := sph_h L x2) in *. set (i3 := sph_i L x3) in *. set (h3 := sph_h L x3) in *. set (k3 := sph_k L x3) in *.
  assert (Dn : - (dk2 * p3 - dk3 * p2) * (h2 / i2 * M) - (di2 * p3 - dk3 * p2) = - (p3 * (di2 * i2 + M * (dk2 * h2)) - p2 * dk3 * (i2 + M * h2)) / i2) by (field; lra).
  assert (Nu : - (dk2 * p3 - di3 * p2) * (h2 / i2 * M) - (di2 * p3 - di3 * p2) = - (p3 * (di2 * i2 + M * (dk2 * h2)) - p2 * di3 * (i2 + M * h2)) / i2) by (field; lra).
  rewrite Dn, Nu.
  set (Z := p3 * (di2 * i2 + M * (dk2 * h2)) - p2 * di3 * (i2 + M * h2)) in *. set (N := p3 * (di2 * i2 + M * (dk2 * h2)) - p2 * dk3 * (i2 + M * h2)) in *.
  transitivity (sgn L * PI * 0.5 / k3 * i3 * (Z / N)).
  - replace 0.5 with (/ 2) by lra. clearbody Z N. field. repeat split; lra.
  - rewrite HI. unfold Rdiv. ring.
Qed.

Lemma refr_pos e u k : 0 < e k -> 0 < u k -> 0 < refr e u k.
Proof. intros. apply sqrt_lt_R0. now apply Rmult_lt_0_compat. Qed.
Lemma xs_length n r ks : length (xs n r ks) = length ks.
Proof. apply map_length. Qed.

Section Exact.
  Context (ks : list R) (l0 : nat) (lmax : Z).
  Context (Hks : forall k, In k ks -> 0 < k) (Hl : (Z.of_nat l0 <= lmax)%Z).
  Let nk := length ks.
  Let nl := Z.to_nat (lmax - Z.of_nat l0).
  Definition cvals (c : coefs) (fe fm : nat -> nat -> R) : Prop :=
    forall j q, (j < nl)%nat -> (q < nk)%nat -> TE c j q = fe j q /\ TM c j q = fm j q.
  Lemma exact_cells n r : exists iv kv, exact_bessels (xs n r ks) l0 lmax = Ok (iv, kv) /\
    forall j q, (j < nl)%nat -> (q < nk)%nat -> let x := nth q ks 0 * r * n (nth q ks 0) in
      cell iv j q = ln (sph_i (l0 + j) x) /\ cell iv (S j) q = ln (sph_i (S (l0 + j)) x) /\
      cell kv j q = ln (sph_k (l0 + j) x) /\ cell kv (S j) q = ln (sph_k (S (l0 + j)) x).
  Proof.
    destruct (exact_ok (xs n r ks) l0 lmax Hl) as [iv [kv [E H]]]. exists iv, kv. split; [exact E|]. intros j q Hj Hq x.
    assert (X : nth q (xs n r ks) 0 = x) by (apply xs_nth; exact Hq). rewrite xs_length in H.
    destruct (H j q) as [A B]; [unfold nl in Hj; lia|exact Hq|]. destruct (H (S j) q) as [C D]; [unfold nl in Hj; lia|exact Hq|].
    rewrite X in *. replace (l0 + S j)%nat with (S (l0 + j)) in * by lia. repeat split; assumption.
  Qed.
  Definition ix (e u : R -> R) (q : nat) : R := refr e u (nth q ks 0).
  Lemma kpos q : (q < nk)%nat -> 0 < nth q ks 0.
  Proof. intros H. apply Hks, nth_In. exact H. Qed.
  Lemma mie_exact r m1 m2 e1 u1 e2 u2 : 0 < r -> has m1 e1 u1 -> has m2 e2 u2 ->
    exists c, mie exact_bessels ks l0 lmax r m1 m2 = Val c /\
      cvals c (fun j q => let k := nth q ks 0 in ext_val (l0 + j) (u1 k) (u2 k) (ix e1 u1 q) (ix e2 u2 q) k r)
              (fun j q => let k := nth q ks 0 in ext_val (l0 + j) (e1 k) (e2 k) (ix e1 u1 q) (ix e2 u2 q) k r).
  Proof.
    intros Hr H1 H2. destruct (exact_cells (refr e1 u1) r) as [ivi [kvi [Bi Ci]]]. destruct (exact_cells (refr e2 u2) r) as [ive [kve [Be Ce]]].
    destruct (mie_lossy_run exact_bessels ks l0 lmax r Hks m1 m2 e1 u1 e2 u2 _ _ _ _ H1 H2 Be Bi) as [c [E C]]. exists c. split; [exact E|].
    intros j q Hj Hq. destruct (C j q Hj Hq) as [A [B S0]]. destruct (Ci j q Hj Hq) as [I1 [I2 _]]. destruct (Ce j q Hj Hq) as [J1 [J2 [J3 J4]]].
    cbv zeta in *. unfold TE, TM. rewrite A, B, S0, I1, I2, J1, J2, J3, J4. unfold ext_val, DI, DK, ix.
    set (k := nth q ks 0). replace (l0 + 1 + j)%nat with (S (l0 + j)) by lia.
    replace (refr e1 u1 k * k * r) with (k * r * refr e1 u1 k) by ring. replace (refr e2 u2 k * k * r) with (k * r * refr e2 u2 k) by ring. split; reflexivity.
  Qed.
  Lemma mie_int_exact r m1 m2 e1 u1 e2 u2 : 0 < r -> has m1 e1 u1 -> has m2 e2 u2 ->
    exists c, mie_internal exact_bessels ks l0 lmax r m1 m2 = Val c /\
      cvals c (fun j q => let k := nth q ks 0 in int_val (l0 + j) (u1 k) (u2 k) (ix e1 u1 q) (ix e2 u2 q) k r)
              (fun j q => let k := nth q ks 0 in int_val (l0 + j) (e1 k) (e2 k) (ix e1 u1 q) (ix e2 u2 q) k r).
  Proof.
    intros Hr H1 H2. destruct (exact_cells (refr e1 u1) r) as [ivi [kvi [Bi Ci]]]. destruct (exact_cells (refr e2 u2) r) as [ive [kve [Be Ce]]].
    destruct (mie_int_run exact_bessels ks l0 lmax r Hks m1 m2 e1 u1 e2 u2 _ _ _ _ H1 H2 Be Bi) as [c [E C]]. exists c. split; [exact E|].
    intros j q Hj Hq. destruct (C j q Hj Hq) as [A [B S0]]. destruct (Ci j q Hj Hq) as [I1 [I2 [I3 I4]]]. destruct (Ce j q Hj Hq) as [J1 [J2 [J3 J4]]].
    cbv zeta in *. unfold TE, TM. rewrite A, B, S0, I1, I2, I3, I4, J3, J4. unfold int_val, DI, DK, ix.
    set (k := nth q ks 0). replace (l0 + 1 + j)%nat with (S (l0 + j)) by lia.
    replace (refr e1 u1 k * k * r) with (k * r * refr e1 u1 k) by ring. replace (refr e2 u2 k * k * r) with (k * r * refr e2 u2 k) by ring. split; reflexivity.
  Qed.
  Lemma mie_pec_exact r m2 e2 u2 : 0 < r -> has m2 e2 u2 ->
    exists c, mie exact_bessels ks l0 lmax r PEC m2 = Val c /\
      cvals c (fun j q => let k := nth q ks 0 in sgn (S (l0 + j)) * PI * 0.5 * pec_scale (l0 + j) (ix e2 u2 q) k r)
              (fun j q => let k := nth q ks 0 in let x := ix e2 u2 q * k * r in
                          sgn (S (l0 + j)) * PI * 0.5 * DI (l0 + j) x / DK (l0 + j) x * pec_scale (l0 + j) (ix e2 u2 q) k r).
  Proof.
    intros Hr H2. destruct (exact_cells (refr e2 u2) r) as [ive [kve [Be Ce]]].
    destruct (mie_pec_run exact_bessels ks l0 lmax r Hks m2 e2 u2 _ _ H2 Be) as [c [E C]]. exists c. split; [exact E|].
    intros j q Hj Hq. destruct (C j q Hj Hq) as [A [B S0]]. destruct (Ce j q Hj Hq) as [J1 [J2 [J3 J4]]].
    cbv zeta in *. unfold TE, TM. rewrite A, B, S0, J1, J2, J3, J4. unfold pec_scale, DI, DK, ix.
    set (k := nth q ks 0). replace (l0 + 1 + j)%nat with (S (l0 + j)) by lia.
    replace (refr e2 u2 k * k * r) with (k * r * refr e2 u2 k) by ring. split; reflexivity.
  Qed.
  Lemma mie_pec_int_exact r m1 e1 u1 : 0 < r -> has m1 e1 u1 ->
    exists c, mie_internal exact_bessels ks l0 lmax r m1 PEC = Val c /\
      cvals c (fun j q => let k := nth q ks 0 in sgn (S (l0 + j)) * 2 / PI * pec_scale_int (l0 + j) (ix e1 u1 q) k r)
              (fun j q => let k := nth q ks 0 in let x := ix e1 u1 q * k * r in
                          sgn (S (l0 + j)) * 2 / PI * (DK (l0 + j) x / DI (l0 + j) x) * pec_scale_int (l0 + j) (ix e1 u1 q) k r).
  Proof.
    intros Hr H2. destruct (exact_cells (refr e1 u1) r) as [ive [kve [Be Ce]]].
    destruct (mie_pec_int_run exact_bessels ks l0 lmax r Hks m1 e1 u1 _ _ H2 Be) as [c [E C]]. exists c. split; [exact E|].
    intros j q Hj Hq. destruct (C j q Hj Hq) as [A [B S0]]. destruct (Ce j q Hj Hq) as [J1 [J2 [J3 J4]]].
    cbv zeta in *. unfold TE, TM. rewrite A, B, S0, J1, J2, J3, J4. unfold pec_scale_int, DI, DK, ix.
    set (k := nth q ks 0). replace (l0 + 1 + j)%nat with (S (l0 + j)) by lia.
    replace (refr e1 u1 k * k * r) with (k * r * refr e1 u1 k) by ring. split; reflexivity.
  Qed.
  Lemma coat_exact r m1 m2 e1 u1 e2 u2 inner fe fm : 0 < r -> has m1 e1 u1 -> has m2 e2 u2 -> cvals inner fe fm ->
    (forall j q, (j < nl)%nat -> (q < nk)%nat -> good (l0 + j) (ix e1 u1 q * nth q ks 0 * r) (fe j q) /\ good (l0 + j) (ix e1 u1 q * nth q ks 0 * r) (fm j q)) ->
    exists c, coat exact_bessels ks l0 lmax r m1 m2 inner = Val c /\
      cvals c (fun j q => let k := nth q ks 0 in step_val (l0 + j) (u1 k) (u2 k) (ix e1 u1 q) (ix e2 u2 q) k r (fe j q))
              (fun j q => let k := nth q ks 0 in step_val (l0 + j) (e1 k) (e2 k) (ix e1 u1 q) (ix e2 u2 q) k r (fm j q)).
  Proof.
    intros Hr H1 H2 Hin HG. destruct (exact_cells (refr e1 u1) r) as [ivi [kvi [Bi Ci]]]. destruct (exact_cells (refr e2 u2) r) as [ive [kve [Be Ce]]].
    destruct (coat_run exact_bessels ks l0 lmax Hks r m1 m2 e1 u1 e2 u2 _ _ _ _ inner H1 H2 Be Bi) as [c [E C]]. exists c. split; [exact E|].
    intros j q Hj Hq. destruct (C j q Hj Hq) as [A [B S0]]. destruct (Ci j q Hj Hq) as [I1 [I2 [I3 I4]]]. destruct (Ce j q Hj Hq) as [J1 [J2 [J3 J4]]].
    destruct (Hin j q Hj Hq) as [T1 T2]. destruct (HG j q Hj Hq) as [G1 G2]. generalize (kpos q Hq). intros Hk.
    destruct H1 as [_ [H1 _]]. destruct (H1 _ Hk) as [He1 Hu1]. destruct H2 as [_ [H2 _]]. destruct (H2 _ Hk) as [He2 Hu2].
    cbv zeta in *. rewrite <- T1 in G1 |- *. rewrite <- T2 in G2 |- *. unfold TE in *. unfold TM in *. rewrite A, B, S0, I1, I2, I3, I4, J1, J2, J3, J4.
    generalize (shellf_step (l0 + j) _ _ _ _ _ _ _ _ Hu1 Hu2 (refr_pos e1 u1 _ He1 Hu1) (refr_pos e2 u2 _ He2 Hu2) Hk Hr G1).
    generalize (shellf_step (l0 + j) _ _ _ _ _ _ _ _ He1 He2 (refr_pos e1 u1 _ He1 Hu1) (refr_pos e2 u2 _ He2 Hu2) Hk Hr G2).
    cbv zeta. unfold ix. set (k := nth q ks 0) in *. replace (l0 + 1 + j)%nat with (S (l0 + j)) by lia.
    replace (refr e1 u1 k * k * r) with (k * r * refr e1 u1 k) by ring. replace (refr e2 u2 k * k * r) with (k * r * refr e2 u2 k) by ring.
    intros <- <-. split; reflexivity.
  Qed.
  (** the loop over the shells *)
  Context (mat : nat -> material) (ef uf : nat -> R -> R).
  Notation refr_of := (Scat_Spec.refr_of ef uf). Notation lte := (Scat_Spec.lte ef uf). Notation ltm := (Scat_Spec.ltm ef uf).
  Notation cl := (Misc_Model.coat_loop (fun ri ra m2 m3 inner => Ok (let! c := inner in coat exact_bessels ks l0 lmax ra (mat m2) (mat m3) c))).
  Lemma loop_exact : forall rs ri m ms c fe fm, length rs = length ms -> (forall m', In m' (m :: ms) -> has (mat m') (ef m') (uf m')) ->
    0 < ri -> Sorted Rle (ri :: rs) -> cvals c fe fm ->
    (rs = [] \/ forall j q r1, (j < nl)%nat -> (q < nk)%nat -> hd_error rs = Some r1 ->
       good (l0 + j) (refr_of m (nth q ks 0) * nth q ks 0 * r1) (fe j q) /\ good (l0 + j) (refr_of m (nth q ks 0) * nth q ks 0 * r1) (fm j q)) ->
    exists c', cl ri rs (m :: ms) (Val c) = Ok (Val c') /\
      cvals c' (fun j q => let k := nth q ks 0 in chain_val (l0 + j) k (uf m k) (refr_of m k) (fe j q) (lte k rs ms))
               (fun j q => let k := nth q ks 0 in chain_val (l0 + j) k (ef m k) (refr_of m k) (fm j q) (ltm k rs ms)).
  Proof.
    induction rs as [|r rs IH]; intros ri m ms c fe fm Hlen Hm Hri Hs Hc HG.
    - destruct ms; [|discriminate]. exists c. split; [reflexivity|exact Hc].
    - destruct ms as [|m3 ms]; [discriminate|]. destruct HG as [HG|HG]; [discriminate|].
      inversion Hs as [|? ? Hs1 Hs2]; subst. inversion Hs2; subst.
      assert (M2 := Hm m (or_introl eq_refl)). assert (M3 := Hm m3 (or_intror (or_introl eq_refl))). assert (Hr : 0 < r) by lra.
      destruct (coat_exact r (mat m) (mat m3) _ _ _ _ c fe fm Hr M2 M3 Hc) as [c1 [E1 C1]]; [intros j q Hj Hq; now apply HG|].
      destruct (IH r m3 ms c1 _ _ ltac:(cbn in Hlen; lia) ltac:(intros m' Hm'; apply Hm; now right) Hr Hs1 C1) as [c2 [E2 C2]].
      { destruct rs as [|r2 rs]; [now left|right]. intros j q r' Hj Hq Hr'. injection Hr' as <-. cbv zeta.
        destruct (HG j q r Hj Hq eq_refl) as [G1 G2]. generalize (kpos q Hq). intros Hk.
        destruct M2 as [_ [M2 _]]. destruct (M2 _ Hk) as [He1 Hu1]. destruct M3 as [_ [M3 _]]. destruct (M3 _ Hk) as [He2 Hu2].
        inversion Hs1 as [|? ? _ Hs3]; subst. inversion Hs3; subst.
        assert (P3 := refr_pos _ _ _ He2 Hu2).
        split; (apply good_scale with r; [exact P3|exact Hk|exact Hr|assumption|]); apply step_good; assumption. }
      exists c2. split; [|exact C2]. cbn [Misc_Model.coat_loop bind obind]. rewrite E1. exact E2.
  Qed.
End Exact.
