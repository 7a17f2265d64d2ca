(** * Round-trip expansion: proofs at the level of the model *)
From Coq Require Import Bool Reals List ZArith Arith Lia Lra.
From Verif Require Import Base Lin_Model Bal_Proofs.
Import ListNotations.
Open Scope R_scope.

(** the (j+1)-st power, its trace, the first N terms *)
Definition pw (r : nat) (A : mat) (j : nat) : mat := Nat.iter j (mmul r A) A.
Definition trp (r : nat) (A : mat) (j : nat) : R := mtrace r (pw r A j).
Definition part (r : nat) (A : mat) (N : nat) : R := sumn N (fun j => trp r A j / INR (S j)).

Lemma trips_sum M : forall c p s k,
  snd (trips M (fun k => pw (r3 M) (m3 M k) p) s (S p) c) k =
  s k + (part (r3 M) (m3 M k) (p + c) - part (r3 M) (m3 M k) p).
Proof.
  induction c as [|c IH]; intros p s k; cbn [trips snd].
  - rewrite Nat.add_0_r. ring.
  - change (fun k0 => mmul (r3 M) (m3 M k0) (pw (r3 M) (m3 M k0) p)) with (fun k0 => pw (r3 M) (m3 M k0) (S p)).
    rewrite IH. replace (S p + c)%nat with (p + S c)%nat by lia. unfold part at 4. cbn [sumn].
    unfold part at 2. cbn [sumn]. unfold part. ring_simplify. unfold trp. ring.
Qed.

Lemma int_order fuel precision M z : (1 <= z)%Z ->
  arbitrary_roundtrips fuel precision M (OInt z) =
  Some (Ok (Z.to_nat z, map (fun k => - part (r3 M) (m3 M k) (Z.to_nat z)) (seq 0 (d3 M)))).
Proof.
  intros Hz. unfold arbitrary_roundtrips. destruct (Z.ltb_spec z 1); [lia|].
  destruct (trips M (m3 M) (fun _ => 0) 1 (Z.to_nat z)) as [P s] eqn:E.
  f_equal. f_equal. f_equal. apply map_ext. intros k. f_equal.
  pose proof (trips_sum M (Z.to_nat z) 0 (fun _ => 0) k) as H0.
  change (fun k => pw (r3 M) (m3 M k) 0) with (fun k => m3 M k) in H0.
  change (fun k => m3 M k) with (m3 M) in H0. rewrite E in H0. cbn [snd] in H0. rewrite H0.
  unfold part at 2. cbn [sumn Nat.add]. ring.
Qed.
Lemma int_order_bad fuel precision M z : (z < 1)%Z -> arbitrary_roundtrips fuel precision M (OInt z) = Some (Err UnboundLocalError).
Proof. intros Hz. unfold arbitrary_roundtrips. destruct (Z.ltb_spec z 1); [reflexivity|lia]. Qed.

(** ** automatic mode *)
Definition terms_rel (M : arr3) (p : nat) (s : nat -> R) : list xr :=
  map (fun k => xabs (xdiv (Fin (trp (r3 M) (m3 M k) p / INR (S p))) (Fin (s k)))) (seq 0 (d3 M)).
Definition maxrel (l : list xr) : xr := match l with [] => NaN | x :: r => pymax x r end.

(** the loop is entered with the first [p+1] terms summed and n = p+2 *)
Lemma auto_spec prec M : forall fuel p s rel n s',
  (forall k, s k = part (r3 M) (m3 M k) (S p)) ->
  trips_auto fuel prec M (fun k => pw (r3 M) (m3 M k) p) s (S (S p)) rel = Some (Ok (n, s')) ->
  exists q, (p <= q)%nat /\ n = S (S q) /\ (forall k, s' k = part (r3 M) (m3 M k) (S q)) /\
    (q = p -> xltb (Fin prec) rel = false) /\
    (q <> p -> xltb (Fin prec) (maxrel (terms_rel M q s')) = false).
Proof.
  induction fuel as [|fuel IH]; intros p s rel n s' Hs H; [discriminate|]. cbn [trips_auto] in H.
  destruct (xltb (Fin prec) rel) eqn:E.
  - set (s1 := fun k => s k + mtrace (r3 M) (mmul (r3 M) (m3 M k) (pw (r3 M) (m3 M k) p)) / INR (S (S p))) in H.
    assert (Hs1 : forall k, s1 k = part (r3 M) (m3 M k) (S (S p))).
    { intros k. unfold s1. rewrite Hs. reflexivity. }
    change (map _ (seq 0 (d3 M))) with (terms_rel M (S p) s1) in H.
    destruct (terms_rel M (S p) s1) as [|x r] eqn:Er; [discriminate|].
    change (fun k => mmul (r3 M) (m3 M k) (pw (r3 M) (m3 M k) p)) with (fun k => pw (r3 M) (m3 M k) (S p)) in H.
    destruct (IH _ _ _ _ _ Hs1 H) as (q & Hq & -> & Hs' & H1 & H2).
    exists q. split; [lia|]. split; [reflexivity|]. split; [exact Hs'|]. split; [lia|]. intros _.
    destruct (Nat.eq_dec q (S p)) as [->|Hn]; [|now apply H2].
    replace (terms_rel M (S p) s') with (terms_rel M (S p) s1); [rewrite Er; now apply H1|].
    unfold terms_rel. apply map_ext. intros k. rewrite Hs1, Hs'. reflexivity.
  - injection H as <- <-. exists p. split; [lia|]. split; [reflexivity|]. split; [exact Hs|]. split; [auto|]. intros []. reflexivity.
Qed.

Lemma pymax_fin l : forall b, Forall (fun x => exists y, x = Fin y) l ->
  exists m, pymax (Fin b) l = Fin m /\ b <= m /\ (forall y, In (Fin y) l -> y <= m) /\ (m = b \/ In (Fin m) l).
Proof.
  induction l as [|x l IH]; intros b H; cbn [pymax].
  - exists b. split; [reflexivity|]. split; [lra|]. split; [intros y []|auto].
  - inversion H as [|? ? [y ->] H']; subst. unfold xltb at 1. cbn.
    destruct (Rltb_spec b y) as [Hb|Hb].
    + destruct (IH y H') as (m & -> & H1 & H2 & H3). exists m. split; [reflexivity|]. split; [lra|]. split.
      * intros z [E|Hz]; [injection E as ->; lra|auto].
      * right. destruct H3 as [->|H3]; [now left|now right].
    + destruct (IH b H') as (m & -> & H1 & H2 & H3). exists m. split; [reflexivity|]. split; [lra|]. split.
      * intros z [E|Hz]; [injection E as ->; lra|auto].
      * destruct H3 as [->|H3]; [now left|right; now right].
Qed.

Lemma rel_fin a b : b <> 0 -> xabs (xdiv (Fin a) (Fin b)) = Fin (Rabs (a / b)).
Proof.
  intros Hb. cbn. destruct (Reqb_spec b 0); [contradiction|]. reflexivity.
Qed.

Lemma maxrel_spec M p s : (0 < d3 M)%nat -> (forall k, (k < d3 M)%nat -> s k <> 0) ->
  exists m, maxrel (terms_rel M p s) = Fin m /\
    (forall k, (k < d3 M)%nat -> Rabs (trp (r3 M) (m3 M k) p / INR (S p) / s k) <= m) /\
    exists k, (k < d3 M)%nat /\ m = Rabs (trp (r3 M) (m3 M k) p / INR (S p) / s k).
Proof.
  intros Hd Hs. unfold terms_rel.
  assert (Hl : forall k, In k (seq 0 (d3 M)) -> (k < d3 M)%nat) by (intros k Hk; apply in_seq in Hk; lia).
  assert (Hl' : forall k, (k < d3 M)%nat -> In k (seq 0 (d3 M))) by (intros k Hk; apply in_seq; lia).
  destruct (seq 0 (d3 M)) as [|k0 l] eqn:E.
  { specialize (Hl' 0%nat Hd). destruct Hl'. }
  cbn [map maxrel]. rewrite rel_fin by (apply Hs, Hl; now left).
  destruct (pymax_fin (map (fun k => xabs (xdiv (Fin (trp (r3 M) (m3 M k) p / INR (S p))) (Fin (s k)))) l)
              (Rabs (trp (r3 M) (m3 M k0) p / INR (S p) / s k0))) as (m & -> & H1 & H2 & H3).
  { apply Forall_forall. intros x Hx. apply in_map_iff in Hx. destruct Hx as (k & <- & Hk).
    rewrite rel_fin by (apply Hs, Hl; now right). eauto. }
  exists m. split; [reflexivity|]. split.
  - intros k Hk. destruct (Hl' k Hk) as [<-|Hk']; [assumption|]. apply H2. apply in_map_iff. exists k. split; [|assumption].
    apply rel_fin. auto.
  - destruct H3 as [->|H3].
    + exists k0. split; [apply Hl; now left|reflexivity].
    + apply in_map_iff in H3. destruct H3 as (k & E' & Hk). exists k. split; [apply Hl; now right|].
      rewrite rel_fin in E' by (apply Hs, Hl; now right). congruence.
Qed.

Lemma auto_result fuel precision M n l : arbitrary_roundtrips fuel precision M OAuto = Some (Ok (n, l)) ->
  exists q, n = S (S q) /\ l = map (fun k => - part (r3 M) (m3 M k) (S q)) (seq 0 (d3 M)) /\
    (q = 0%nat -> 1 <= precision) /\
    (q <> 0%nat -> (0 < d3 M)%nat -> (forall k, (k < d3 M)%nat -> part (r3 M) (m3 M k) (S q) <> 0) ->
       forall k, (k < d3 M)%nat ->
       Rabs (trp (r3 M) (m3 M k) q / INR (S q)) <= precision * Rabs (part (r3 M) (m3 M k) (S q))).
Proof.
  unfold arbitrary_roundtrips. intros H.
  destruct (trips_auto _ _ _ _ _ _ _) as [[[n' s']|]|] eqn:E; try discriminate. injection H as <- <-.
  change (m3 M) with (fun k => pw (r3 M) (m3 M k) 0) in E at 1.
  apply auto_spec in E.
  - destruct E as (q & _ & -> & Hs & H1 & H2). exists q. split; [reflexivity|]. split.
    + apply map_ext. intros k. now rewrite Hs.
    + split.
      * intros Hq. specialize (H1 Hq). cbn in H1. destruct (Rltb_spec precision 1); [discriminate|lra].
      * intros Hq Hd Hne k Hk. specialize (H2 Hq).
        destruct (maxrel_spec M q s' Hd) as (m & Em & Hm & _); [intros j Hj; rewrite Hs; auto|].
        rewrite Em in H2. cbn in H2. destruct (Rltb_spec precision m) as [|Hp]; [discriminate|].
        specialize (Hm k Hk). rewrite Hs in Hm.
        assert (0 < Rabs (part (r3 M) (m3 M k) (S q))) by (apply Rabs_pos_lt; auto).
        replace (Rabs (trp (r3 M) (m3 M k) q / INR (S q))) with
          (Rabs (trp (r3 M) (m3 M k) q / INR (S q) / part (r3 M) (m3 M k) (S q)) * Rabs (part (r3 M) (m3 M k) (S q))).
        -- apply Rmult_le_compat_r; lra.
        -- rewrite <- Rabs_mult. f_equal. field. split; [apply not_0_INR; lia|auto].
  - intros k. unfold part. cbn [sumn]. change (trp (r3 M) (m3 M k) 0) with (mtrace (r3 M) (m3 M k)). change (INR 1) with 1. field.
Qed.

Section Positive.
Context (M : arr3) (t B : R) (Ht : 0 < t) (Hd : (0 < d3 M)%nat).
Context (H1 : forall k, (k < d3 M)%nat -> t <= trp (r3 M) (m3 M k) 0).
Context (Hp : forall k j, (k < d3 M)%nat -> 0 <= trp (r3 M) (m3 M k) j).

Lemma part_lower k N : (k < d3 M)%nat -> t <= part (r3 M) (m3 M k) (S N).
Proof.
  intros Hk. induction N as [|N IH].
  - unfold part. cbn [sumn]. change (INR 1) with 1. specialize (H1 k Hk). lra.
  - unfold part in *. cbn [sumn] in *. specialize (Hp k (S N) Hk).
    assert (0 < INR (S (S N))) by (apply lt_0_INR; lia).
    assert (0 <= trp (r3 M) (m3 M k) (S N) / INR (S (S N))) by (apply Rmult_le_pos; [assumption|left; now apply Rinv_0_lt_compat]).
    lra.
Qed.

Lemma auto_never prec fuel : prec < 0 -> arbitrary_roundtrips fuel prec M OAuto = None.
Proof.
  intros Hprec. unfold arbitrary_roundtrips.
  assert (G : forall fuel p s rel, (forall k, s k = part (r3 M) (m3 M k) (S p)) -> xltb (Fin prec) rel = true ->
    trips_auto fuel prec M (fun k => pw (r3 M) (m3 M k) p) s (S (S p)) rel = None).
  { clear fuel. induction fuel as [|fuel IH]; intros p s rel Hs Hr; [reflexivity|]. cbn [trips_auto]. rewrite Hr.
    set (s1 := fun k => s k + mtrace (r3 M) (mmul (r3 M) (m3 M k) (pw (r3 M) (m3 M k) p)) / INR (S (S p))).
    assert (Hs1 : forall k, s1 k = part (r3 M) (m3 M k) (S (S p))).
    { intros k. unfold s1. rewrite Hs. reflexivity. }
    change (map _ (seq 0 (d3 M))) with (terms_rel M (S p) s1).
    destruct (maxrel_spec M (S p) s1 Hd) as (m & Em & Hm & _).
    { intros k Hk. rewrite Hs1. pose proof (part_lower k (S p) Hk). lra. }
    destruct (terms_rel M (S p) s1) as [|x r] eqn:Er; [discriminate|]. apply (IH (S p) s1); [exact Hs1|]. cbn [maxrel] in Em. rewrite Em.
    cbn. destruct (Rltb_spec prec m) as [|Hn]; [reflexivity|]. specialize (Hm 0%nat Hd).
    pose proof (Rabs_pos (trp (r3 M) (m3 M 0) (S p) / INR (S (S p)) / s1 0%nat)). lra. }
  change (m3 M) with (fun k => pw (r3 M) (m3 M k) 0) at 1. rewrite G; [reflexivity| |].
  - intros k. unfold part. cbn [sumn]. change (trp (r3 M) (m3 M k) 0) with (mtrace (r3 M) (m3 M k)). change (INR 1) with 1. field.
  - cbn. destruct (Rltb_spec prec 1); [reflexivity|lra].
Qed.

Context (HB : forall k j, (k < d3 M)%nat -> trp (r3 M) (m3 M k) j <= B).

Lemma auto_terminates prec : 0 < prec -> exists N, forall fuel, (N <= fuel)%nat ->
  exists n l, arbitrary_roundtrips fuel prec M OAuto = Some (Ok (n, l)).
Proof.
  intros Hprec.
  assert (HB0 : 0 <= B) by (specialize (HB 0%nat 0%nat Hd); specialize (Hp 0%nat 0%nat Hd); lra).
  destruct (archimed (B / (prec * t))) as [Ha _]. set (z := up (B / (prec * t))) in *.
  set (K := Z.to_nat z).
  assert (Hpt : 0 < prec * t) by (apply Rmult_lt_0_compat; lra).
  assert (HK : B <= INR K * (prec * t)).
  { assert (0 <= B / (prec * t)) by (apply Rmult_le_pos; [lra|left; now apply Rinv_0_lt_compat]).
    assert (0 < IZR z) by lra. apply lt_IZR in H0. unfold K. rewrite INR_IZR_INZ, Z2Nat.id by lia.
    assert (B = B / (prec * t) * (prec * t)) by (field; lra). rewrite H2. apply Rmult_le_compat_r; lra. }
  assert (G : forall fuel p s rel, (forall k, s k = part (r3 M) (m3 M k) (S p)) -> (K + 2 <= S (S p) + fuel)%nat -> (2 <= fuel)%nat ->
    exists n l, trips_auto fuel prec M (fun k => pw (r3 M) (m3 M k) p) s (S (S p)) rel = Some (Ok (n, l))).
  { induction fuel as [|fuel IH]; intros p s rel Hs Hf H2; [lia|]. cbn [trips_auto].
    destruct (xltb (Fin prec) rel); [|eauto].
    set (s1 := fun k => s k + mtrace (r3 M) (mmul (r3 M) (m3 M k) (pw (r3 M) (m3 M k) p)) / INR (S (S p))).
    assert (Hs1 : forall k, s1 k = part (r3 M) (m3 M k) (S (S p))).
    { intros k. unfold s1. rewrite Hs. reflexivity. }
    change (map _ (seq 0 (d3 M))) with (terms_rel M (S p) s1).
    destruct (maxrel_spec M (S p) s1 Hd) as (m & Em & Hm & (k & Hk & Ek)).
    { intros k Hk. rewrite Hs1. pose proof (part_lower k (S p) Hk). lra. }
    destruct (terms_rel M (S p) s1) as [|x r] eqn:Er; [discriminate|].
    destruct (le_lt_dec 2 fuel) as [Hf2|Hf2].
    - apply (IH (S p) s1); [exact Hs1|lia|assumption].
    - assert (fuel = 1%nat) by lia. subst fuel. cbn [trips_auto].
      cbn [maxrel] in Em. rewrite Em. cbn [xltb]. destruct (Rltb_spec prec m) as [Hlt|]; [|eauto]. exfalso.
      rewrite Hs1 in Ek. pose proof (part_lower k (S p) Hk) as Hlow. specialize (Hp k (S p) Hk). specialize (HB k (S p) Hk).
      set (T := trp (r3 M) (m3 M k) (S p)) in *. set (S0 := part (r3 M) (m3 M k) (S (S p))) in *.
      assert (Hn : 0 < INR (S (S p))) by (apply lt_0_INR; lia).
      assert (INR K <= INR (S (S p))) by (apply le_INR; lia).
      rewrite Rabs_pos_eq in Ek.
      + assert (m * (INR (S (S p)) * S0) = T) by (rewrite Ek; field; lra).
        assert (prec * (INR (S (S p)) * S0) < T) by (rewrite <- H0; apply Rmult_lt_compat_r; [apply Rmult_lt_0_compat; lra|assumption]).
        assert (INR K * (prec * t) <= prec * (INR (S (S p)) * S0)).
        { replace (prec * (INR (S (S p)) * S0)) with (INR (S (S p)) * (prec * S0)) by ring.
          apply Rmult_le_compat; [apply pos_INR|lra|assumption|]. apply Rmult_le_compat_l; lra. }
        lra.
      + apply Rmult_le_pos; [apply Rmult_le_pos; [assumption|left; now apply Rinv_0_lt_compat]|left; apply Rinv_0_lt_compat; lra]. }
  exists (K + 2)%nat. intros fuel Hf. unfold arbitrary_roundtrips.
  change (m3 M) with (fun k => pw (r3 M) (m3 M k) 0) at 1.
  destruct (G fuel 0%nat (fun k => mtrace (r3 M) (m3 M k) / 1) (Fin 1)) as (n & l & ->); [|lia|lia|eauto].
  intros k. unfold part. cbn [sumn]. change (trp (r3 M) (m3 M k) 0) with (mtrace (r3 M) (m3 M k)). change (INR 1) with 1. field.
Qed.
End Positive.

(** ** the scaling exponents are proportional to l1 - l2 *)
Lemma single_k_form n ns M : exists kap, forall i j s,
  single_k_scale n ns M i j s = kap * (INR i - INR j) + M i j s.
Proof.
  unfold single_k_scale. destruct (Nat.eqb n 1).
  - exists 0. intros. ring.
  - set (o := argmax _ _). cbv zeta.
    set (K := Rabs (M 0%nat 0%nat o - Rmax (M 0%nat (n - 1)%nat o) (M (n - 1)%nat 0%nat o)) * (1 / (INR n - 1))).
    destruct (Rltb _ _); [exists (- K)|exists K]; intros; rewrite !S_INR; fold K; ring.
Qed.

(** entries of the array assembled by matrix_append *)
Lemma append_entries A B C D M : matrix_append [A; B; C; D] = Ok M ->
  d3 M = d3 A /\ r3 M = (r3 A + r3 A)%nat /\ c3 M = (c3 A + c3 A)%nat /\
  forall k i j, (i < r3 A)%nat -> (j < c3 A)%nat ->
  m3 M k i j = m3 A k i j /\ m3 M k i (c3 A + j)%nat = m3 B k i j /\
  m3 M k (r3 A + i)%nat j = m3 C k i j /\ m3 M k (r3 A + i)%nat (c3 A + j)%nat = m3 D k i j.
Proof.
  unfold matrix_append, shape3_eqb, append_cols, append_rows.
  destruct (Nat.eqb_spec (d3 A) (d3 B)) as [d1|]; [|discriminate].
  destruct (Nat.eqb_spec (r3 A) (r3 B)) as [e1|]; [|discriminate].
  destruct (Nat.eqb_spec (c3 A) (c3 B)) as [c1|]; [|discriminate].
  destruct (Nat.eqb_spec (d3 B) (d3 C)) as [d2|]; [|discriminate].
  destruct (Nat.eqb_spec (r3 B) (r3 C)) as [e2|]; [|discriminate].
  destruct (Nat.eqb_spec (c3 B) (c3 C)) as [c2|]; [|discriminate].
  destruct (Nat.eqb_spec (d3 C) (d3 D)) as [d4|]; [|discriminate].
  destruct (Nat.eqb_spec (r3 C) (r3 D)) as [e4|]; [|discriminate].
  destruct (Nat.eqb_spec (c3 C) (c3 D)) as [c4|]; [|discriminate].
  cbn [andb bind d3 r3 c3 m3].
  replace (d3 A =? d3 C)%nat with true by (symmetry; apply Nat.eqb_eq; lia).
  replace (c3 A + c3 B =? c3 C + c3 D)%nat with true by (symmetry; apply Nat.eqb_eq; lia).
  cbn [andb]. intros [= <-]. cbn [d3 r3 c3 m3]. split; [lia|split; [lia|split; [lia|]]].
  intros k i j hi hj.
  assert (L1 : (i <? r3 A)%nat = true) by (apply Nat.ltb_lt; lia).
  assert (L2 : (j <? c3 A)%nat = true) by (apply Nat.ltb_lt; lia).
  assert (L2' : (j <? c3 C)%nat = true) by (apply Nat.ltb_lt; lia).
  assert (L3 : (r3 A + i <? r3 A)%nat = false) by (apply Nat.ltb_ge; lia).
  assert (L4 : (c3 A + j <? c3 A)%nat = false) by (apply Nat.ltb_ge; lia).
  assert (L4' : (c3 A + j <? c3 C)%nat = false) by (apply Nat.ltb_ge; lia).
  rewrite L1, L2, L3, L4, L2', L4'.
  replace (r3 A + i - r3 A)%nat with i by lia.
  replace (c3 A + j - c3 A)%nat with j by lia. replace (c3 A + j - c3 C)%nat with j by lia.
  repeat split; reflexivity.
Qed.
