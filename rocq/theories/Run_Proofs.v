(** * Round-trip matrices for many frequencies at once *)
From Coq Require Import Reals.
From Coquelicot Require Import Coquelicot.
From Coq Require Import Bool ZArith List Lia Lra.
From Verif Require Import Base Mat_Model Mat_Spec Mat_Proofs Help_Proofs Bessel_Model Bessel_Spec Bessel_Proofs Bessel_Proofs2 Bessel_Proofs3 Bessel_Proofs4 Bessel_Proofs5 Bessel_Proofs6
  Scat_Model Scat_Spec Scat_Proofs Scat_Proofs2 Scat_Proofs6 Trans_Model Trans_Spec Trans_Proofs Trans_Proofs5 Trans_Props Lin_Model RT_Model RT_Spec RT_Proofs3 Run_Spec.
Import ListNotations.
Open Scope R_scope.

(** ** instances *)
Lemma exact_elementwise n x : elementwise exact_bessels n x.
Proof.
  destruct (exact_ok x 0 (Z.of_nat n) ltac:(lia)) as [iv [kv [E H]]]. exists iv, kv. split; [exact E|]. intros q Hq.
  destruct (exact_ok [nth q x 0] 0 (Z.of_nat n) ltac:(lia)) as [iv1 [kv1 [E1 H1]]]. exists iv1, kv1. split; [exact E1|]. intros j Hj.
  destruct (H j q ltac:(lia) Hq) as [-> ->]. destruct (H1 j 0%nat ltac:(lia) ltac:(cbn; lia)) as [-> ->]. split; reflexivity.
Qed.
Lemma last_in (x : list R) : x <> [] -> In (last x 0) x.
Proof. induction x as [|a x IH]; [congruence|]. intros _. destruct x as [|b x]; [now left|]. right. apply IH. discriminate. Qed.

Lemma lni_all_nth x n j : (j <= n)%nat -> nth j (lni_all x n) [] = match j with O => fst (i01 x) | 1%nat => snd (i01 x) | _ => lni_col x j end.
Proof.
  intros H. unfold lni_all. destruct j as [|[|j]]; [reflexivity|destruct n; [lia|reflexivity]|].
  rewrite firstn_all2 by (cbn [length]; rewrite map_length, seq_length; lia). cbn [nth].
  rewrite (nth_indep _ [] (lni_col x 0)) by (rewrite map_length, seq_length; lia). now rewrite map_nth, seq_nth by lia.
Qed.
Lemma code_elementwise n x : x <> [] -> (forall t, In t x -> 0 < t) -> one_regime x -> elementwise mie_bessels n x.
Proof.
  intros Hx Hp [Hs Hl]. destruct (mie_cells x 0 n Hx Hp ltac:(lia)) as [iv [kv [E H]]]. exists iv, kv. split; [exact E|]. intros q Hq.
  set (t := nth q x 0). assert (Ht : In t x) by now apply nth_In. assert (P1 : pos_all [t]) by (intros y [<-|[]]; now apply Hp).
  destruct (mie_cells [t] 0 n ltac:(discriminate) P1 ltac:(lia)) as [iv1 [kv1 [E1 H1]]]. exists iv1, kv1. split; [exact E1|]. intros j Hj.
  destruct (H j q ltac:(lia) Hq) as [-> ->]. destruct (H1 j 0%nat ltac:(lia) ltac:(cbn; lia)) as [-> ->]. split; [|reflexivity].
  cbn [Nat.add]. rewrite !lni_all_nth by exact Hj.
  assert (M : nmax x = nmax [t]).
  { unfold nmax. cbn [last]. assert (L := last_in x Hx). destruct Hl as [Hl|Hl]; assert (A := Hl _ L); assert (B := Hl _ Ht);
      destruct (Rltb_spec 100 (last x 0)), (Rltb_spec 100 t); try reflexivity; exfalso; lra. }
  assert (I : exists f g, i01 x = (map f x, map g x) /\ i01 [t] = ([f t], [g t])).
  { destruct Hs as [Hs|Hs].
    - exists i0lg, i1lg. split; [now apply i01_large|]. apply (i01_large [t]). intros y [<-|[]]. now apply Hs.
    - exists i0sm, i1sm. split; [now apply i01_small|]. apply (i01_small [t]). intros y [<-|[]]. now apply Hs. }
  destruct I as [f [g [I1 I2]]]. rewrite I1, I2. destruct j as [|[|j]]; cbn [fst snd].
  - now rewrite (nth_map_in _ x q 0 0).
  - now rewrite (nth_map_in _ x q 0 0).
  - unfold lni_col. rewrite M. now rewrite (nth_map_in _ x q 0 0).
Qed.
Lemma exact_at c ks : trans_at c ks -> elementwise_at exact_bessels c ks.
Proof. intros T. split; [|exact T]. intros m r n e u _ _. apply exact_elementwise. Qed.
Lemma trans_at_ext c ks : c_ext c = true -> trans_at c ks.
Proof. now left. Qed.
(** one wavenumber at a time *)
Lemma trans_at_one c k : 0 < k -> 0 < c_L c -> trans_at c [k].
Proof.
  intros Hk HL. right. intros e u [_ [P _]]. destruct (P k Hk) as [Q1 Q2]. assert (H : 0 < k * c_L c * sqrt (e k)) by (repeat apply Rmult_lt_0_compat; try assumption; now apply sqrt_lt_R0).
  cbn [map]. apply code_elementwise; [discriminate|now intros t [<-|[]]|]. split.
  - destruct (Rle_lt_dec 1e-3 (k * c_L c * sqrt (e k))); [left|right]; now intros t [<-|[]].
  - destruct (Rle_lt_dec (k * c_L c * sqrt (e k)) 100); [left|right]; now intros t [<-|[]].
Qed.

(** ** Mie coefficients *)
Section Mie.
  Context (mieb : list R -> nat -> Z -> res (list (list R) * list (list R))) (ks : list R) (n : nat) (r : R).
  Context (Hks : forall k, In k ks -> 0 < k).
  Definition entrywise (A : coefs) (q : nat) (A1 : coefs) : Prop :=
    forall j, (j < n)%nat -> te_at A j q = te_at A1 j 0 /\ tm_at A j q = tm_at A1 j 0 /\ scale_at A j q = scale_at A1 j 0.
  Lemma xs_one f q : (q < length ks)%nat -> xs f r [nth q ks 0] = [nth q (xs f r ks) 0].
  Proof. intros Hq. cbn. f_equal. symmetry. now apply (xs_nth f r ks q). Qed.
  Lemma xs_len f : length (xs f r ks) = length ks.
  Proof. apply map_length. Qed.
  Lemma one_pos q : (q < length ks)%nat -> forall k, In k [nth q ks 0] -> 0 < k.
  Proof. intros Hq k [<-|[]]. now apply Hks, nth_In. Qed.
  Lemma cells_at f : elementwise mieb n (xs f r ks) -> exists iv kv, mieb (xs f r ks) 0%nat (Z.of_nat n) = Ok (iv, kv) /\
    forall q, (q < length ks)%nat -> exists iv1 kv1, mieb (xs f r [nth q ks 0]) 0%nat (Z.of_nat n) = Ok (iv1, kv1) /\
      forall j, (j <= n)%nat -> cell iv j q = cell iv1 j 0 /\ cell kv j q = cell kv1 j 0.
  Proof.
    intros [iv [kv [E H]]]. exists iv, kv. split; [exact E|]. intros q Hq. destruct (H q) as [iv1 [kv1 H1]]; [now rewrite xs_len|].
    exists iv1, kv1. now rewrite xs_one.
  Qed.
  Lemma mie_many m1 m2 e2 u2 : solid_ok m1 -> has m2 e2 u2 -> elementwise mieb n (xs (refr e2 u2) r ks) ->
    (forall e u, has m1 e u -> elementwise mieb n (xs (refr e u) r ks)) ->
    exists A, mie mieb ks 0 (Z.of_nat n) r m1 m2 = Val A /\ forall q, (q < length ks)%nat ->
      exists A1, mie mieb [nth q ks 0] 0 (Z.of_nat n) r m1 m2 = Val A1 /\ entrywise A q A1.
  Proof.
    intros H1 H2 Be Bi. destruct (cells_at _ Be) as [ive [kve [Ee Ce]]].
    destruct H1 as [->|[e1 [u1 H1]]].
    - destruct (mie_pec_run mieb ks 0 (Z.of_nat n) r Hks m2 e2 u2 _ _ H2 Ee) as [A [EA FA]]. exists A. split; [exact EA|]. intros q Hq.
      destruct (Ce q Hq) as [ive1 [kve1 [Ee1 Fe]]].
      destruct (mie_pec_run mieb _ 0 (Z.of_nat n) r (one_pos q Hq) m2 e2 u2 _ _ H2 Ee1) as [A1 [EA1 FA1]]. exists A1. split; [exact EA1|]. intros j Hj.
      destruct (FA j q ltac:(lia) Hq) as [-> [-> ->]]. destruct (FA1 j 0%nat ltac:(lia) ltac:(cbn; lia)) as [-> [-> ->]]. cbn [nth].
      destruct (Fe j ltac:(lia)) as [-> ->]. destruct (Fe (S j) ltac:(lia)) as [-> ->]. repeat split; reflexivity.
    - destruct (cells_at _ (Bi e1 u1 H1)) as [ivi [kvi [Ei Ci]]].
      destruct (mie_lossy_run mieb ks 0 (Z.of_nat n) r Hks m1 m2 e1 u1 e2 u2 _ _ _ _ H1 H2 Ee Ei) as [A [EA FA]]. exists A. split; [exact EA|]. intros q Hq.
      destruct (Ce q Hq) as [ive1 [kve1 [Ee1 Fe]]]. destruct (Ci q Hq) as [ivi1 [kvi1 [Ei1 Fi]]].
      destruct (mie_lossy_run mieb _ 0 (Z.of_nat n) r (one_pos q Hq) m1 m2 e1 u1 e2 u2 _ _ _ _ H1 H2 Ee1 Ei1) as [A1 [EA1 FA1]]. exists A1. split; [exact EA1|]. intros j Hj.
      destruct (FA j q ltac:(lia) Hq) as [-> [-> ->]]. destruct (FA1 j 0%nat ltac:(lia) ltac:(cbn; lia)) as [-> [-> ->]]. cbn [nth].
      destruct (Fe j ltac:(lia)) as [X1 X2]. destruct (Fe (S j) ltac:(lia)) as [X3 X4]. destruct (Fi j ltac:(lia)) as [Y1 Y2]. destruct (Fi (S j) ltac:(lia)) as [Y3 Y4].
      rewrite ?X1, ?X2, ?X3, ?X4, ?Y1, ?Y2, ?Y3, ?Y4. repeat split; reflexivity.
  Qed.
  Lemma mie_int_many m1 m2 e1 u1 : solid_ok m2 -> has m1 e1 u1 -> elementwise mieb n (xs (refr e1 u1) r ks) ->
    (forall e u, has m2 e u -> elementwise mieb n (xs (refr e u) r ks)) ->
    exists A, mie_internal mieb ks 0 (Z.of_nat n) r m1 m2 = Val A /\ forall q, (q < length ks)%nat ->
      exists A1, mie_internal mieb [nth q ks 0] 0 (Z.of_nat n) r m1 m2 = Val A1 /\ entrywise A q A1.
  Proof.
    intros H2 H1 Bi Be. destruct (cells_at _ Bi) as [ivi [kvi [Ei Ci]]].
    destruct H2 as [->|[e2 [u2 H2]]].
    - destruct (mie_pec_int_run mieb ks 0 (Z.of_nat n) r Hks m1 e1 u1 _ _ H1 Ei) as [A [EA FA]]. exists A. split; [exact EA|]. intros q Hq.
      destruct (Ci q Hq) as [ive1 [kve1 [Ee1 Fe]]].
      destruct (mie_pec_int_run mieb _ 0 (Z.of_nat n) r (one_pos q Hq) m1 e1 u1 _ _ H1 Ee1) as [A1 [EA1 FA1]]. exists A1. split; [exact EA1|]. intros j Hj.
      destruct (FA j q ltac:(lia) Hq) as [-> [-> ->]]. destruct (FA1 j 0%nat ltac:(lia) ltac:(cbn; lia)) as [-> [-> ->]]. cbn [nth].
      destruct (Fe j ltac:(lia)) as [-> ->]. destruct (Fe (S j) ltac:(lia)) as [-> ->]. repeat split; reflexivity.
    - destruct (cells_at _ (Be e2 u2 H2)) as [ive [kve [Ee Ce]]].
      destruct (mie_int_run mieb ks 0 (Z.of_nat n) r Hks m1 m2 e1 u1 e2 u2 _ _ _ _ H1 H2 Ee Ei) as [A [EA FA]]. exists A. split; [exact EA|]. intros q Hq.
      destruct (Ce q Hq) as [ive1 [kve1 [Ee1 Fe]]]. destruct (Ci q Hq) as [ivi1 [kvi1 [Ei1 Fi]]].
      destruct (mie_int_run mieb _ 0 (Z.of_nat n) r (one_pos q Hq) m1 m2 e1 u1 e2 u2 _ _ _ _ H1 H2 Ee1 Ei1) as [A1 [EA1 FA1]]. exists A1. split; [exact EA1|]. intros j Hj.
      destruct (FA j q ltac:(lia) Hq) as [-> [-> ->]]. destruct (FA1 j 0%nat ltac:(lia) ltac:(cbn; lia)) as [-> [-> ->]]. cbn [nth].
      destruct (Fe j ltac:(lia)) as [X1 X2]. destruct (Fe (S j) ltac:(lia)) as [X3 X4]. destruct (Fi j ltac:(lia)) as [Y1 Y2]. destruct (Fi (S j) ltac:(lia)) as [Y3 Y4].
      rewrite ?X1, ?X2, ?X3, ?X4, ?Y1, ?Y2, ?Y3, ?Y4. repeat split; reflexivity.
  Qed.
End Mie.

(** ** translation coefficients *)
Lemma i01_len x : length (fst (i01 x)) = length x /\ length (snd (i01 x)) = length x.
Proof.
  assert (F : forall f : R -> bool, (length (filter f x) + length (filter (fun t => negb (f t)) x) = length x)%nat).
  { intros f. induction x as [|a y IH]; [reflexivity|]. cbn [filter]. destruct (f a); cbn [negb length]; lia. }
  specialize (F is_small). unfold i01. destruct (filter is_small x) as [|a y] eqn:E1, (filter (fun t => negb (is_small t)) x) as [|a' y'] eqn:E2;
    cbn [fst snd length map] in *; rewrite ?app_length; cbn [length]; rewrite ?map_length; cbn [length]; lia.
Qed.
Lemma lni_all_len x n : length (lni_all x n) = S n.
Proof. unfold lni_all. rewrite firstn_length. cbn [length]. rewrite map_length, seq_length. destruct n; cbn [length]; lia. Qed.
(** the table of logarithms, one column per order *)
Lemma table_many c e ks : (forall k, In k ks -> 0 < k * c_L c * sqrt (e k)) -> ks <> [] -> trans_at c ks -> (exists u, has (c_med c) e u) ->
  let N := (c_lmax c + c_lssmax c + 1)%nat in let x y := map (fun k => k * c_L c * sqrt (e k)) y in
  exists col : list R -> nat -> list R, (forall y, y = ks \/ (exists k, In k ks /\ y = [k]) -> trans_bessels (x y) (AnInt (Z.of_nat N)) (c_ext c) = Ok (map (col y) (seq 0 (N + 1))) /\
      forall p, (p < N + 1)%nat -> length (col y p) = length y) /\
    forall p q, (p < N + 1)%nat -> (q < length ks)%nat -> at_ (col ks p) q = nth 0 (col [nth q ks 0] p) 0.
Proof.
  intros Hp Hne Ht [u Hh] N x.
  assert (Py : forall y, y = ks \/ (exists k, In k ks /\ y = [k]) -> x y <> [] /\ pos_all (x y)).
  { intros y Hy. assert (Y : y <> [] /\ forall k, In k y -> In k ks).
    { destruct Hy as [->|[k [Hk ->]]]; [now split|]. split; [discriminate|]. now intros j [<-|[]]. }
    split; [destruct y; [now destruct Y|discriminate]|]. intros t Hin. apply in_map_iff in Hin. destruct Hin as [k [<- Hin]]. apply Hp. now apply Y. }
  destruct (c_ext c) eqn:Ex.
  - exists (fun y => lnk_col (x y)). split.
    + intros y Hy. split; [unfold trans_bessels; rewrite lnknu_spec by apply (Py y Hy); now rewrite <- Nat.add_1_r|]. intros p _. unfold lnk_col, x. now rewrite !map_length.
    + intros p q _ Hq. unfold at_, lnk_col, x. rewrite !map_map. rewrite (nth_map_in _ ks q 0 0) by exact Hq. reflexivity.
  - destruct Ht as [Ht|Ht]; [congruence|]. specialize (Ht e u Hh). fold N in Ht. exists (fun y p => nth p (lni_all (x y) N) []). split.
    + intros y Hy. destruct (Py y Hy) as [Pn Pp]. split.
      * unfold trans_bessels. rewrite lniknu_spec by assumption. cbn [bind fst]. f_equal.
        apply nth_ext with [] []; [rewrite map_length, seq_length, lni_all_len; lia|]. intros p Hl. rewrite lni_all_len in Hl.
        rewrite (nth_map_in _ _ p [] 0%nat) by (rewrite seq_length; lia). now rewrite seq_nth by lia.
      * intros p Hl. rewrite lni_all_nth by lia. destruct (i01_len (x y)) as [L1 L2]. destruct p as [|[|p]]; [rewrite L1|rewrite L2|unfold lni_col; rewrite map_length]; unfold x; now rewrite map_length.
    + intros p q Hl Hq. destruct Ht as [iv [kv [E H]]]. destruct (H q) as [iv1 [kv1 [E1 H1]]]; [now rewrite map_length|].
      assert (L : nth q (map (fun k => k * c_L c * sqrt (e k)) ks) 0 = nth q ks 0 * c_L c * sqrt (e (nth q ks 0))) by now apply (nth_map_in (fun k => k * c_L c * sqrt (e k)) ks q 0 0).
      assert (M : forall y, x y <> [] -> pos_all (x y) -> mie_bessels (x y) 0%nat (Z.of_nat N) = Ok (lni_all (x y) N, map (lnk_col (x y)) (seq 0 (S N)))).
      { intros y P1 P2. unfold mie_bessels. replace (Z.of_nat N <? Z.of_nat 0)%Z with false by (symmetry; apply Z.ltb_ge; lia). rewrite lniknu_spec by assumption. reflexivity. }
      destruct (Py ks (or_introl eq_refl)) as [P1 P2]. change (mie_bessels (x ks) 0%nat (Z.of_nat N) = Ok (iv, kv)) in E. rewrite (M ks P1 P2) in E. injection E as <- <-.
      destruct (Py [nth q ks 0]) as [P3 P4]; [right; exists (nth q ks 0); split; [now apply nth_In|reflexivity]|].
      assert (X1 : [nth q (map (fun k => k * c_L c * sqrt (e k)) ks) 0] = x [nth q ks 0]) by (rewrite L; reflexivity). rewrite X1, (M _ P3 P4) in E1. injection E1 as <- <-.
      destruct (H1 p ltac:(lia)) as [C1 _]. exact C1.
Qed.
Lemma trans_many c m e u ks : has (c_med c) e u -> 0 < c_L c -> trans_at c ks -> ks <> [] -> (forall k, In k ks -> 0 < k) ->
  exists V, trans trans_bessels c m ks = Val V /\ forall q i s, (q < length ks)%nat -> (i < n1 c m)%nat -> (s < n2 c m)%nat ->
    let W pick := coefficient pick trans_bessels (c_lmax c) (c_lssmax c) m (c_med c) (c_L c) (c_ext c) (lmin m + i) (lmin m + s) (nth q ks 0) in
    let S := exp (vget V v_skal q i s) in
    vget V v_EEab q i s * S = W v_EEab /\ vget V v_EEba q i s * S = W v_EEba /\ vget V v_EMab q i s * S = W v_EMab /\ vget V v_EMba q i s * S = W v_EMba.
Proof.
  intros Hh HL He Hne Hks.
  destruct (C44_defined (c_lmax c) (c_lssmax c) m (c_med c) e u (c_L c) ks (c_ext c) Hh HL Hne Hks) as [t [V [Et [EV [_ HV]]]]].
  exists V. split; [unfold trans; rewrite Et; cbn [obind]; rewrite EV; reflexivity|].
  intros q i s Hq Hi Hs. unfold n1, n2, lmin in *. destruct (HV i ltac:(lia)) as [_ Hj]. destruct (Hj s ltac:(lia)) as [v [Ev [G _]]].
  unfold vget. rewrite Ev.
  assert (Px : forall k, In k ks -> 0 < k * c_L c * sqrt (e k)).
  { intros k Hin. assert (K := Hks k Hin). destruct Hh as [_ [P _]]. destruct (P k K). repeat apply Rmult_lt_0_compat; try assumption. now apply sqrt_lt_R0. }
  destruct (table_many c e ks Px Hne He (ex_intro _ u Hh)) as [col [Hc Ceq]].
  assert (X : forall y, y = ks \/ (exists k, In k ks /\ y = [k]) -> let x := map (fun k => k * c_L c * sqrt (e k)) y in
    trans_arg (c_L c) (c_med c) y = Val x /\ translation_init trans_bessels (c_lmax c) (c_lssmax c) m (c_med c) (c_L c) y (c_ext c) false =
      Val {| t_lmin := Z.to_nat (Z.max 1 m); t_lmax := c_lmax c; t_lssmax := c_lssmax c; t_m := m; t_L := c_L c; t_medium := c_med c; t_k := y; t_ext := c_ext c;
             t_bessels := Some (map (col y) (seq 0 (c_lmax c + c_lssmax c + 1 + 1))) |}).
  { intros y Hy x. assert (Hp : forall k, In k y -> 0 < k) by (destruct Hy as [->|[k [Hk ->]]]; [assumption|intros j [<-|[]]; now apply Hks]).
    assert (Hy0 : y <> []) by (destruct Hy as [->|[k [Hk ->]]]; [assumption|discriminate]).
    assert (Ha : trans_arg (c_L c) (c_med c) y = Val x) by now apply arg_val with u. split; [exact Ha|].
    apply (init_nonzero trans_bessels _ _ m (c_med c) (c_L c) y (c_ext c) _ x (fun k Hin => Rgt_not_eq _ _ (Hp k Hin)) Ha).
    exact (proj1 (Hc y Hy)). }
  set (k := nth q ks 0). assert (Hin : In k ks) by now apply nth_In. assert (Hk : 0 < k) by now apply Hks.
  assert (Hy : [k] = ks \/ (exists k', In k' ks /\ [k] = [k'])) by (right; now exists k).
  destruct (X ks (or_introl eq_refl)) as [Ha Et']. rewrite Et in Et'. injection Et' as ->. destruct (X [k] Hy) as [Hb Eb].
  set (l1 := (Z.to_nat (Z.max 1 m) + i)%nat) in *. set (l2 := (Z.to_nat (Z.max 1 m) + s)%nat) in *.
  unfold coefficient. rewrite Eb. clear X.
  set (ta := Build_translation _ _ _ _ _ _ ks _ _) in *. set (tb := Build_translation _ _ _ _ _ _ [k] _ _) in *.
  assert (Ln : forall y, y = ks \/ (exists k, In k ks /\ y = [k]) -> (forall l, (l < c_lmax c + c_lssmax c + 1 + 1)%nat -> length (col y l) = length (map (fun k => k * c_L c * sqrt (e k)) y))).
  { intros y Y l Hl. rewrite map_length. now apply (proj2 (Hc y Y)). }
  assert (Hl : (l1 + l2 < c_lmax c + c_lssmax c + 1 + 1)%nat) by (unfold l1, l2; lia).
  destruct (get_values ta (col ks) _ _ l1 l2 eq_refl Hl Ha (Ln ks (or_introl eq_refl))) as [g [v' [Eg [_ [Ev' [_ [_ [_ [_ [_ F]]]]]]]]]].
  rewrite G in Ev'. injection Ev' as <-.
  destruct (get_values tb (col [k]) _ _ l1 l2 eq_refl Hl Hb (Ln [k] Hy)) as [g' [w [Eg' [_ [Ew [_ [_ [_ [_ [_ F']]]]]]]]]].
  rewrite Ew. cbn [t_m ta tb] in Eg, Eg'. rewrite Eg in Eg'. injection Eg' as <-.
  destruct (F q) as [F1 [F2 [F3 F4]]]; [now rewrite map_length|]. destruct (F' 0%nat) as [F1' [F2' [F3' F4']]]; [cbn; lia|].
  unfold at_ in F1', F2', F3', F4'. rewrite F1', F2', F3', F4', F1, F2, F3, F4. unfold ta, tb. cbn [t_ext t_m].
  assert (S : forall p, (p <= l1 + l2)%nat -> at_ (col ks p) q = nth 0 (col [k] p) 0) by (intros p Hp; apply Ceq; [lia|exact Hq]).
  assert (N : at_ (map (fun k => k * c_L c * sqrt (e k)) ks) q = nth 0 (map (fun k => k * c_L c * sqrt (e k)) [k]) 0).
  { unfold at_. rewrite (nth_map_in _ ks q 0 0) by exact Hq. reflexivity. }
  rewrite <- N. unfold closed. repeat split; apply sum_eq; intros a Ha'; rewrite S by (rewrite lpps_nth by exact Ha'; lia); reflexivity.
Qed.

(** ** all coefficients of two solid spheres *)
Section Elements.
  Context (mieb : list R -> nat -> Z -> res (list (list R) * list (list R))) (c : config) (m1 m2 : material) (ra rb : R) (e u : R -> R) (ks : list R).
  Context (H1 : c_1 c = Solid m1 ra) (H2 : c_2 c = Solid m2 rb) (S1 : solid_ok m1) (S2 : solid_ok m2) (Hm : has (c_med c) e u) (HL : 0 < c_L c).
  Context (Hne : ks <> []) (Hks : forall k, In k ks -> 0 < k) (Hel : elementwise_at mieb c ks).
  Lemma mieA_many : exists A, mieA mieb c ks = Val A /\ forall q, (q < length ks)%nat -> exists A1, mieA mieb c [nth q ks 0] = Val A1 /\ entrywise (c_lmax c) A q A1.
  Proof.
    unfold mieA. rewrite H1. apply mie_many with e u; try assumption.
    - apply (proj1 Hel m1 ra); [left; auto|right; assumption].
    - intros e' u' H. apply (proj1 Hel m1 ra); [left; auto|left; assumption].
  Qed.
  Lemma mieB_many : exists A, mieB mieb c ks = Val A /\ forall q, (q < length ks)%nat -> exists A1, mieB mieb c [nth q ks 0] = Val A1 /\ entrywise (c_lssmax c) A q A1.
  Proof.
    unfold mieB. rewrite H2. destruct (c_ext c); [apply mie_many with e u|apply mie_int_many with e u]; try assumption;
      try (apply (proj1 Hel m2 rb); [right; auto|right; assumption]); intros e' u' H; (apply (proj1 Hel m2 rb); [right; auto|left; assumption]).
  Qed.
  Lemma coefs_many m A B V q : mieA mieb c ks = Val A -> mieB mieb c ks = Val B -> trans trans_bessels c m ks = Val V -> (q < length ks)%nat ->
    same_coefs (n1 c m) (n2 c m) (pack m A B V q) (rt_with mieb c m (nth q ks 0)).
  Proof.
    intros EA EB EV Hq. assert (He := proj2 Hel). destruct mieA_many as [A' [EA' FA]]. rewrite EA in EA'. injection EA' as <-.
    destruct mieB_many as [B' [EB' FB]]. rewrite EB in EB'. injection EB' as <-.
    destruct (trans_many c m e u ks Hm HL He Hne Hks) as [V' [EV' FV]]. rewrite EV in EV'. injection EV' as <-.
    destruct (FA q Hq) as [A1 [EA1 FA1]]. destruct (FB q Hq) as [B1 [EB1 FB1]].
    unfold rt_with, pack, same_coefs. cbn [aTE aTM a2 bTE bTM b2 V0 V1 V2 V3 V4]. rewrite exp_0. split; [|split].
    - intros i Hi. unfold entry. rewrite EA1, !Rmult_1_r. unfold TE, TM. destruct (FA1 (lmin m - 1 + i)%nat) as [E1 [E2 E3]]; [unfold n1, lmin in *; lia|].
      unfold te_at, tm_at, scale_at in *. rewrite E1, E2, E3. split; reflexivity.
    - intros i Hi. unfold entry. rewrite EB1, !Rmult_1_r. unfold TE, TM. destruct (FB1 (lmin m - 1 + i)%nat) as [E1 [E2 E3]]; [unfold n2, lmin in *; lia|].
      unfold te_at, tm_at, scale_at in *. rewrite E1, E2, E3. split; reflexivity.
    - intros i s Hi Hs. rewrite !Rmult_1_r. now apply FV.
  Qed.
End Elements.
