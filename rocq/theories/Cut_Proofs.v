(** * Mie and translation coefficients do not depend on the largest order requested *)
From Coq Require Import Reals.
From Coquelicot Require Import Coquelicot.
From Coq Require Import Bool ZArith List Lia Lra.
From Verif Require Import Base Mat_Model Mat_Spec Mat_Proofs Help_Proofs Bessel_Model Bessel_Spec Bessel_Proofs Bessel_Proofs2 Bessel_Proofs3 Bessel_Proofs4 Bessel_Proofs5 Bessel_Proofs6
  Scat_Model Scat_Spec Scat_Proofs Scat_Proofs2 Scat_Proofs4 Scat_Proofs6 Trans_Model Trans_Spec Trans_Proofs Trans_Proofs4 Trans_Proofs5 Trans_Props Lin_Model RT_Model RT_Spec RT_Proofs3 Run_Spec Run_Proofs.
Import ListNotations.
Open Scope R_scope.

(** the tables for two largest orders agree as far as the smaller one goes *)
Definition nested (mieb : list R -> nat -> Z -> res (list (list R) * list (list R))) : Prop :=
  forall x n n', x <> [] -> (forall t, In t x -> 0 < t) -> (n <= n')%nat ->
  exists iv kv iv' kv', mieb x 0%nat (Z.of_nat n) = Ok (iv, kv) /\ mieb x 0%nat (Z.of_nat n') = Ok (iv', kv') /\
    forall j q, (j <= n)%nat -> (q < length x)%nat -> cell iv j q = cell iv' j q /\ cell kv j q = cell kv' j q.
Lemma code_nested : nested mie_bessels.
Proof.
  intros x n n' Hx Hp Hn. destruct (mie_cells x 0 n Hx Hp ltac:(lia)) as [iv [kv [E H]]]. destruct (mie_cells x 0 n' Hx Hp ltac:(lia)) as [iv' [kv' [E' H']]].
  exists iv, kv, iv', kv'. split; [exact E|]. split; [exact E'|]. intros j q Hj Hq.
  destruct (H j q ltac:(lia) Hq) as [-> ->]. destruct (H' j q ltac:(lia) Hq) as [-> ->]. cbn [Nat.add]. rewrite !lni_all_nth by lia. split; reflexivity.
Qed.
Lemma exact_nested : nested exact_bessels.
Proof.
  intros x n n' Hx Hp Hn. destruct (exact_ok x 0 (Z.of_nat n) ltac:(lia)) as [iv [kv [E H]]]. destruct (exact_ok x 0 (Z.of_nat n') ltac:(lia)) as [iv' [kv' [E' H']]].
  exists iv, kv, iv', kv'. split; [exact E|]. split; [exact E'|]. intros j q Hj Hq.
  destruct (H j q ltac:(lia) Hq) as [-> ->]. destruct (H' j q ltac:(lia) Hq) as [-> ->]. split; reflexivity.
Qed.

Section Mie.
  Context (mieb : list R -> nat -> Z -> res (list (list R) * list (list R))) (ks : list R) (n n' : nat) (r : R).
  Context (Hb : nested mieb) (Hks : forall k, In k ks -> 0 < k) (Hne : ks <> []) (Hr : 0 < r) (Hn : (n <= n')%nat).
  Definition agree (A A' : coefs) : Prop :=
    forall j q, (j < n)%nat -> (q < length ks)%nat -> te_at A j q = te_at A' j q /\ tm_at A j q = tm_at A' j q /\ scale_at A j q = scale_at A' j q.
  Lemma cells_cut m e u : has m e u -> exists iv kv iv' kv', mieb (xs (refr e u) r ks) 0%nat (Z.of_nat n) = Ok (iv, kv) /\ mieb (xs (refr e u) r ks) 0%nat (Z.of_nat n') = Ok (iv', kv') /\
    forall j q, (j <= n)%nat -> (q < length ks)%nat -> cell iv j q = cell iv' j q /\ cell kv j q = cell kv' j q.
  Proof.
    intros [_ [P _]]. destruct (Hb (xs (refr e u) r ks) n n') as [iv [kv [iv' [kv' [E [E' H]]]]]]; [|  |exact Hn|].
    - destruct ks; [congruence|discriminate].
    - intros t Ht. unfold xs in Ht. apply in_map_iff in Ht. destruct Ht as [k [<- Hk]]. assert (K := Hks k Hk). destruct (P k K) as [P1 P2].
      apply Rmult_lt_0_compat; [now apply Rmult_lt_0_compat|]. unfold refr. apply sqrt_lt_R0. now apply Rmult_lt_0_compat.
    - unfold xs in H. rewrite map_length in H. exists iv, kv, iv', kv'. auto.
  Qed.
  Lemma mie_cut m1 m2 e2 u2 : solid_ok m1 -> has m2 e2 u2 ->
    exists A A', mie mieb ks 0 (Z.of_nat n) r m1 m2 = Val A /\ mie mieb ks 0 (Z.of_nat n') r m1 m2 = Val A' /\ agree A A'.
  Proof.
    intros H1 H2. destruct (cells_cut m2 e2 u2 H2) as [ive [kve [ive' [kve' [Ee [Ee' Ce]]]]]].
    destruct H1 as [->|[e1 [u1 H1]]].
    - destruct (mie_pec_run mieb ks 0 (Z.of_nat n) r Hks m2 e2 u2 _ _ H2 Ee) as [A [EA FA]]. destruct (mie_pec_run mieb ks 0 (Z.of_nat n') r Hks m2 e2 u2 _ _ H2 Ee') as [A' [EA' FA']].
      exists A, A'. split; [exact EA|]. split; [exact EA'|]. intros j q Hj Hq.
      destruct (FA j q ltac:(lia) Hq) as [-> [-> ->]]. destruct (FA' j q ltac:(lia) Hq) as [-> [-> ->]].
      destruct (Ce j q ltac:(lia) Hq) as [-> ->]. destruct (Ce (S j) q ltac:(lia) Hq) as [-> ->]. repeat split; reflexivity.
    - destruct (cells_cut m1 e1 u1 H1) as [ivi [kvi [ivi' [kvi' [Ei [Ei' Ci]]]]]].
      destruct (mie_lossy_run mieb ks 0 (Z.of_nat n) r Hks m1 m2 e1 u1 e2 u2 _ _ _ _ H1 H2 Ee Ei) as [A [EA FA]].
      destruct (mie_lossy_run mieb ks 0 (Z.of_nat n') r Hks m1 m2 e1 u1 e2 u2 _ _ _ _ H1 H2 Ee' Ei') as [A' [EA' FA']].
      exists A, A'. split; [exact EA|]. split; [exact EA'|]. intros j q Hj Hq.
      destruct (FA j q ltac:(lia) Hq) as [-> [-> ->]]. destruct (FA' j q ltac:(lia) Hq) as [-> [-> ->]].
      destruct (Ce j q ltac:(lia) Hq) as [X1 X2]. destruct (Ce (S j) q ltac:(lia) Hq) as [X3 X4].
      destruct (Ci j q ltac:(lia) Hq) as [Y1 Y2]. destruct (Ci (S j) q ltac:(lia) Hq) as [Y3 Y4]. rewrite ?X1, ?X2, ?X3, ?X4, ?Y1, ?Y2, ?Y3, ?Y4. repeat split; reflexivity.
  Qed.
  Lemma mie_int_cut m1 m2 e1 u1 : solid_ok m2 -> has m1 e1 u1 ->
    exists A A', mie_internal mieb ks 0 (Z.of_nat n) r m1 m2 = Val A /\ mie_internal mieb ks 0 (Z.of_nat n') r m1 m2 = Val A' /\ agree A A'.
  Proof.
    intros H2 H1. destruct (cells_cut m1 e1 u1 H1) as [ivi [kvi [ivi' [kvi' [Ei [Ei' Ci]]]]]].
    destruct H2 as [->|[e2 [u2 H2]]].
    - destruct (mie_pec_int_run mieb ks 0 (Z.of_nat n) r Hks m1 e1 u1 _ _ H1 Ei) as [A [EA FA]]. destruct (mie_pec_int_run mieb ks 0 (Z.of_nat n') r Hks m1 e1 u1 _ _ H1 Ei') as [A' [EA' FA']].
      exists A, A'. split; [exact EA|]. split; [exact EA'|]. intros j q Hj Hq.
      destruct (FA j q ltac:(lia) Hq) as [-> [-> ->]]. destruct (FA' j q ltac:(lia) Hq) as [-> [-> ->]].
      destruct (Ci j q ltac:(lia) Hq) as [-> ->]. destruct (Ci (S j) q ltac:(lia) Hq) as [-> ->]. repeat split; reflexivity.
    - destruct (cells_cut m2 e2 u2 H2) as [ive [kve [ive' [kve' [Ee [Ee' Ce]]]]]].
      destruct (mie_int_run mieb ks 0 (Z.of_nat n) r Hks m1 m2 e1 u1 e2 u2 _ _ _ _ H1 H2 Ee Ei) as [A [EA FA]].
      destruct (mie_int_run mieb ks 0 (Z.of_nat n') r Hks m1 m2 e1 u1 e2 u2 _ _ _ _ H1 H2 Ee' Ei') as [A' [EA' FA']].
      exists A, A'. split; [exact EA|]. split; [exact EA'|]. intros j q Hj Hq.
      destruct (FA j q ltac:(lia) Hq) as [-> [-> ->]]. destruct (FA' j q ltac:(lia) Hq) as [-> [-> ->]].
      destruct (Ce j q ltac:(lia) Hq) as [X1 X2]. destruct (Ce (S j) q ltac:(lia) Hq) as [X3 X4].
      destruct (Ci j q ltac:(lia) Hq) as [Y1 Y2]. destruct (Ci (S j) q ltac:(lia) Hq) as [Y3 Y4]. rewrite ?X1, ?X2, ?X3, ?X4, ?Y1, ?Y2, ?Y3, ?Y4. repeat split; reflexivity.
  Qed.
End Mie.

(** ** translation coefficients, one wavenumber *)
Definition column_of (ext : bool) (x : R) (l : nat) : R :=
  if ext then ln (sph_k l x) else nth 0 (match l with O => fst (i01 [x]) | 1%nat => snd (i01 [x]) | _ => lni_col [x] l end) 0.
Lemma columns ext x n : 0 < x -> trans_bessels [x] (AnInt (Z.of_nat n)) ext = Ok (map (fun l => [column_of ext x l]) (seq 0 (n + 1))).
Proof.
  intros Hx. destruct ext; [now apply code_ext|]. unfold trans_bessels. rewrite lniknu_spec; [|discriminate|intros t [<-|[]]; exact Hx]. cbn [bind fst]. f_equal.
  apply nth_ext with [] []; [rewrite map_length, seq_length, lni_all_len; lia|]. intros p Hp. rewrite lni_all_len in Hp. rewrite lni_all_nth by lia.
  rewrite (nth_indep _ [] ((fun l => [column_of false x l]) 0%nat)) by (rewrite map_length, seq_length; lia).
  rewrite (map_nth (fun l => [column_of false x l])), seq_nth by lia. cbn [Nat.add]. unfold column_of.
  destruct (i01_len [x]) as [L1 L2]. cbn [length] in L1, L2.
  destruct p as [|[|p]]; [| |reflexivity].
  - destruct (fst (i01 [x])) as [|a [|b t]]; try discriminate. reflexivity.
  - destruct (snd (i01 [x])) as [|a [|b t]]; try discriminate. reflexivity.
Qed.
Lemma trans_cut lmax lssmax lmax' lssmax' m med L ext l1 l2 k e u : has med e u -> 0 < k -> 0 < L -> (l1 <= lmax)%nat -> (l2 <= lssmax)%nat -> (lmax <= lmax')%nat -> (lssmax <= lssmax')%nat ->
  forall pick, In pick [v_EEab; v_EEba; v_EMab; v_EMba] ->
  coefficient pick trans_bessels lmax lssmax m med L ext l1 l2 k = coefficient pick trans_bessels lmax' lssmax' m med L ext l1 l2 k.
Proof.
  intros Hh Hk HL H1 H2 N1 N2 pick Hp. assert (He : 0 < e k) by (destruct Hh as [_ [P _]]; now apply P).
  assert (X : 0 < k * L * sqrt (e k)) by (apply Rmult_lt_0_compat; [now apply Rmult_lt_0_compat|now apply sqrt_lt_R0]).
  destruct (coefficient_val trans_bessels lmax lssmax m med L ext l1 l2 k e u (column_of ext (k * L * sqrt (e k))) Hh Hk H1 H2) as [g [Eg [_ C]]].
  { replace (lmax + lssmax + 2)%nat with (lmax + lssmax + 1 + 1)%nat by lia. now apply columns. }
  destruct (coefficient_val trans_bessels lmax' lssmax' m med L ext l1 l2 k e u (column_of ext (k * L * sqrt (e k))) Hh Hk ltac:(lia) ltac:(lia)) as [g' [Eg' [_ C']]].
  { replace (lmax' + lssmax' + 2)%nat with (lmax' + lssmax' + 1 + 1)%nat by lia. now apply columns. }
  rewrite Eg in Eg'. injection Eg' as <-. cbv zeta in C, C'. destruct C as [C1 [C2 [C3 C4]]], C' as [D1 [D2 [D3 D4]]].
  destruct Hp as [<-|[<-|[<-|[<-|[]]]]].
  - now rewrite C1, D1.
  - now rewrite C2, D2.
  - now rewrite C3, D3.
  - now rewrite C4, D4.
Qed.

(** ** the round trips of two configurations that differ in the truncation only *)
Definition truncated (c : config) (lmax lssmax : nat) : config :=
  {| c_1 := c_1 c; c_2 := c_2 c; c_med := c_med c; c_L := c_L c; c_lmax := lmax; c_lssmax := lssmax; c_ext := c_ext c; c_mat := c_mat c |}.
Section Trip.
  Context (mieb : list R -> nat -> Z -> res (list (list R) * list (list R))) (Hb : nested mieb) (c : config) (m1 m2 : material) (ra rb : R) (e u : R -> R).
  Context (H1 : c_1 c = Solid m1 ra) (H2 : c_2 c = Solid m2 rb) (S1 : solid_ok m1) (S2 : solid_ok m2) (Hm : has (c_med c) e u) (Ha : 0 < ra) (Hrb : 0 < rb) (HL : 0 < c_L c).
  Context (k : R) (Hk : 0 < k) (N N' M M' : nat) (HN : (N <= N')%nat) (HM : (M <= M')%nat).
  Let c0 := truncated c N M.
  Let c1 := truncated c N' M'.
  Lemma entry_cut_A j : (j < N)%nat -> entry TE (mieA mieb c0) j k = entry TE (mieA mieb c1) j k /\ entry TM (mieA mieb c0) j k = entry TM (mieA mieb c1) j k.
  Proof.
    intros Hj. unfold entry, mieA, c0, c1, truncated. cbn [c_1 c_2 c_med c_lmax c_lssmax c_ext c_L]. rewrite H1.
    destruct (mie_cut mieb [k] N N' ra Hb ltac:(intros ? [<-|[]]; exact Hk) ltac:(discriminate) Ha HN m1 (c_med c) e u S1 Hm) as [A [A' [-> [-> G]]]].
    destruct (G j 0%nat Hj ltac:(cbn; lia)) as [G1 [G2 G3]]. unfold TE, TM. rewrite G1, G2, G3. split; reflexivity.
  Qed.
  Lemma entry_cut_B j : (j < M)%nat -> entry TE (mieB mieb c0) j k = entry TE (mieB mieb c1) j k /\ entry TM (mieB mieb c0) j k = entry TM (mieB mieb c1) j k.
  Proof.
    intros Hj. unfold entry, mieB, c0, c1, truncated. cbn [c_1 c_2 c_med c_lmax c_lssmax c_ext c_L]. rewrite H2.
    destruct (c_ext c).
    - destruct (mie_cut mieb [k] M M' rb Hb ltac:(intros ? [<-|[]]; exact Hk) ltac:(discriminate) Hrb HM m2 (c_med c) e u S2 Hm) as [A [A' [-> [-> G]]]].
      destruct (G j 0%nat Hj ltac:(cbn; lia)) as [G1 [G2 G3]]. unfold TE, TM. rewrite G1, G2, G3. split; reflexivity.
    - destruct (mie_int_cut mieb [k] M M' rb Hb ltac:(intros ? [<-|[]]; exact Hk) ltac:(discriminate) Hrb HM (c_med c) m2 e u S2 Hm) as [A [A' [-> [-> G]]]].
      destruct (G j 0%nat Hj ltac:(cbn; lia)) as [G1 [G2 G3]]. unfold TE, TM. rewrite G1, G2, G3. split; reflexivity.
  Qed.
  (** entries of the round trip *)
  Lemma rt_cut m i s : (i < n1 c0 m)%nat -> (s < n2 c0 m)%nat -> let e0 := rt_with mieb c0 m k in let e1 := rt_with mieb c1 m k in
    aTE e0 i = aTE e1 i /\ aTM e0 i = aTM e1 i /\ bTE e0 s = bTE e1 s /\ bTM e0 s = bTM e1 s /\
    V0 e0 i s = V0 e1 i s /\ V1 e0 i s = V1 e1 i s /\ V2 e0 i s = V2 e1 i s /\ V3 e0 i s = V3 e1 i s.
  Proof.
    intros Hi Hs. unfold n1 in Hi. unfold n2 in Hs. assert (P : (1 <= lmin m)%nat) by (unfold lmin; lia).
    change (c_lmax c0) with N in Hi. change (c_lssmax c0) with M in Hs.
    unfold rt_with. cbv zeta. cbn [aTE aTM bTE bTM V0 V1 V2 V3].
    destruct (entry_cut_A (lmin m - 1 + i) ltac:(lia)) as [-> ->]. destruct (entry_cut_B (lmin m - 1 + s) ltac:(lia)) as [-> ->].
    assert (T := trans_cut N M N' M' m (c_med c) (c_L c) (c_ext c) (lmin m + i) (lmin m + s) k e u Hm Hk HL ltac:(lia) ltac:(lia) HN HM).
    unfold c0, c1, truncated. cbn [c_1 c_2 c_med c_lmax c_lssmax c_ext c_L].
    rewrite (T v_EEab), (T v_EEba), (T v_EMab), (T v_EMba) by (cbn; tauto). repeat split; reflexivity.
  Qed.
End Trip.
