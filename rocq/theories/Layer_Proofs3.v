(** * Stratified spheres of the code: comparison, signs, and the bound by a perfect reflector *)
From Coq Require Import Reals.
From Coquelicot Require Import Coquelicot.
From Coq Require Import Bool ZArith List Lia Lra Sorted.
From Verif Require Import Base Help_Proofs Mat_Model Mat_Spec Bessel_Model Bessel_Spec Bessel_Proofs Bessel_Proofs2 Scat_Model Scat_Spec Scat_Proofs Scat_Proofs2 Scat_Proofs3 Scat_Proofs4 Scat_Proofs5 Scat_Proofs9 Scat_Proofs11
  RT_Model RT_Spec2 RT_Proofs10 Layer_Spec Layer_Proofs Layer_Proofs2.
Import ListNotations.
Open Scope R_scope.

(** permittivity and permeability read off the material *)
Definition eM (M : material) (k : R) : R := match eps_of M [k] with Val (x :: _) => x | _ => 0 end.
Definition uM (M : material) (k : R) : R := match mu_of M [k] with Val (x :: _) => x | _ => 0 end.
Lemma only1 k : 0 < k -> forall k', In k' [k] -> 0 < k'.
Proof. intros H k' [<-|[]]. exact H. Qed.
Lemma eM_of M e u k : has M e u -> 0 < k -> eM M k = e k /\ uM M k = u k.
Proof. intros [H _] Hk. destruct (H [k] (only1 k Hk)) as [A B]. unfold eM, uM. rewrite A, B. split; reflexivity. Qed.
Lemma plain M : (exists e u, has M e u) -> has M (eM M) (uM M).
Proof.
  intros [e [u H]]. assert (E := eM_of M e u). destruct H as [H1 [H2 H3]]. split; [|split; [|exact H3]].
  - intros ks Hks. destruct (H1 ks Hks) as [-> ->].
    split; f_equal; apply map_ext_in; intros k Hk; destruct (E k) as [A B]; try (split; [exact H1|split; assumption]); try (now apply Hks); now rewrite ?A, ?B.
  - intros k Hk. destruct (E k) as [-> ->]; [split; [exact H1|split; assumption]|exact Hk|]. now apply H2.
Qed.
Lemma has_pec e u : ~ has PEC e u.
Proof. intros [_ [_ H]]. discriminate H. Qed.
Lemma weaker_vals M M' k : weaker M M' k -> 0 < k -> M' <> PEC -> eM M k <= eM M' k /\ uM M' k <= uM M k.
Proof.
  intros [H|[e [u [e' [u' [H [H' [A B]]]]]]]] Hk Hn; [contradiction|]. destruct (eM_of _ _ _ k H Hk) as [-> ->]. destruct (eM_of _ _ _ k H' Hk) as [-> ->]. split; assumption.
Qed.
Section Stack.
  Context (mat : nat -> material) (k : R) (Hk : 0 < k).
  Let ef (m : nat) := eM (mat m).
  Let uf (m : nat) := uM (mat m).
  Notation nf m := (refr_of ef uf m k).
  Lemma ref_sq m : has (mat m) (ef m) (uf m) -> 0 < ef m k /\ 0 < uf m k /\ 0 < nf m /\ nf m ^ 2 / uf m k = ef m k /\ nf m ^ 2 / ef m k = uf m k.
  Proof.
    intros [_ [P _]]. destruct (P k Hk) as [Pe Pu]. assert (S2 : nf m ^ 2 = ef m k * uf m k).
    { unfold refr_of, refr. rewrite pow2_sqrt; [reflexivity|]. left. now apply Rmult_lt_0_compat. }
    repeat split; try assumption; [now apply refr_pos| |]; rewrite S2; field; lra.
  Qed.
  (** the chains of two lists of shells *)
  Lemma chain_cmp : forall rs ms ms' m m' s0, length rs = length ms -> Sorted Rle (s0 :: rs) ->
    (forall x, In x (m :: ms) -> has (mat x) (ef x) (uf x)) -> (forall x, In x (m' :: ms') -> has (mat x) (ef x) (uf x)) ->
    Forall2 (fun x y => ef x k <= ef y k /\ uf y k <= uf x k) (m :: ms) (m' :: ms') -> mat (last (m :: ms) 0%nat) = mat (last (m' :: ms') 0%nat) ->
    cmp s0 (uf m' k) (nf m') (uf m k) (nf m) (lte ef uf k rs ms') (lte ef uf k rs ms) /\
    cmp s0 (ef m k) (nf m) (ef m' k) (nf m') (ltm ef uf k rs ms) (ltm ef uf k rs ms').
  Proof.
    induction rs as [|r rs IH]; intros [|m1 ms] ms' m m' s0 Hl Hs H1 H2 F L; try discriminate Hl.
    - inversion F as [|? ? ? ? [A B] F2]; subst. inversion F2; subst. cbn [last] in L.
      destruct (ref_sq m (H1 m (or_introl eq_refl))) as [Q1 [Q2 [Q3 [Q4 Q5]]]]. destruct (ref_sq m' (H2 m' (or_introl eq_refl))) as [Q1' [Q2' [Q3' [Q4' Q5']]]].
      assert (E1 : ef m = ef m') by (unfold ef; now rewrite L). assert (E2 : uf m = uf m') by (unfold uf; now rewrite L). assert (E3 : nf m = nf m') by (unfold refr_of; now rewrite E1, E2).
      unfold lte, ltm, layers; cbn [combine map cmp]. rewrite Q4, Q4', Q5, Q5', E1, E2, E3. repeat split; lra.
    - inversion F as [|? ? ? ? [A B] F2]; subst. inversion F2 as [|? m1' ? ms1' [A' B'] F3]; subst.
      destruct (ref_sq m (H1 m (or_introl eq_refl))) as [Q1 [Q2 [Q3 [Q4 Q5]]]]. destruct (ref_sq m' (H2 m' (or_introl eq_refl))) as [Q1' [Q2' [Q3' [Q4' Q5']]]].
      inversion Hs as [|? ? Hs' Hr]; subst. inversion Hr; subst.
      destruct (IH ms ms1' m1 m1' r) as [C1 C2]; [now injection Hl|exact Hs'| | |exact F2|exact L|].
      + intros x Hx. apply H1. now right.
      + intros x Hx. apply H2. now right.
      + unfold lte, ltm, layers in *. cbn [combine map fst snd cmp]. rewrite Q4, Q4', Q5, Q5'. repeat split; try lra; assumption.
  Qed.
  Lemma chain_fine : forall rs ms s0, length rs = length ms -> Sorted Rle (s0 :: rs) -> (forall x, In x ms -> has (mat x) (ef x) (uf x)) ->
    fine s0 (lte ef uf k rs ms) /\ fine s0 (ltm ef uf k rs ms).
  Proof.
    induction rs as [|r rs IH]; intros [|m ms] s0 Hl Hs H; try discriminate Hl; [now split|].
    inversion Hs as [|? ? Hs' Hr]; subst. inversion Hr; subst. destruct (ref_sq m (H m (or_introl eq_refl))) as [Q1 [Q2 [Q3 _]]].
    destruct (IH ms r) as [A B]; [now injection Hl|exact Hs'|intros x Hx; apply H; now right|].
    unfold lte, ltm, layers in *. cbn [combine map fst snd fine]. repeat split; assumption.
  Qed.
  Lemma chain_outer : forall rs ms s0, length rs = length ms -> outer s0 (lte ef uf k rs ms) = last rs s0 /\ outer s0 (ltm ef uf k rs ms) = last rs s0.
  Proof.
    induction rs as [|r rs IH]; intros [|m ms] s0 Hl; try discriminate Hl; [now split|]. injection Hl as Hl.
    destruct (IH ms r Hl) as [A B]. unfold lte, ltm, layers in *. cbn [combine map fst snd outer]. rewrite A, B. destruct rs as [|r' rs]; [now split|].
    cbn [last]. assert (X : forall (q : list R) a b x, last (x :: q) a = last (x :: q) b) by (induction q as [|y q IHq]; intros; [reflexivity|cbn; apply IHq]).
    split; apply X.
  Qed.
  Lemma chain_nout : forall rs ms m, length rs = length ms -> nout (nf m) (lte ef uf k rs ms) = nf (last (m :: ms) 0%nat) /\ nout (nf m) (ltm ef uf k rs ms) = nf (last (m :: ms) 0%nat).
  Proof.
    induction rs as [|r rs IH]; intros [|m1 ms] m Hl; try discriminate Hl; [now split|]. injection Hl as Hl.
    destruct (IH ms m1 Hl) as [A B]. unfold lte, ltm, layers in *. cbn [combine map fst snd nout]. change (last (m :: m1 :: ms) 0%nat) with (last (m1 :: ms) 0%nat). split; assumption.
  Qed.

  (** what the code computes for a stratified sphere: its two chains, started at the first interface with a non-negative state *)
  Section Shells.
    Context (l : nat).
    Definition run_TE (core : bool) (m0 m1 : nat) (ms : list nat) (r0 : R) (rs : list R) (a : R) : Prop :=
      exists c d, strat_match (S l) k (uf m1 k) (nf m1) c d (lte ef uf k rs ms) a /\ 0 <= fs l (nf m1 * k) c d r0 /\ 0 <= ft l (nf m1 * k) c d r0 /\
        (if core then fs l (nf m1 * k) c d r0 = 0 else exists b, strat_match (S l) k (uf m0 k) (nf m0) b 0 (lte ef uf k (r0 :: rs) (m1 :: ms)) a).
    Definition run_TM (core : bool) (m0 m1 : nat) (ms : list nat) (r0 : R) (rs : list R) (a : R) : Prop :=
      exists c d, strat_match (S l) k (ef m1 k) (nf m1) c d (ltm ef uf k rs ms) a /\ 0 <= fs l (nf m1 * k) c d r0 /\ 0 <= ft l (nf m1 * k) c d r0 /\
        (if core then ft l (nf m1 * k) c d r0 = 0 else exists b, strat_match (S l) k (ef m0 k) (nf m0) b 0 (ltm ef uf k (r0 :: rs) (m1 :: ms)) a).
  End Shells.
  Lemma sorted_self r0 rs : Sorted Rle (r0 :: rs) -> Sorted Rle (r0 :: r0 :: rs).
  Proof. intros H. constructor; [exact H|]. constructor. apply Rle_refl. Qed.
  Lemma strat_runs lmax m0 m1 ms r0 rs : length rs = length ms -> 0 < r0 -> Sorted Rle (r0 :: rs) -> (forall m, In m (m1 :: ms) -> exists e u, has (mat m) e u) ->
    ((exists e u, has (mat m0) e u) \/ mat m0 = PEC /\ (rs = [] \/ exists r1 rs'', rs = r1 :: rs'' /\ r0 < r1)) ->
    exists c core, strat exact_bessels [k] 0 (Z.of_nat lmax) mat (m0 :: m1 :: ms) (r0 :: rs) = Ok (Val c) /\ (core = true <-> mat m0 = PEC) /\
      forall j, (j < lmax)%nat -> run_TE j core m0 m1 ms r0 rs (TE c j 0) /\ run_TM j core m0 m1 ms r0 rs (TM c j 0).
  Proof.
    intros Hl H0 Hs Hm Hc. assert (Hp : forall m, In m (m1 :: ms) -> has (mat m) (ef m) (uf m)) by (intros m H; apply plain; now apply Hm).
    assert (Hm1 := ref_sq m1 (Hp m1 (or_introl eq_refl))). destruct Hm1 as [Q1 [Q2 [Q3 _]]].
    destruct (chain_fine rs ms r0 Hl Hs ltac:(intros x Hx; apply Hp; now right)) as [F1 F2].
    destruct Hc as [Hc|[Hc Hr]].
    - assert (Hall : forall m, In m (m0 :: m1 :: ms) -> has (mat m) (ef m) (uf m)) by (intros m [<-|H]; [now apply plain|now apply Hp]).
      destruct (strat_solves [k] 0 (Z.of_nat lmax) (only1 k Hk) ltac:(lia) mat ef uf m0 m1 r0 rs ms Hl Hall H0 Hs) as [c [E C]].
      exists c, false. split; [exact E|]. split. { split; [discriminate|]. intros X. exfalso. destruct Hc as [e [u Hc]]. rewrite X in Hc. exact (has_pec _ _ Hc). }
      destruct (ref_sq m0 (Hall m0 (or_introl eq_refl))) as [P1 [P2 [P3 _]]].
      destruct (chain_fine (r0 :: rs) (m1 :: ms) r0 ltac:(cbn; now rewrite Hl) (sorted_self _ _ Hs) Hp) as [G1 G2].
      intros j Hj. destruct (C j 0%nat (TE c j 0) ltac:(lia) ltac:(cbn; lia)) as [[_ A] _]. destruct (C j 0%nat (TM c j 0) ltac:(lia) ltac:(cbn; lia)) as [_ [_ B]]. cbn [nth Nat.add] in A, B.
      destruct (A eq_refl) as [b MA]. destruct (B eq_refl) as [b' MB]. split.
      + destruct (core_state j k Hk _ r0 _ _ b _ H0 P2 P3 G1 MA) as [S1 S2].
        destruct (next_state j k Hk r0 _ _ r0 _ _ _ b 0 _ H0 P2 P3 G1 MA S1 S2) as [c' [d' [M' [T1 T2]]]]. exists c', d'. split; [exact M'|]. split; [exact T1|]. split; [exact T2|]. exists b. exact MA.
      + destruct (core_state j k Hk _ r0 _ _ b' _ H0 P1 P3 G2 MB) as [S1 S2].
        destruct (next_state j k Hk r0 _ _ r0 _ _ _ b' 0 _ H0 P1 P3 G2 MB S1 S2) as [c' [d' [M' [T1 T2]]]]. exists c', d'. split; [exact M'|]. split; [exact T1|]. split; [exact T2|]. exists b'. exact MB.
    - destruct (strat_pec_solves [k] 0 (Z.of_nat lmax) (only1 k Hk) ltac:(lia) mat ef uf m0 m1 r0 rs ms Hl Hc Hp H0 Hs Hr) as [c [E C]].
      exists c, true. split; [exact E|]. split; [now split|].
      intros j Hj. destruct (C j 0%nat (TE c j 0) ltac:(lia) ltac:(cbn; lia)) as [[_ A] _]. destruct (C j 0%nat (TM c j 0) ltac:(lia) ltac:(cbn; lia)) as [_ [_ B]]. cbn [nth Nat.add] in A, B.
      destruct (A eq_refl) as [ca [da [_ [Z1 MA]]]]. destruct (B eq_refl) as [cb [db [_ [Z2 MB]]]]. split.
      + assert (Z : fs j (nf m1 * k) ca da r0 = 0) by (unfold fs; rewrite Z1; ring). assert (T := zero_field j k Hk _ r0 _ _ _ _ _ H0 Q2 Q3 F1 MA Z).
        exists ca, da. split; [exact MA|]. split; [lra|]. split; [lra|exact Z].
      + rewrite (ftE j k Hk) in Z2 by assumption. assert (T := zero_slope j k Hk _ r0 _ _ _ _ _ H0 Q1 Q3 F2 MB Z2).
        exists cb, db. split; [exact MB|]. split; [lra|]. split; [lra|exact Z2].
  Qed.
  (** ** comparison *)
  Lemma runs_compare l core core' m0 m1 ms m0' m1' ms' r0 rs a a' b b' : length rs = length ms -> 0 < r0 -> Sorted Rle (r0 :: rs) ->
    (forall m, In m (m1 :: ms) -> has (mat m) (ef m) (uf m)) -> (forall m, In m (m1' :: ms') -> has (mat m) (ef m) (uf m)) ->
    Forall2 (fun x y => ef x k <= ef y k /\ uf y k <= uf x k) (m1 :: ms) (m1' :: ms') -> mat (last (m1 :: ms) 0%nat) = mat (last (m1' :: ms') 0%nat) ->
    core' = true \/ (core = false /\ core' = false /\ has (mat m0) (ef m0) (uf m0) /\ has (mat m0') (ef m0') (uf m0') /\ ef m0 k <= ef m0' k /\ uf m0' k <= uf m0 k) ->
    run_TE l core m0 m1 ms r0 rs a -> run_TE l core' m0' m1' ms' r0 rs a' -> run_TM l core m0 m1 ms r0 rs b -> run_TM l core' m0' m1' ms' r0 rs b' ->
    0 <= (-1) ^ S l * (a' - a) /\ 0 <= (-1) ^ S l * (b - b').
  Proof.
    intros Hl H0 Hs Hp Hp' F L Hc [c1 [d1 [M1 [A1 [A2 A3]]]]] [c2 [d2 [M2 [B1 [B2 B3]]]]] [c3 [d3 [M3 [C1 [C2 C3]]]]] [c4 [d4 [M4 [D1 [D2 D3]]]]].
    destruct Hc as [->|[-> [-> [P0 [P0' [O1 O2]]]]]].
    - destruct (chain_cmp rs ms ms' m1 m1' r0 Hl Hs Hp Hp' F L) as [K1 K2]. split.
      + exact (field_compare l k Hk _ _ r0 _ _ _ _ _ _ _ _ _ _ H0 K1 M2 M1 B3 A1 A2).
      + exact (slope_compare l k Hk _ _ r0 _ _ _ _ _ _ _ _ _ _ H0 K2 M3 M4 D3 C1 C2).
    - destruct A3 as [q1 N1]. destruct B3 as [q2 N2]. destruct C3 as [q3 N3]. destruct D3 as [q4 N4].
      destruct (chain_cmp (r0 :: rs) (m1 :: ms) (m1' :: ms') m0 m0' r0) as [K1 K2]; [cbn; now rewrite Hl|now apply sorted_self| | | |exact L|].
      + intros x [<-|Hx]; [exact P0|now apply Hp].
      + intros x [<-|Hx]; [exact P0'|now apply Hp'].
      + constructor; [now split|exact F].
      + split; [exact (cores_compare l k Hk _ _ r0 _ _ _ _ _ _ _ _ H0 K1 N2 N1)|exact (cores_compare l k Hk _ _ r0 _ _ _ _ _ _ _ _ H0 K2 N3 N4)].
  Qed.
End Stack.
