(** * The tables of translation coefficients *)
From Coq Require Import Reals.
From Coquelicot Require Import Coquelicot.
From Coq Require Import Bool ZArith List Lia Lra.
From Verif Require Import Base Mat_Model Help_Model Help_Spec Help_Proofs Bessel_Model Bessel_Spec Bessel_Proofs Bessel_Proofs4 Bessel_Proofs6
  Gaunt_Model Gaunt_Proofs Scat_Model Scat_Spec Trans_Model Trans_Spec Trans_Proofs.
Import ListNotations.
Open Scope R_scope.

Lemma i01_lengths x : length (fst (i01 x)) = length x /\ length (snd (i01 x)) = length x.
Proof.
  unfold i01. assert (E : (length (filter is_small x) + length (filter (fun t => negb (is_small t)) x) = length x)%nat).
  { induction x as [|a x IH]; [reflexivity|]. cbn [filter]. destruct (is_small a); cbn [negb length]; lia. }
  destruct (filter is_small x) as [|a p]; destruct (filter (fun t => negb (is_small t)) x) as [|b q]; cbn [fst snd map length app] in *;
    rewrite ?app_length, ?map_length; cbn [length] in *; rewrite ?map_length; lia.
Qed.
Lemma lni_all_table x n : exists f, lni_all x n = map f (seq 0 (n + 1)) /\ forall l, length (f l) = length x.
Proof.
  exists (fun l => match l with O => fst (i01 x) | 1%nat => snd (i01 x) | _ => lni_col x l end). split.
  - unfold lni_all. destruct n as [|n]; [reflexivity|]. destruct n as [|n]; [reflexivity|].
    rewrite (firstn_all2 (n := S (S (S n)))) by (cbn [length]; rewrite map_length, seq_length; lia).
    replace (S (S n) - 1)%nat with (S n) by lia. replace (S (S n) + 1)%nat with (S (S (S n))) by lia.
    change (seq 0 (S (S (S n)))) with (0%nat :: 1%nat :: seq 2 (S n)). rewrite !map_cons. do 2 f_equal.
    apply map_ext_in. intros l Hl. apply in_seq in Hl. destruct l as [|[|l]]; try lia. reflexivity.
  - intros [|[|l]]; [apply i01_lengths|apply i01_lengths|]. unfold lni_col. apply map_length.
Qed.
Lemma code_table x n ext : x <> [] -> (forall t, In t x -> 0 < t) ->
  exists f, trans_bessels x (AnInt (Z.of_nat n)) ext = Ok (map f (seq 0 (n + 1))) /\ forall l, length (f l) = length x.
Proof.
  intros Hx Hp. destruct ext; unfold trans_bessels.
  - exists (lnk_col x). rewrite (lnknu_spec x n Hp), Nat.add_1_r. split; [reflexivity|]. intros l. apply map_length.
  - destruct (lni_all_table x n) as [f [E H]]. exists f. rewrite (lniknu_spec x n Hx Hp). cbn [bind fst]. rewrite E. split; [reflexivity|exact H].
Qed.

Lemma omap_val {A B} (f : A -> out B) (P : A -> B -> Prop) l : (forall a, In a l -> exists b, f a = Val b /\ P a b) ->
  exists r, omap f l = Val r /\ length r = length l /\ forall i a b, nth_error l i = Some a -> nth_error r i = Some b -> f a = Val b /\ P a b.
Proof.
  induction l as [|a l IH]; intros H.
  - exists []. split; [reflexivity|]. split; [reflexivity|]. intros [|i] ? ? E; discriminate E.
  - destruct (H a (or_introl eq_refl)) as [b [E1 E2]]. destruct IH as [r [E3 [E4 E5]]]; [intros; apply H; now right|].
    exists (b :: r). cbn [omap]. rewrite E1. cbn [obind]. rewrite E3. cbn [obind]. split; [reflexivity|]. split; [cbn; lia|].
    intros [|i] x y Ex Ey; cbn in *; [injection Ex as <-; injection Ey as <-; split; assumption|now apply (E5 i)].
Qed.

(** a constructed object returns all its coefficients *)
Lemma constructed lmax lssmax m med e u L ks ext : has med e u -> 0 < L -> ks <> [] -> (forall k, In k ks -> 0 < k) ->
  exists t, translation_init trans_bessels lmax lssmax m med L ks ext false = Val t /\
    t_lmin t = Z.to_nat (Z.max 1 m) /\ t_lmax t = lmax /\ t_lssmax t = lssmax /\ t_k t = ks /\ t_m t = m /\ t_ext t = ext /\
    forall l1 l2, (l1 <= lmax)%nat -> (l2 <= lssmax)%nat -> exists v, get_vl1l2 t l1 l2 = Val v /\
      length (v_EEab v) = length ks /\ length (v_EEba v) = length ks /\ length (v_EMab v) = length ks /\ length (v_EMba v) = length ks /\ length (v_skal v) = length ks.
Proof.
  intros Hh HL Hks Hk. set (x := map (fun k => k * L * sqrt (e k)) ks). assert (Ha : trans_arg L med ks = Val x) by now apply arg_val with u.
  assert (Hx : x <> []) by (unfold x; destruct ks; [congruence|discriminate]).
  assert (Hp : forall t, In t x -> 0 < t).
  { intros t Ht. apply in_map_iff in Ht. destruct Ht as [k [<- Hin]]. assert (K := Hk k Hin). destruct Hh as [_ [P _]]. destruct (P k K).
    repeat apply Rmult_lt_0_compat; try assumption. now apply sqrt_lt_R0. }
  destruct (code_table x (lmax + lssmax + 1) ext Hx Hp) as [f [E Hf]].
  assert (Hx' : length x = length ks) by apply map_length.
  eexists. split; [apply (init_nonzero trans_bessels lmax lssmax m med L ks ext _ x (fun k Hin => Rgt_not_eq _ _ (Hk k Hin)) Ha E)|]. cbn.
  do 6 (split; [reflexivity|]). intros l1 l2 H1 H2. set (t := Build_translation _ _ _ _ _ _ _ _ _).
  destruct (get_values t f (lmax + lssmax + 1 + 1) x l1 l2 eq_refl ltac:(lia) Ha (fun l _ => Hf l)) as [g [v [_ [_ [Ev [L1 [L2 [L3 [L4 [L5 _]]]]]]]]]].
  exists v. rewrite <- Hx'. auto 9.
Qed.

Lemma nonzero_dynamic (t : translation) : (forall k, In k (t_k t) -> k <> 0) -> trans_ab t =
  (let! v := omap (fun a => omap (fun b => get_vl1l2 t a b) (orders (t_lmin t) (t_lssmax t))) (orders (t_lmin t) (t_lmax t)) in Val (Dynamic v)).
Proof.
  intros H. unfold trans_ab. destruct (t_k t) as [|k [|k' r]]; try reflexivity. destruct (Reqb_spec k 0) as [->|]; [|reflexivity]. exfalso. now apply (H 0 (or_introl eq_refl)).
Qed.
Lemma orders_nth lmin lmax i : (lmin + i <= lmax)%nat -> nth_error (orders lmin lmax) i = Some (lmin + i)%nat.
Proof. intros H. unfold orders. rewrite (nth_error_nth' _ 0%nat) by (rewrite seq_length; lia). now rewrite seq_nth by lia. Qed.
Lemma orders_length lmin lmax : length (orders lmin lmax) = (lmax + 1 - lmin)%nat.
Proof. unfold orders. apply seq_length. Qed.
Lemma orders_in lmin lmax l : In l (orders lmin lmax) -> (lmin <= l <= lmax)%nat.
Proof. unfold orders. intros H. apply in_seq in H. lia. Qed.

Lemma omap_nth {A B} (f : A -> out B) l r : omap f l = Val r -> forall i a, nth_error l i = Some a -> exists b, nth_error r i = Some b /\ f a = Val b.
Proof.
  revert r. induction l as [|x l IH]; intros r E i a Ha; [destruct i; discriminate Ha|]. cbn [omap] in E.
  destruct (f x) as [b| |] eqn:Eb; try discriminate. cbn [obind] in E. destruct (omap f l) as [s| |] eqn:Es; try discriminate. cbn [obind] in E. injection E as <-.
  destruct i as [|i]; cbn in *; [injection Ha as <-; eauto|]. now apply IH.
Qed.
Lemma omap_length {A B} (f : A -> out B) l r : omap f l = Val r -> length r = length l.
Proof.
  revert r. induction l as [|x l IH]; intros r E; cbn [omap] in E; [injection E as <-; reflexivity|].
  destruct (f x) as [b| |]; try discriminate. cbn [obind] in E. destruct (omap f l) as [s| |]; try discriminate. injection E as <-. cbn. now rewrite (IH s).
Qed.

Lemma neg_m t l1 l2 v : get_vl1l2 t l1 l2 = Val v ->
  exists v', get_vl1l2 {| t_lmin := t_lmin t; t_lmax := t_lmax t; t_lssmax := t_lssmax t; t_m := - t_m t; t_L := t_L t; t_medium := t_medium t; t_k := t_k t; t_ext := t_ext t; t_bessels := t_bessels t |} l1 l2 = Val v' /\
    v_EEab v' = v_EEab v /\ v_EEba v' = v_EEba v /\ v_EMab v' = map Ropp (v_EMab v) /\ v_EMba v' = map Ropp (v_EMba v) /\ v_skal v' = v_skal v.
Proof.
  intros H. assert (SG : sgnZ (- t_m t) = sgnZ (t_m t)) by (unfold sgnZ; now rewrite Z.even_opp).
  destruct (get_vl1l2_inv t l1 l2 v H) as [g [x [B [Eg [Ex [EB [El [E1 [E2 [E3 E4]]]]]]]]]].
  set (t' := Build_translation _ _ _ _ _ _ _ _ _). unfold get_vl1l2. change (t_m t') with (- t_m t)%Z. rewrite gaunt_neg, Eg. cbn [of_cres obind].
  change (trans_arg (t_L t') (t_medium t') (t_k t')) with (trans_arg (t_L t) (t_medium t) (t_k t)). rewrite Ex. cbn [obind].
  change (get_scaled_bessels t' (lpps l1 l2)) with (get_scaled_bessels t (lpps l1 l2)). rewrite EB. cbn [obind]. rewrite El, Nat.eqb_refl. cbn [negb].
  eexists. split; [reflexivity|]. cbn [v_EEab v_EEba v_EMab v_EMba v_skal]. change (t_ext t') with (t_ext t). rewrite E1, E2, E3, E4.
  assert (S : forall s, map Ropp s = map (fun y => -1 * y) s) by (intros s; apply map_ext; intros; ring).
  split; [|split; [|split; [|split]]]; try reflexivity; rewrite ?S.
  1,2: apply sum_lpp_ext; intros; unfold EE_ba, EE_ab, common_ab; now rewrite SG.
  all: apply sum_lpp_scal; intros; unfold EM_ba, EM_ab, common_ab; rewrite SG, opp_IZR; ring.
Qed.

Lemma diagonal_one m l : (1 <= l)%nat -> static_value (trans_k0_int m l l) = 1.
Proof.
  intros Hl. unfold static_value, trans_k0_int. cbn [fst snd]. rewrite Nat.ltb_irrefl. cbn [negb]. rewrite Nat.sub_diag, Rmult_1_l. etransitivity; [|exact exp_0]. f_equal.
  change (2 * 0 + 1)%nat with 1%nat. change (0 + 1)%nat with 1%nat. rewrite ln_2dbl_spec.
  assert (A : lfac (2 * l + 1) = ln (2 * INR l + 1) + lfac (2 * l)).
  { unfold lfac, gammaln. rewrite !Nat.add_sub. rewrite Nat.add_1_r at 1. rewrite fact_simpl, mult_INR, ln_mult.
    - f_equal. f_equal. rewrite S_INR, mult_INR. cbn. ring.
    - apply lt_0_INR. lia.
    - apply INR_fact_lt_0. }
  rewrite A. replace (lfac 1) with 0; [|unfold lfac, gammaln; cbn; now rewrite ln_1]. replace (lfac 0) with 0; [|unfold lfac, gammaln; cbn; now rewrite ln_1].
  replace (ln (odd_dfact 1)) with 0; [lra|]. replace (odd_dfact 1) with 1 by (cbn; ring). now rewrite ln_1.
Qed.
