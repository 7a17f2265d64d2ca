(** * Round-trip elements with the exact translation functions *)
From Coq Require Import Reals.
From Coquelicot Require Import Coquelicot.
From Coq Require Import Bool ZArith List Lia Lra.
From Verif Require Import Base Mat_Model Mat_Spec Mat_Proofs Help_Proofs Bessel_Model Bessel_Spec
  Scat_Model Scat_Spec Scat_Proofs Scat_Proofs2 Scat_Proofs6 Scat_Proofs9 Trans_Model Trans_Spec Trans_Proofs Trans_Proofs2 Trans_Proofs3 Trans_Proofs4 Trans_Proofs5 Trans_Props
  Lin_Model RT_Model RT_Spec RT_Spec2 RT_Proofs RT_Proofs2 RT_Proofs3 RT_Proofs9 Int_Proofs2 Trans_Proofs7 Ecc_Spec.
Import ListNotations.
Open Scope R_scope.

Lemma gen_code mieb c m k : rt_gen mieb trans_bessels c m k = rt_with mieb c m k.
Proof. reflexivity. Qed.

(** a table of the right shape, for one argument *)
Definition table (bes : bessel_fun) : Prop := forall x n ext, 0 < x -> exists f, bes [x] (AnInt (Z.of_nat n)) ext = Ok (map f (seq 0 (n + 1))) /\ forall l, length (f l) = 1%nat.
Lemma table_exact : table exact_trans.
Proof.
  intros x n ext Hx. unfold exact_trans. rewrite Nat2Z.id. exists (fun l => map (fun t => ln (if ext then sph_k l t else sph_i l t)) [x]). split; reflexivity.
Qed.
Lemma table_code : table trans_bessels.
Proof. intros x n ext Hx. apply code_table; [discriminate|]. intros t [<-|[]]. exact Hx. Qed.

Section Gen.
  Context (bes : bessel_fun) (Hb : table bes).
  Lemma constructed_gen lmax lssmax m med e u L k ext : has med e u -> 0 < L -> 0 < k ->
    exists t, translation_init bes lmax lssmax m med L [k] ext false = Val t /\
      t_lmin t = Z.to_nat (Z.max 1 m) /\ t_lmax t = lmax /\ t_lssmax t = lssmax /\ t_k t = [k] /\
      forall l1 l2, (l1 <= lmax)%nat -> (l2 <= lssmax)%nat -> exists v, get_vl1l2 t l1 l2 = Val v.
  Proof.
    intros Hh HL Hk. set (x := map (fun k => k * L * sqrt (e k)) [k]). assert (Ha : trans_arg L med [k] = Val x) by (apply arg_val with u; [exact Hh|exact (only k Hk)]).
    assert (Hp : 0 < k * L * sqrt (e k)).
    { destruct Hh as [_ [P _]]. destruct (P k Hk). repeat apply Rmult_lt_0_compat; try assumption. now apply sqrt_lt_R0. }
    destruct (Hb _ (lmax + lssmax + 1)%nat ext Hp) as [f [E Hf]].
    eexists. split; [apply (init_nonzero bes lmax lssmax m med L [k] ext _ x (fun k' Hin => Rgt_not_eq _ _ (only k Hk k' Hin)) Ha E)|]. cbn.
    do 4 (split; [reflexivity|]). intros l1 l2 H1 H2. set (t := Build_translation _ _ _ _ _ _ _ _ _).
    destruct (get_values t f (lmax + lssmax + 1 + 1) x l1 l2 eq_refl ltac:(lia) Ha (fun l _ => Hf l)) as [g [v [_ [_ [Ev _]]]]].
    now exists v.
  Qed.
  Lemma defined_gen lmax lssmax m med e u L k ext : has med e u -> 0 < L -> 0 < k -> let lmin := Z.to_nat (Z.max 1 m) in
    exists t V, translation_init bes lmax lssmax m med L [k] ext false = Val t /\ trans_ab t = Val (Dynamic V) /\
      forall i, (lmin + i <= lmax)%nat -> forall j, (lmin + j <= lssmax)%nat ->
        exists v, nth_error (nth i V []) j = Some v /\ get_vl1l2 t (lmin + i) (lmin + j) = Val v.
  Proof.
    intros Hh HL Hk lmin. destruct (constructed_gen lmax lssmax m med e u L k ext Hh HL Hk) as [t [Et [T1 [T2 [T3 [T4 H]]]]]]. exists t.
    fold lmin in T1.
    assert (R : forall a, (a <= lmax)%nat -> exists r, omap (fun b => get_vl1l2 t a b) (orders lmin lssmax) = Val r).
    { intros a Ha. destruct (omap_val (fun b => get_vl1l2 t a b) (fun _ _ => True) (orders lmin lssmax)) as [r [E _]]; [|now exists r].
      intros b Hb'. apply orders_in in Hb'. destruct (H a b Ha (proj2 Hb')) as [v Ev]. now exists v. }
    destruct (omap_val (fun a => omap (fun b => get_vl1l2 t a b) (orders lmin lssmax)) (fun _ _ => True) (orders lmin lmax)) as [V [EV [LV _]]].
    { intros a Ha. apply orders_in in Ha. destruct (R a (proj2 Ha)) as [r E]. now exists r. }
    exists V. split; [exact Et|]. split.
    - rewrite nonzero_dynamic by (rewrite T4; intros k' Hin; apply Rgt_not_eq, (only k Hk k' Hin)). rewrite T1, T2, T3, EV. reflexivity.
    - intros i Hi j Hj. destruct (omap_nth _ _ _ EV i _ (orders_nth lmin lmax i Hi)) as [r [Er E]].
      rewrite (nth_error_nth V i [] Er). destruct (omap_nth _ _ _ E j _ (orders_nth lmin lssmax j Hj)) as [v [Ej Ev]]. exists v. now split.
  Qed.
  Lemma elements_gen mieb c m k A B e u : mieA mieb c [k] = Val A -> mieB mieb c [k] = Val B -> has (c_med c) e u -> 0 < c_L c -> 0 < k ->
    exists E, elements mieb bes c m [k] = Val E /\ same_coefs (n1 c m) (n2 c m) (E 0%nat) (rt_gen mieb bes c m k).
  Proof.
    intros EA EB Hh HL Hk. unfold elements. rewrite EA, EB. cbn [obind]. unfold trans.
    destruct (defined_gen (c_lmax c) (c_lssmax c) m (c_med c) e u (c_L c) k (c_ext c) Hh HL Hk) as [t [V [E1 [E2 H]]]].
    rewrite E1. cbn [obind]. rewrite E2. cbn [obind]. eexists. split; [reflexivity|]. unfold rt_gen, pack, same_coefs. cbn [aTE aTM a2 bTE bTM b2 V0 V1 V2 V3 V4].
    rewrite exp_0. split; [|split].
    - intros i Hi. unfold entry. rewrite EA. rewrite !Rmult_1_r. split; reflexivity.
    - intros i Hi. unfold entry. rewrite EB. rewrite !Rmult_1_r. split; reflexivity.
    - intros i s Hi Hs. unfold n1, n2, lmin in *. destruct (H i ltac:(lia) s ltac:(lia)) as [v [Ev G]].
      unfold vget. rewrite Ev. unfold coefficient. rewrite E1. unfold lmin. rewrite G. rewrite !Rmult_1_r. repeat split; reflexivity.
  Qed.
End Gen.

(** ** the translation coefficients of a configuration inside a cavity, with their signs removed *)
Lemma sgn_shift2 a i s : (-1) ^ (a + i + (a + s)) = (-1) ^ (i + s).
Proof. exact (sgn2_shift a i s). Qed.
Lemma sgn_twice n : (-1) ^ n * (-1) ^ n = 1.
Proof. rewrite <- Rpow_mult_distr. replace (-1 * -1) with 1 by ring. apply pow1. Qed.
Section Trips.
  Context (mieb : list R -> nat -> Z -> res (list (list R) * list (list R))) (c : config) (m : Z) (k : R) (e u : R -> R).
  Context (Hx : c_ext c = false) (Hh : has (c_med c) e u) (Hk : 0 < k) (H0 : (0 <= m)%Z).
  Context (i s : nat) (Hi : (i < n1 c m)%nat) (Hs : (s < n2 c m)%nat).
  Let rt L := rt_gen mieb exact_trans (at_distance c L) m k.
  Lemma trans_grows : exists P Q, grows P /\ grows Q /\ forall L, 0 < L -> let sg := (-1) ^ (i + s) in
    V0 (rt L) i s = sg * P (k * L * sqrt (e k)) /\ V1 (rt L) i s = P (k * L * sqrt (e k)) /\
    V2 (rt L) i s = sg * (2 * IZR m * Q (k * L * sqrt (e k))) /\ V3 (rt L) i s = - (2 * IZR m * Q (k * L * sqrt (e k))).
  Proof.
    assert (B1 : (1 <= lmin m + i <= c_lmax c)%nat) by (unfold n1 in Hi; unfold lmin in *; lia).
    assert (B2 : (1 <= lmin m + s <= c_lssmax c)%nat) by (unfold n2 in Hs; unfold lmin in *; lia).
    assert (B3 : (Z.abs m <= Z.of_nat (Nat.min (lmin m + i) (lmin m + s)))%Z) by (unfold lmin; lia).
    assert (He : 0 < e k) by (destruct Hh as [_ [P _]]; now apply P).
    destruct (int_code (c_med c) e u (c_lmax c) (c_lssmax c) (lmin m + i) (lmin m + s) m k Hh B1 B2 B3 Hk He) as [P [Q [FP [FQ E]]]].
    exists P, (fun x => x * Q x). split; [exact FP|]. split; [now apply grows_x|]. intros L HL. destruct (E L HL) as [E1 [E2 [E3 E4]]].
    unfold rt, rt_gen, at_distance. cbn [V0 V1 V2 V3 c_lmax c_lssmax c_med c_L c_ext]. rewrite Hx, E1, E2, E3, E4, sgn_shift2.
    set (q := k * L * sqrt (e k)). repeat split; ring.
  Qed.
End Trips.
