(** * The translation coefficients as sums over Gaunt coefficients and Bessel functions *)
From Coq Require Import Reals.
From Coquelicot Require Import Coquelicot.
From Coq Require Import Bool ZArith List Lia Lra.
From Verif Require Import Base Mat_Model Bessel_Model Bessel_Spec Bessel_Proofs Gaunt_Model Scat_Model Scat_Spec Trans_Model Trans_Spec Gaunt_Proofs.
Import ListNotations.
Open Scope R_scope.

Lemma lpps_length l1 l2 : length (lpps l1 l2) = (Nat.min l1 l2 + 1)%nat.
Proof. unfold lpps. now rewrite map_length, seq_length. Qed.
Lemma lpps_comm l1 l2 : lpps l2 l1 = lpps l1 l2.
Proof. unfold lpps. now rewrite (Nat.max_comm l2), (Nat.min_comm l2). Qed.
Lemma lpps_nth l1 l2 i : (i <= Nat.min l1 l2)%nat -> nth i (lpps l1 l2) 0%nat = (Nat.max l1 l2 - Nat.min l1 l2 + 2 * i)%nat.
Proof.
  intros H. unfold lpps. set (h := fun i => (Nat.max l1 l2 - Nat.min l1 l2 + 2 * i)%nat).
  rewrite (nth_indep _ 0%nat (h 0%nat)) by (rewrite map_length, seq_length; lia). rewrite map_nth, seq_nth by lia. reflexivity.
Qed.
Lemma pow_m1_even n : (-1) ^ (2 * n) = 1.
Proof. rewrite pow_mult. replace ((-1) ^ 2) with 1 by ring. apply pow1. Qed.
Lemma lpp_parity l1 l2 i : (i <= Nat.min l1 l2)%nat -> (-1) ^ nth i (lpps l1 l2) 0%nat = (-1) ^ (l1 + l2).
Proof.
  intros H. rewrite lpps_nth by assumption.
  replace (l1 + l2)%nat with (Nat.max l1 l2 - Nat.min l1 l2 + 2 * Nat.min l1 l2)%nat by lia.
  now rewrite !pow_add, !pow_m1_even.
Qed.

Lemma Rsum_ext {A} (f g : A -> R) l : (forall a, In a l -> f a = g a) -> Rsum (map f l) = Rsum (map g l).
Proof. intros H. f_equal. now apply map_ext_in. Qed.
Lemma Rsum_scal {A} c (f : A -> R) l : Rsum (map (fun a => c * f a) l) = c * Rsum (map f l).
Proof. induction l as [|a l IH]; cbn; [ring|]. unfold Rsum in IH. rewrite IH. ring. Qed.

Lemma sum_lpp_length f x lpp B g : length (sum_lpp f x lpp B g) = length x.
Proof. unfold sum_lpp. now rewrite map_length, seq_length. Qed.
(** multiplying each term by one and the same number *)
Lemma sum_lpp_scal f f' c x lpp B g :
  (forall i b v nL, (i < length lpp)%nat -> f' (nth i lpp 0%nat) b v nL = c * f (nth i lpp 0%nat) b v nL) ->
  sum_lpp f' x lpp B g = map (fun s => c * s) (sum_lpp f x lpp B g).
Proof.
  intros H. unfold sum_lpp. rewrite map_map. apply map_ext. intros q. rewrite <- Rsum_scal. apply Rsum_ext.
  intros i Hi. apply in_seq in Hi. apply H. lia.
Qed.

Lemma llp1_comm_common ext m l1 l2 lpp b g : common_ab ext m l2 l1 lpp b g = common_ab ext m l1 l2 lpp b g.
Proof. unfold common_ab. now rewrite (Rmult_comm (llp1 l2)). Qed.
Lemma EE_comm ext m l1 l2 lpp b g : EE_ab ext m l2 l1 lpp b g = EE_ab ext m l1 l2 lpp b g.
Proof. unfold EE_ab. rewrite llp1_comm_common. ring. Qed.
Lemma EM_comm ext m l1 l2 nL lpp b g : EM_ab ext m l2 l1 nL lpp b g = EM_ab ext m l1 l2 nL lpp b g.
Proof. unfold EM_ab. now rewrite llp1_comm_common. Qed.
Lemma sum_lpp_ext f f' x lpp B g : (forall p b v nL, f p b v nL = f' p b v nL) -> sum_lpp f x lpp B g = sum_lpp f' x lpp B g.
Proof. intros H. unfold sum_lpp. apply map_ext. intros q. apply Rsum_ext. intros i _. apply H. Qed.

(** ** what a successful call returned *)
Lemma get_vl1l2_inv t l1 l2 v : get_vl1l2 t l1 l2 = Val v ->
  exists g x B, gaunt (Z.of_nat l1) (Z.of_nat l2) (t_m t) = Def g /\ trans_arg (t_L t) (t_medium t) (t_k t) = Val x /\
    get_scaled_bessels t (lpps l1 l2) = Val (B, v_skal v) /\ length g = length (lpps l1 l2) /\
    v_EEab v = sum_lpp (fun lpp b g _ => EE_ab (t_ext t) (t_m t) l1 l2 lpp b g) x (lpps l1 l2) B g /\
    v_EEba v = sum_lpp (fun lpp b g _ => EE_ba (t_ext t) (t_m t) l1 l2 lpp b g) x (lpps l1 l2) B g /\
    v_EMab v = sum_lpp (fun lpp b g nL => EM_ab (t_ext t) (t_m t) l1 l2 nL lpp b g) x (lpps l1 l2) B g /\
    v_EMba v = sum_lpp (fun lpp b g nL => EM_ba (t_ext t) (t_m t) l1 l2 nL lpp b g) x (lpps l1 l2) B g.
Proof.
  unfold get_vl1l2. destruct (gaunt _ _ _) as [g|] eqn:Eg; [|discriminate]. cbn [of_cres obind].
  destruct (trans_arg _ _ _) as [x| |] eqn:Ex; try discriminate. cbn [obind].
  destruct (get_scaled_bessels t (lpps l1 l2)) as [[B s]| |] eqn:EB; try discriminate. cbn [obind].
  destruct (Nat.eqb _ _) eqn:En; [|discriminate]. cbn [negb]. intros [= <-]. cbn.
  exists g, x, B. apply Nat.eqb_eq in En. auto 9.
Qed.

Lemma parity_rows t l1 l2 v : get_vl1l2 t l1 l2 = Val v ->
  v_EEba v = map (fun s => (-1) ^ (l1 + l2) * s) (v_EEab v) /\ v_EMba v = map (fun s => - (-1) ^ (l1 + l2) * s) (v_EMab v).
Proof.
  intros H. destruct (get_vl1l2_inv t l1 l2 v H) as [g [x [B [_ [_ [_ [_ [-> [-> [-> ->]]]]]]]]]].
  split; apply sum_lpp_scal; intros i b c nL Hi; rewrite lpps_length in Hi; unfold EE_ba, EM_ba; rewrite lpp_parity by lia; ring.
Qed.
Lemma mixing_zero t l1 l2 v : get_vl1l2 t l1 l2 = Val v -> t_m t = 0%Z ->
  (forall s, In s (v_EMab v) -> s = 0) /\ (forall s, In s (v_EMba v) -> s = 0).
Proof.
  intros H Hm. destruct (parity_rows t l1 l2 v H) as [_ E]. assert (Z0 : forall s, In s (v_EMab v) -> s = 0).
  { destruct (get_vl1l2_inv t l1 l2 v H) as [g [x [B [_ [_ [_ [_ [_ [_ [-> _]]]]]]]]]]. unfold sum_lpp. intros s Hs. apply in_map_iff in Hs.
    destruct Hs as [q [<- _]]. rewrite (Rsum_ext _ (fun _ => 0 * 1)). { rewrite Rsum_scal. ring. }
    intros i _. unfold EM_ab. rewrite Hm. ring. }
  split; [exact Z0|]. rewrite E. intros s Hs. apply in_map_iff in Hs. destruct Hs as [u [<- Hu]]. rewrite (Z0 u Hu). ring.
Qed.
Lemma swap_rows t l1 l2 : get_vl1l2 t l2 l1 = get_vl1l2 t l1 l2.
Proof.
  unfold get_vl1l2. rewrite gaunt_swap, lpps_comm. destruct (gaunt _ _ _) as [g|]; [|reflexivity]. cbn [of_cres obind].
  destruct (trans_arg _ _ _) as [x| |]; try reflexivity. cbn [obind].
  destruct (get_scaled_bessels t (lpps l1 l2)) as [[B s]| |]; try reflexivity. cbn [obind].
  destruct (Nat.eqb _ _); [|reflexivity]. cbn [negb]. f_equal. f_equal; apply sum_lpp_ext; intros; unfold EE_ba, EM_ba; now (rewrite (EE_comm _ _ l1 l2) || rewrite (EM_comm _ _ l1 l2)).
Qed.

(** ** the constructor *)
Lemma init_nonzero bes lmax lssmax m med L ks ext b x : (forall k, In k ks -> k <> 0) -> trans_arg L med ks = Val x ->
  bes x (AnInt (Z.of_nat (lmax + lssmax + 1))) ext = Ok b ->
  translation_init bes lmax lssmax m med L ks ext false =
    Val {| t_lmin := Z.to_nat (Z.max 1 m); t_lmax := lmax; t_lssmax := lssmax; t_m := m; t_L := L; t_medium := med; t_k := ks; t_ext := ext; t_bessels := Some b |}.
Proof.
  intros Hk Hx Hb. unfold translation_init. replace (existsb (fun k => Reqb k 0) ks) with false.
  - rewrite Hx. cbn [obind]. rewrite Hb. reflexivity.
  - symmetry. apply not_true_iff_false. intros E. apply existsb_exists in E. destruct E as [k [Hin E]].
    destruct (Reqb_spec k 0) as [->|]; [now apply (Hk 0)|discriminate].
Qed.
Lemma arg_val m e u L ks : has m e u -> (forall k, In k ks -> 0 < k) -> trans_arg L m ks = Val (map (fun k => k * L * sqrt (e k)) ks).
Proof.
  intros [H _] Hk. unfold trans_arg. rewrite (proj1 (H ks Hk)). cbn [obind]. f_equal.
  unfold vmap2. clear. induction ks as [|k ks IH]; [reflexivity|]. cbn. now rewrite IH.
Qed.

Lemma columns_map (f : nat -> list R) n lpp : (forall l, In l lpp -> (l < n)%nat) -> columns (map f (seq 0 n)) lpp = Val (map f lpp).
Proof.
  induction lpp as [|l lpp IH]; intros H; [reflexivity|]. cbn [columns map].
  rewrite nth_error_map. assert (Hl := H l (or_introl eq_refl)).
  rewrite (nth_error_nth' (seq 0 n) 0%nat) by (rewrite seq_length; exact Hl). rewrite seq_nth by assumption. cbn [option_map Nat.add].
  rewrite IH; [reflexivity|]. intros; apply H; now right.
Qed.
Lemma last_map {A B} (f : A -> B) l d d' : l <> [] -> last (map f l) d' = f (last l d).
Proof. induction l as [|a [|b l] IH]; intros H; [congruence|reflexivity|]. cbn [map]. cbn [last map] in *. apply IH. discriminate. Qed.
Lemma lpps_last l1 l2 : last (lpps l1 l2) 0%nat = (l1 + l2)%nat.
Proof.
  unfold lpps. rewrite seq_app, map_app. cbn [seq map]. rewrite last_last. lia.
Qed.
Lemma lpps_hd l1 l2 : exists r, lpps l1 l2 = (Nat.max l1 l2 - Nat.min l1 l2)%nat :: r.
Proof. unfold lpps. rewrite Nat.add_1_r. cbn [seq map]. eexists. f_equal. lia. Qed.

(** the order whose logarithm is the scale *)
Definition scale_order (ext : bool) (l1 l2 : nat) : nat := if ext then (l1 + l2)%nat else (Nat.max l1 l2 - Nat.min l1 l2)%nat.

Lemma scaled_val t (f : nat -> list R) n l1 l2 : t_bessels t = Some (map f (seq 0 n)) -> (l1 + l2 < n)%nat ->
  get_scaled_bessels t (lpps l1 l2) =
    Val (map (fun l => vmap2 (fun v n => exp (v - n)) (f l) (f (scale_order (t_ext t) l1 l2))) (lpps l1 l2), f (scale_order (t_ext t) l1 l2)).
Proof.
  intros Hb Hn. unfold get_scaled_bessels. rewrite Hb, columns_map.
  - cbn [obind]. rewrite map_map. replace (if t_ext t then last (map f (lpps l1 l2)) [] else hd [] (map f (lpps l1 l2))) with (f (scale_order (t_ext t) l1 l2)); [reflexivity|].
    unfold scale_order. destruct (t_ext t).
    + rewrite (last_map f _ 0%nat), lpps_last; [reflexivity|]. destruct (lpps_hd l1 l2) as [r ->]. discriminate.
    + destruct (lpps_hd l1 l2) as [r ->]. reflexivity.
  - intros l Hl. unfold lpps in Hl. apply in_map_iff in Hl. destruct Hl as [i [<- Hi]]. apply in_seq in Hi. lia.
Qed.
Lemma at_vmap2 (h : R -> R -> R) a b q : (q < length a)%nat -> length b = length a -> at_ (vmap2 h a b) q = h (at_ a q) (at_ b q).
Proof.
  unfold at_, vmap2. revert b q. induction a as [|x a IH]; intros [|y b] q Hq Hl; cbn in *; try lia. destruct q as [|q]; [reflexivity|]. apply IH; lia.
Qed.

(** closed form of the four coefficients for one wavenumber, scale included; [s p] is the Bessel function of order p *)
Definition closed (F : nat -> R -> R -> R) (s : nat -> R) (g : list R) (l1 l2 : nat) : R :=
  sum_f_R0 (fun i => F (nth i (lpps l1 l2) 0%nat) (s (nth i (lpps l1 l2) 0%nat)) (nth i g 0)) (Nat.min l1 l2).
Lemma Rsum_seq (f : nat -> R) n : Rsum (map f (seq 0 (n + 1))) = sum_f_R0 f n.
Proof.
  induction n as [|n IH]; [cbn; ring|]. rewrite Nat.add_1_r in *. rewrite seq_S, map_app. cbn [sum_f_R0 Nat.add]. rewrite <- IH.
  unfold Rsum. generalize (map f (seq 0 (S n))). intros l. induction l as [|a l IHl]; cbn [app fold_right map] in *; [ring|]. rewrite IHl. ring.
Qed.
Section Values.
Context (t : translation) (f : nat -> list R) (n : nat) (x : list R) (l1 l2 : nat).
Context (Hb : t_bessels t = Some (map f (seq 0 n))) (Hn : (l1 + l2 < n)%nat) (Hx : trans_arg (t_L t) (t_medium t) (t_k t) = Val x)
        (Hf : forall l, (l < n)%nat -> length (f l) = length x).
Notation so := (scale_order (t_ext t) l1 l2).
Lemma so_lt : (so < n)%nat. Proof. unfold scale_order. destruct (t_ext t); lia. Qed.

Lemma sum_lpp_at F g q : (q < length x)%nat -> length g = length (lpps l1 l2) ->
  (forall p b v nL c, F p (b * c) v nL = F p b v nL * c) ->
  at_ (sum_lpp F x (lpps l1 l2) (map (fun l => vmap2 (fun v n => exp (v - n)) (f l) (f so)) (lpps l1 l2)) g) q * exp (at_ (f so) q) =
  closed (fun p b v => F p b v (at_ x q)) (fun p => exp (at_ (f p) q)) g l1 l2.
Proof.
  intros Hq Hg HF. unfold sum_lpp, at_ at 1.
  set (h := fun q => Rsum (map (fun i => F (nth i (lpps l1 l2) 0%nat) (at_ (nth i (map (fun l => vmap2 (fun v n => exp (v - n)) (f l) (f so)) (lpps l1 l2)) []) q) (nth i g 0) (at_ x q)) (seq 0 (length (lpps l1 l2))))).
  rewrite (nth_indep _ 0 (h 0%nat)) by (rewrite map_length, seq_length; exact Hq).
  rewrite map_nth, seq_nth by assumption. cbn [Nat.add]. unfold h. rewrite lpps_length, Rsum_seq. unfold closed.
  rewrite Rmult_comm, scal_sum. apply sum_eq. intros i Hi.
  assert (Hp : (nth i (lpps l1 l2) 0 < n)%nat) by (rewrite lpps_nth by assumption; lia).
  set (G := fun l => vmap2 (fun v n => exp (v - n)) (f l) (f so)). rewrite (nth_indep _ [] (G 0%nat)) by (rewrite map_length, lpps_length; lia).
  rewrite map_nth. unfold G. rewrite at_vmap2; [|now rewrite Hf|now rewrite !Hf by (assumption || apply so_lt)].
  rewrite <- HF, <- exp_plus. f_equal. f_equal. ring.
Qed.
Lemma get_values : exists g v, gaunt (Z.of_nat l1) (Z.of_nat l2) (t_m t) = Def g /\ length g = (Nat.min l1 l2 + 1)%nat /\ get_vl1l2 t l1 l2 = Val v /\
  length (v_EEab v) = length x /\ length (v_EEba v) = length x /\ length (v_EMab v) = length x /\ length (v_EMba v) = length x /\ length (v_skal v) = length x /\
  forall q, (q < length x)%nat -> let s p := exp (at_ (f p) q) in let c := exp (at_ (v_skal v) q) in
    at_ (v_EEab v) q * c = closed (EE_ab (t_ext t) (t_m t) l1 l2) s g l1 l2 /\
    at_ (v_EEba v) q * c = closed (EE_ba (t_ext t) (t_m t) l1 l2) s g l1 l2 /\
    at_ (v_EMab v) q * c = closed (EM_ab (t_ext t) (t_m t) l1 l2 (at_ x q)) s g l1 l2 /\
    at_ (v_EMba v) q * c = closed (EM_ba (t_ext t) (t_m t) l1 l2 (at_ x q)) s g l1 l2.
Proof.
  assert (G : exists g, gaunt (Z.of_nat l1) (Z.of_nat l2) (t_m t) = Def g /\ length g = (Nat.min l1 l2 + 1)%nat).
  { destruct (Z.lt_ge_cases (Z.of_nat (Nat.min l1 l2)) (Z.abs (t_m t))) as [h|h].
    - eexists; split; [apply gaunt_zero; exact h|]. apply repeat_length.
    - destruct (gaunt_ok l1 l2 (t_m t)) as [g [c [e [hg _]]]]; [lia|]. exists g. split; [exact e|exact hg]. }
  destruct G as [g [Eg Lg]]. exists g.
  assert (E : get_vl1l2 t l1 l2 = get_vl1l2 t l1 l2) by reflexivity. unfold get_vl1l2 at 2 in E. rewrite Eg in E. cbn [of_cres obind] in E. rewrite Hx in E. cbn [obind] in E.
  rewrite (scaled_val t f n l1 l2 Hb Hn) in E. cbn [obind] in E. rewrite Lg, lpps_length, Nat.eqb_refl in E. cbn [negb] in E.
  eexists. split; [exact Eg|]. split; [exact Lg|]. split; [exact E|]. cbn [v_EEab v_EEba v_EMab v_EMba v_skal]. rewrite !sum_lpp_length. do 4 (split; [reflexivity|]).
  split; [apply Hf, so_lt|]. intros q Hq.
  repeat split; rewrite sum_lpp_at; try assumption; try reflexivity; try (now rewrite lpps_length);
    intros; unfold EE_ba, EM_ba, EE_ab, EM_ab, common_ab; ring.
Qed.
End Values.
