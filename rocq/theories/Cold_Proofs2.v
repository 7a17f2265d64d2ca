(** * Reflection coefficients are continuous functions of wave vector and frequency *)
From Coq Require Import Reals.
From Coquelicot Require Import Coquelicot.
From Coq Require Import Bool ZArith List Lia Lra Psatz.
From Verif Require Import Base Mat_Model Mat_Spec Scat_Model Scat_Spec Mat_Props Scat_Proofs Scat_Proofs2 Scat_Props PFA_Model PFA_Spec PFA_Proofs PFA_Proofs2 Cold_Spec.
Import ListNotations.
Open Scope R_scope.

Lemma has_one m e u e' u' k : has m e u -> has m e' u' -> 0 < k -> e k = e' k /\ u k = u' k.
Proof.
  intros [A _] [B _] Hk. destruct (A [k]) as [A1 A2]; [intros x [<-|[]]; assumption|]. destruct (B [k]) as [B1 B2]; [intros x [<-|[]]; assumption|].
  rewrite A1 in B1. rewrite A2 in B2. cbn [map] in B1, B2. injection B1. injection B2. auto.
Qed.
Lemma steady_of m e u : has m e u -> (forall k, 0 < k -> continuity_pt e k /\ continuity_pt u k) -> steady m.
Proof.
  intros H C e' u' H' k Hk. destruct (C k Hk) as [C1 C2]. assert (P : 0 < k / 2) by lra.
  split; [apply (continuity_pt_ext_loc e)|apply (continuity_pt_ext_loc u)]; try assumption; exists (mkposreal _ P); intros y Hy; change (Rabs (y - k) < k / 2) in Hy; apply Rabs_def2 in Hy; apply (has_one m e u e' u' y H H'); lra.
Qed.
Lemma steady_pec : steady PEC.
Proof. intros e u [_ [_ H]]. discriminate H. Qed.
Section Two.
Context (x y : R).
Lemma cont2_snd f : continuity_pt f y -> continuity_2d_pt (fun _ v => f v) x y.
Proof. intros H. apply (continuity_1d_2d_pt_comp f (fun _ v => v)); [exact H|apply continuity_2d_pt_id2]. Qed.
Lemma cont2_sqrt f : continuity_2d_pt f x y -> continuity_2d_pt (fun u v => sqrt (f u v)) x y.
Proof. intros H. apply (continuity_1d_2d_pt_comp sqrt f); [|exact H]. apply continuity_pt_filterlim, continuous_sqrt. Qed.
Lemma cont2_sqr f : continuity_2d_pt f x y -> continuity_2d_pt (fun u v => f u v ^ 2) x y.
Proof. intros H. apply (continuity_2d_pt_ext (fun u v => f u v * f u v)); [intros; ring|now apply continuity_2d_pt_mult]. Qed.
Lemma cont2_exp f : continuity_2d_pt f x y -> continuity_2d_pt (fun u v => exp (f u v)) x y.
Proof. intros H. apply (continuity_1d_2d_pt_comp exp f); [|exact H]. apply derivable_continuous_pt, derivable_pt_exp. Qed.
Lemma cont2_ln f : continuity_2d_pt f x y -> 0 < f x y -> continuity_2d_pt (fun u v => ln (f u v)) x y.
Proof. intros H P. apply (continuity_1d_2d_pt_comp ln f); [|exact H]. apply derivable_continuous_pt. exists (/ f x y). now apply derivable_pt_lim_ln. Qed.
Lemma cont2_quot a b : continuity_2d_pt a x y -> continuity_2d_pt b x y -> a x y + b x y <> 0 -> continuity_2d_pt (fun u v => (a u v - b u v) / (a u v + b u v)) x y.
Proof.
  intros A B N. apply (continuity_2d_pt_mult (fun u v => a u v - b u v) (fun u v => / (a u v + b u v))); [now apply continuity_2d_pt_minus|]. apply continuity_2d_pt_inv; [now apply continuity_2d_pt_plus|exact N].
Qed.
Lemma cont2_root e u : continuity_pt e y -> continuity_pt u y -> continuity_2d_pt (fun q k => sqrt (q ^ 2 + (k * sqrt (e k * u k)) ^ 2)) x y.
Proof.
  intros A B. apply cont2_sqrt. apply (continuity_2d_pt_plus (fun q k => q ^ 2) (fun q k => (k * sqrt (e k * u k)) ^ 2)); [apply cont2_sqr, continuity_2d_pt_id1|]. apply (cont2_sqr (fun q k => k * sqrt (e k * u k))).
  apply (continuity_2d_pt_mult (fun _ k => k) (fun _ k => sqrt (e k * u k))); [apply continuity_2d_pt_id2|]. apply (cont2_sqrt (fun _ k => e k * u k)). apply (continuity_2d_pt_mult (fun _ k => e k) (fun _ k => u k)); now apply cont2_snd.
Qed.
Lemma cont2_kz e u : continuity_pt e y -> continuity_pt u y -> continuity_2d_pt (fun q k => kz (fun k => e k * u k) q k) x y.
Proof.
  intros A B. unfold kz. apply cont2_sqrt. apply (continuity_2d_pt_plus (fun q k => q ^ 2) (fun q k => e k * u k * k ^ 2)); [apply cont2_sqr, continuity_2d_pt_id1|]. apply (continuity_2d_pt_mult (fun q k => e k * u k) (fun _ k => k ^ 2)); [|apply (cont2_sqr (fun _ k => k)), continuity_2d_pt_id2].
  apply (continuity_2d_pt_mult (fun _ k => e k) (fun _ k => u k)); now apply cont2_snd.
Qed.
End Two.
Lemma root_gt q k n : 0 < k -> 0 < n -> 0 < sqrt (q ^ 2 + (k * sqrt n) ^ 2).
Proof. intros Hk Hn. apply sqrt_lt_R0. assert (0 < k * sqrt n) by (apply Rmult_lt_0_compat; [assumption|now apply sqrt_lt_R0]). pose proof (pow2_ge_0 q). assert (0 < (k * sqrt n) ^ 2) by now apply pow_lt. lra. Qed.
Lemma plate_cont2 m md r q k : plate m md r -> steady m -> steady md -> 0 < k -> continuity_2d_pt (fun q k => fst (r q k)) q k /\ continuity_2d_pt (fun q k => snd (r q k)) q k.
Proof.
  intros [[_ E]|[e [u [eM [uM [H [HM E]]]]]]] S SM Hk.
  - split; [apply (continuity_2d_pt_ext (fun _ _ => -1))|apply (continuity_2d_pt_ext (fun _ _ => 1))]; try (intros; now rewrite E); apply continuity_2d_pt_const.
  - destruct (S e u H k Hk) as [C1 C2]. destruct (SM eM uM HM k Hk) as [C3 C4]. destruct (proj1 (proj2 H) k Hk) as [e0 u0]. destruct (proj1 (proj2 HM) k Hk) as [eM0 uM0].
    assert (RP := root_gt q k (e k * u k) Hk (Rmult_lt_0_compat _ _ e0 u0)). assert (RM := root_gt q k (eM k * uM k) Hk (Rmult_lt_0_compat _ _ eM0 uM0)).
    split.
    + apply (continuity_2d_pt_ext (fun q k => (u k * sqrt (q ^ 2 + (k * sqrt (eM k * uM k)) ^ 2) - uM k * sqrt (q ^ 2 + (k * sqrt (e k * u k)) ^ 2)) / (u k * sqrt (q ^ 2 + (k * sqrt (eM k * uM k)) ^ 2) + uM k * sqrt (q ^ 2 + (k * sqrt (e k * u k)) ^ 2)))); [intros; now rewrite E|].
      apply (cont2_quot q k (fun q k => u k * sqrt (q ^ 2 + (k * sqrt (eM k * uM k)) ^ 2)) (fun q k => uM k * sqrt (q ^ 2 + (k * sqrt (e k * u k)) ^ 2))).
      * apply (continuity_2d_pt_mult (fun _ k => u k)); [now apply cont2_snd|now apply cont2_root].
      * apply (continuity_2d_pt_mult (fun _ k => uM k)); [now apply cont2_snd|now apply cont2_root].
      * apply Rgt_not_eq. apply Rplus_lt_0_compat; now apply Rmult_lt_0_compat.
    + apply (continuity_2d_pt_ext (fun q k => (e k * sqrt (q ^ 2 + (k * sqrt (eM k * uM k)) ^ 2) - eM k * sqrt (q ^ 2 + (k * sqrt (e k * u k)) ^ 2)) / (e k * sqrt (q ^ 2 + (k * sqrt (eM k * uM k)) ^ 2) + eM k * sqrt (q ^ 2 + (k * sqrt (e k * u k)) ^ 2)))); [intros; now rewrite E|].
      apply (cont2_quot q k (fun q k => e k * sqrt (q ^ 2 + (k * sqrt (eM k * uM k)) ^ 2)) (fun q k => eM k * sqrt (q ^ 2 + (k * sqrt (e k * u k)) ^ 2))).
      * apply (continuity_2d_pt_mult (fun _ k => e k)); [now apply cont2_snd|now apply cont2_root].
      * apply (continuity_2d_pt_mult (fun _ k => eM k)); [now apply cont2_snd|now apply cont2_root].
      * apply Rgt_not_eq. apply Rplus_lt_0_compat; now apply Rmult_lt_0_compat.
Qed.
(** the integrand *)
Lemma slab_cont2 (A : R -> R -> R) e u L q k : continuity_2d_pt A q k -> continuity_pt e k -> continuity_pt u k -> 0 < 1 - A q k * exp (-2 * kz (fun k => e k * u k) q k * L) ->
  continuity_2d_pt (fun q k => q / (2 * PI) * ln (1 - A q k * exp (-2 * kz (fun k => e k * u k) q k * L))) q k.
Proof.
  intros CA Ce Cu P. apply (continuity_2d_pt_mult (fun q _ => q / (2 * PI))); [apply (continuity_2d_pt_mult (fun q _ => q) (fun _ _ => / (2 * PI))); [apply continuity_2d_pt_id1|apply continuity_2d_pt_const]|].
  apply (cont2_ln q k (fun q k => 1 - A q k * exp (-2 * kz (fun k => e k * u k) q k * L))); [|exact P]. apply (continuity_2d_pt_minus (fun _ _ => 1)); [apply continuity_2d_pt_const|]. apply (continuity_2d_pt_mult A); [exact CA|]. apply (cont2_exp q k (fun q k => -2 * kz (fun k => e k * u k) q k * L)).
  apply (continuity_2d_pt_mult (fun q k => -2 * kz (fun k => e k * u k) q k) (fun _ _ => L)); [|apply continuity_2d_pt_const]. apply (continuity_2d_pt_mult (fun _ _ => -2)); [apply continuity_2d_pt_const|now apply cont2_kz].
Qed.
(** the materials of materials.py *)
Lemma eps_cont e k : Forall physical e -> 0 < k -> continuity_pt (eps_spec e) k.
Proof.
  intros H Hk. unfold eps_spec. apply (continuity_pt_plus (fun _ => 1)); [apply continuity_pt_const; now intros ? ?|]. induction H as [|o e Ho He IH]; [apply continuity_pt_const; now intros ? ?|]. cbn [map fold_right].
  apply (continuity_pt_plus (fun k => (o_wP o / omega_norm) ^ 2 / ((o_wR o / omega_norm) ^ 2 + k ^ 2 + o_g o / omega_norm * k))); [|exact IH]. destruct Ho as [P0 [R0 G0]].
  assert (ON : 0 < omega_norm) by (unfold omega_norm; lra). assert (D : 0 < (o_wR o / omega_norm) ^ 2 + k ^ 2 + o_g o / omega_norm * k). { assert (0 < k ^ 2) by now apply pow_lt. pose proof (pow2_ge_0 (o_wR o / omega_norm)). assert (0 <= o_g o / omega_norm * k) by (apply Rmult_le_pos; [apply Rdiv_le_0_compat; assumption|lra]). lra. }
  set (b := (o_wR o / omega_norm) ^ 2) in *. set (g := o_g o / omega_norm) in *. set (a := (o_wP o / omega_norm) ^ 2). clearbody a b g. apply ex_derive_cont. auto_derive. apply Rgt_not_eq. lra.
Qed.
Lemma norm_pos : 0 < omega_norm.
Proof. unfold omega_norm. lra. Qed.
Lemma mu_cont b k : good_b b -> 0 < k -> continuity_pt (mu_val b) k.
Proof.
  destruct b as [[m w]|]; [|intros _ _; apply continuity_pt_const; now intros ? ?]. intros [Hm Hw] Hk. unfold mu_val, mu_spec. assert (W : 0 < w / omega_norm) by (apply Rdiv_lt_0_compat; [assumption|apply norm_pos]). set (a := w / omega_norm) in *. clearbody a.
  apply ex_derive_cont. auto_derive. apply Rgt_not_eq. assert (0 < k / a) by (apply Rmult_lt_0_compat; [assumption|now apply Rinv_0_lt_compat]). unfold Rdiv in *; lra.
Qed.
Lemma smith_cont o k : physical o -> 0 < k -> continuity_pt (smith_spec o) k.
Proof.
  intros [P0 [R0 G0]] Hk. unfold smith_spec. assert (G : 0 <= o_g o / omega_norm) by (apply Rdiv_le_0_compat; [assumption|apply norm_pos]). set (g := o_g o / omega_norm) in *. set (a := (o_wP o / omega_norm) ^ 2). set (c := 0.51). clearbody a g c.
  apply ex_derive_cont. auto_derive. split; [|split; [|trivial]]; apply Rgt_not_eq; [apply Rmult_lt_0_compat|]; lra.
Qed.
Lemma steady_materials : steady PEC /\ (forall e b, Forall physical e -> good_b b -> steady (Lorentz e b)) /\ (forall o b, physical o -> good_b b -> steady (Smith [o] b)).
Proof.
  split; [exact steady_pec|]. split.
  - intros e b He Hb. apply (steady_of _ (eps_spec e) (mu_val b)); [now apply has_lorentz|]. intros k Hk. split; [now apply eps_cont|now apply mu_cont].
  - intros o b Ho Hb. apply (steady_of _ (smith_spec o) (mu_val b)); [now apply has_smith|]. intros k Hk. split; [now apply smith_cont|now apply mu_cont].
Qed.
