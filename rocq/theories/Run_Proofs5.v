(** * Arguments of the Bessel functions that do not cross a switching point *)
From Coq Require Import Bool Reals List ZArith Lia Lra.
From Verif Require Import Base Mat_Model Mat_Spec Bessel_Model Scat_Model Scat_Spec Scat_Proofs RT_Model RT_Spec Run_Model Run_Spec Run_Proofs Run_Proofs4.
Import ListNotations.
Open Scope R_scope.

(** perfectly reflecting spheres in vacuum: the arguments k r, and k L in the interior geometry, do not cross a switching point *)
Lemma vacuum_regime c r1 r2 ks : c_1 c = Solid PEC r1 -> c_2 c = Solid PEC r2 -> c_med c = Lorentz [] None -> ks <> [] ->
  (forall k r, In k ks -> r = r1 \/ r = r2 \/ (c_ext c = false /\ r = c_L c) -> 1e-3 <= k * r <= 100) -> 0 < r1 -> 0 < r2 -> 0 < c_L c -> elementwise_at mie_bessels c ks.
Proof.
  intros E1 E2 Em Hne Hk P1 P2 PL.
  assert (Pk : forall k, In k ks -> 0 < k). { intros k Hin. assert (B := Hk k r1 Hin (or_introl eq_refl)). apply Rmult_lt_reg_r with r1; [exact P1|]. lra. }
  assert (H1 : forall e u k, has (Lorentz [] None) e u -> 0 < k -> e k = 1 /\ u k = 1).
  { intros e u k [Hv _] Hk0. destruct (Hv [k]) as [H1 H2]; [intros y [<-|[]]; exact Hk0|]. cbn in H1, H2. injection H1 as H1. injection H2 as H2. auto. }
  split.
  - intros m r n e u Hm Hh.
    assert (Er : r = r1 \/ r = r2). { destruct Hm as [[H _]|[H _]]; rewrite ?E1, ?E2 in H; injection H as _ H; auto. }
    assert (Hpec : m = PEC). { destruct Hm as [[H _]|[H _]]; rewrite ?E1, ?E2 in H; injection H as H _; auto. }
    assert (Hv : has (Lorentz [] None) e u). { destruct Hh as [[_ [_ H]]|H]; [now rewrite Hpec in H|now rewrite Em in H]. }
    assert (Hx : forall t, In t (xs (refr e u) r ks) -> 1e-3 <= t <= 100).
    { intros t Ht. unfold xs in Ht. apply in_map_iff in Ht. destruct Ht as [k [<- Hin]]. assert (B := Hk k r Hin ltac:(tauto)).
      unfold refr. destruct (H1 e u k Hv (Pk k Hin)) as [-> ->]. rewrite Rmult_1_r, sqrt_1. lra. }
    apply code_elementwise.
    + destruct ks; [congruence|discriminate].
    + intros t Ht. apply Hx in Ht. lra.
    + split; left; intros t Ht; apply Hx in Ht; lra.
  - destruct (c_ext c) eqn:Ex; [now left|right]. intros e u Hv. rewrite Em in Hv.
    assert (Hx : forall t, In t (map (fun k => k * c_L c * sqrt (e k)) ks) -> 1e-3 <= t <= 100).
    { intros t Ht. apply in_map_iff in Ht. destruct Ht as [k [<- Hin]]. assert (B := Hk k (c_L c) Hin (or_intror (or_intror (conj eq_refl eq_refl)))).
      destruct (H1 e u k Hv (Pk k Hin)) as [-> _]. rewrite sqrt_1. lra. }
    apply code_elementwise.
    + destruct ks; [congruence|discriminate].
    + intros t Ht. apply Hx in Ht. lra.
    + split; left; intros t Ht; apply Hx in Ht; lra.
Qed.

(** the frequencies n dT between two bounds *)
Lemma freqs_between dT nmax q k : 0 < dT -> In k (freqs dT nmax q) -> dT <= k <= dT * INR nmax.
Proof.
  intros Hd H. destruct (freqs_pos dT nmax q k Hd H) as [n [[H1 H2] [-> _]]]. apply le_INR in H1, H2. cbn [INR] in H1.
  split; [rewrite <- (Rmult_1_r dT) at 1|]; apply Rmult_le_compat_l; lra.
Qed.
