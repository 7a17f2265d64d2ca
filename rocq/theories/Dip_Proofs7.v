(** * Small arguments, finite families of bounds, sums *)
From Coq Require Import Reals.
From Coquelicot Require Import Coquelicot.
From Coq Require Import List Lia Lra ZArith.
From Verif Require Import Base Mat_Model Mat_Spec Mat_Proofs Geo_Model Geo_Spec Bessel_Model Bessel_Spec Scat_Model Scat_Spec Scat_Proofs Scat_Proofs7 Scat_Proofs8 Scat_Proofs9 Trans_Proofs RT_Model RT_Spec RT_Spec2 RT_Proofs
  Run_Model Run_Spec Run_Proofs Dip_Spec Dip_Proofs4.
Import ListNotations.
Open Scope R_scope.

Lemma has_unique m e u e' u' k : has m e u -> has m e' u' -> 0 < k -> e k = e' k /\ u k = u' k.
Proof.
  intros [H1 _] [H2 _] Hk. assert (P : forall y, In y [k] -> 0 < y) by (intros y [<-|[]]; exact Hk).
  destruct (H1 [k] P) as [A1 B1]. destruct (H2 [k] P) as [A2 B2]. rewrite A1 in A2. rewrite B1 in B2. injection A2 as ->. injection B2 as ->. now split.
Qed.
Lemma small_arg mm r : static_sphere mm -> 0 < r -> exists k0, 0 < k0 /\ forall e u k, has mm e u -> 0 < k <= k0 -> 0 < k * r * refr e u k < 1e-3.
Proof.
  intros HS Hr. destruct (static_lossy mm HS) as [->|[e [u [ve [vu [Hh [_ [_ X]]]]]]]].
  - exists 1. split; [lra|]. intros e u k [_ [_ H]]. discriminate H.
  - destruct (X r Hr) as [X1 X2]. destruct (lim0_close _ 0 1e-3 X2 ltac:(lra)) as [k0 [K0 B]]. exists k0. split; [exact K0|].
    intros e' u' k Hh' Hk. destruct (has_unique _ _ _ _ _ k Hh Hh' (proj1 Hk)) as [E1 E2]. assert (B' := B k Hk). assert (P := X1 k (proj1 Hk)).
    unfold refr in *. rewrite <- E1, <- E2. replace (k * r * sqrt (e k * u k)) with (sqrt (e k * u k) * k * r) by ring. split; [exact P|].
    rewrite Rminus_0_r, Rabs_pos_eq in B' by lra. exact B'.
Qed.
Lemma code_small c m1 m2 ra rb e b : two_spheres c m1 m2 ra rb e b -> static_sphere m1 -> static_sphere m2 -> c_ext c = true ->
  exists k0, 0 < k0 /\ forall ks, ks <> [] -> (forall k, In k ks -> 0 < k <= k0) -> elementwise_at mie_bessels c ks.
Proof.
  intros [C1 [C2 [CM [Pa [Pb _]]]]] S1 S2 Hx. assert (SM : static_sphere (c_med c)) by (right; left; eauto).
  destruct (small_arg m1 ra S1 Pa) as [k1 [K1 B1]]. destruct (small_arg m2 rb S2 Pb) as [k2 [K2 B2]].
  destruct (small_arg (c_med c) ra SM Pa) as [k3 [K3 B3]]. destruct (small_arg (c_med c) rb SM Pb) as [k4 [K4 B4]].
  exists (Rmin (Rmin k1 k2) (Rmin k3 k4)). split; [repeat apply Rmin_glb_lt; assumption|]. intros ks Hne Hks. split; [|now left].
  assert (KS : forall k, In k ks -> 0 < k <= k1 /\ 0 < k <= k2 /\ 0 < k <= k3 /\ 0 < k <= k4).
  { intros k Hk. destruct (Hks k Hk) as [h1 h2]. assert (a1 := Rmin_l (Rmin k1 k2) (Rmin k3 k4)). assert (a2 := Rmin_r (Rmin k1 k2) (Rmin k3 k4)).
    assert (b1 := Rmin_l k1 k2). assert (b2 := Rmin_r k1 k2). assert (b3 := Rmin_l k3 k4). assert (b4 := Rmin_r k3 k4). repeat split; lra. }
  intros m r n e' u' HH Hm.
  assert (Q : forall k, In k ks -> 0 < k * r * refr e' u' k < 1e-3).
  { intros k Hk. destruct (KS k Hk) as [q1 [q2 [q3 q4]]]. destruct HH as [[E _]|[E _]].
    - rewrite C1 in E. injection E as <- <-. destruct Hm as [Hm|Hm]; [now apply (B1 e' u' k)|now apply (B3 e' u' k)].
    - rewrite C2 in E. injection E as <- <-. destruct Hm as [Hm|Hm]; [now apply (B2 e' u' k)|now apply (B4 e' u' k)]. }
  assert (T : forall t, In t (xs (refr e' u') r ks) -> 0 < t < 1e-3).
  { intros t Ht. unfold xs in Ht. apply in_map_iff in Ht. destruct Ht as [k [<- Hk]]. now apply Q. }
  apply code_elementwise.
  - destruct ks; [contradiction|discriminate].
  - intros t Ht. now apply T.
  - split; [right|left]; intros t Ht; destruct (T t Ht); lra.
Qed.

Lemma far_all (P : nat -> R -> Prop) N : (forall n, (1 <= n <= N)%nat -> exists L0, 0 < L0 /\ forall L, L0 <= L -> P n L) ->
  exists L0, 0 < L0 /\ forall L, L0 <= L -> forall n, (1 <= n <= N)%nat -> P n L.
Proof.
  induction N as [|N IH]; intros H; [exists 1; split; [lra|]; intros L _ n Hn; lia|].
  destruct IH as [L1 [p1 h1]]; [intros n Hn; apply H; lia|]. destruct (H (S N) ltac:(lia)) as [L2 [p2 h2]].
  exists (Rmax L1 L2). assert (a1 := Rmax_l L1 L2). assert (a2 := Rmax_r L1 L2). split; [lra|]. intros L HL n Hn.
  destruct (Nat.eq_dec n (S N)) as [->|Hd]; [apply h2; lra|apply h1; [lra|lia]].
Qed.
Lemma Rsum_from1 (f : nat -> R) n : Rsum (map f (seq 1 n)) = sum_f_R0 (fun j => if Nat.eqb j 0 then 0 else f j) n.
Proof.
  rewrite <- Rsum_seq. rewrite Nat.add_1_r. cbn [seq map]. cbn [Nat.eqb]. unfold Rsum at 2. cbn [fold_right]. rewrite Rplus_0_l. unfold Rsum. f_equal.
  apply map_ext_in. intros j Hj. apply in_seq in Hj. replace (Nat.eqb j 0) with false; [reflexivity|]. symmetry. apply Nat.eqb_neq. lia.
Qed.
Lemma sum_close (f g : nat -> R) h n : (forall j, (1 <= j <= n)%nat -> Rabs (f j + g j) <= h) -> Rabs (Rsum (map f (seq 1 n)) + Rsum (map g (seq 1 n))) <= INR n * h.
Proof.
  rewrite !Rsum_from1. induction n as [|n IH]; intros H.
  - cbn [sum_f_R0 Nat.eqb INR]. rewrite Rplus_0_l, Rabs_R0. lra.
  - rewrite S_INR. cbn [sum_f_R0]. change (Nat.eqb (S n) 0) with false. cbv iota. assert (I := IH ltac:(intros j Hj; apply H; lia)). assert (J := H (S n) ltac:(lia)).
    set (A := sum_f_R0 (fun j => if Nat.eqb j 0 then 0 else f j) n) in *. set (B := sum_f_R0 (fun j => if Nat.eqb j 0 then 0 else g j) n) in *.
    replace (A + f (S n) + (B + g (S n))) with ((A + B) + (f (S n) + g (S n))) by ring. eapply Rle_trans; [apply Rabs_triang|]. lra.
Qed.
(** with lmax = 1 the sum over m contains m = 1 unless the term of m = 0 vanishes at all frequencies *)
Lemma stops_one precision f ks M k x : stops_at precision 1 f ks M -> In k ks -> f 0%nat k = Fin x -> x <> 0 -> M = 1%nat.
Proof.
  intros [HM [_ HS]] Hin Hf Hx. destruct (Nat.eq_dec M 1) as [|Hn]; [assumption|exfalso]. assert (M = 0%nat) by lia. subst M.
  destruct (HS ltac:(lia)) as [Z|[Z _]]; [|lia]. destruct (In_nth ks k 0 Hin) as [i [Hi Ei]]. assert (Zi := Z i Hi). cbn [seq map] in Zi.
  rewrite (nth_indep _ NaN (msum (fun m => f m 0) 0)) in Zi by (rewrite map_length; exact Hi). rewrite (map_nth (fun k => msum (fun m => f m k) 0)) in Zi.
  rewrite Ei in Zi. unfold msum in Zi. cbn [seq map] in Zi. unfold Geo_Spec.weighted in Zi. cbn [fold_left] in Zi. rewrite Hf in Zi. injection Zi as ->. now apply Hx.
Qed.
Lemma stops_one_k0 precision f M : stops_at_k0 precision 1 f M -> M = 1%nat.
Proof. intros [HM [_ HS]]. destruct (Nat.eq_dec M 1) as [|Hn]; [assumption|exfalso]. destruct (HS ltac:(lia)) as [? _]. lia. Qed.
