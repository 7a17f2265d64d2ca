(** * The translation coefficients of a configuration, with their signs removed *)
From Coq Require Import Reals.
From Coquelicot Require Import Coquelicot.
From Coq Require Import Bool ZArith List Lia Lra.
From Verif Require Import Base Bessel_Model Bessel_Spec Scat_Model Scat_Spec Trans_Model Trans_Spec Trans_Proofs3 Trans_Proofs4 Lin_Model Lin_Spec RT_Model RT_Spec RT_Spec2 Lap_Proofs2 Trans_Proofs6.
Open Scope R_scope.

Section Trips.
  Context (mieb : list R -> nat -> Z -> res (list (list R) * list (list R))) (c : config) (m : Z) (k : R) (e u : R -> R).
  Context (Hx : c_ext c = true) (Hh : has (c_med c) e u) (Hk : 0 < k) (H0 : (0 <= m)%Z).
  Context (i s : nat) (Hi : (i < n1 c m)%nat) (Hs : (s < n2 c m)%nat).
  Let rt L := rt_with mieb (at_distance c L) m k.
  Lemma trans_falls : exists P Q, falls P /\ falls Q /\ forall L, 0 < L ->
    sgnZ m * (V0 (rt L) i s * exp (V4 (rt L) i s)) = P (k * L * sqrt (e k)) /\
    - sgnZ m * (V2 (rt L) i s * exp (V4 (rt L) i s)) = 2 * IZR m * Q (k * L * sqrt (e k)).
  Proof.
    assert (B1 : (1 <= lmin m + i <= c_lmax c)%nat) by (unfold n1 in Hi; unfold lmin in *; lia).
    assert (B2 : (1 <= lmin m + s <= c_lssmax c)%nat) by (unfold n2 in Hs; unfold lmin in *; lia).
    assert (B3 : (Z.abs m <= Z.of_nat (Nat.min (lmin m + i) (lmin m + s)))%Z) by (unfold lmin; lia).
    assert (He : 0 < e k) by (destruct Hh as [_ [P _]]; now apply P).
    destruct (ext_code (c_med c) e u (c_lmax c) (c_lssmax c) (lmin m + i) (lmin m + s) m k Hh B1 B2 B3 Hk He) as [P [Q [FP [FQ E]]]].
    exists P, (fun x => x * Q x). split; [exact FP|]. split; [exact FQ|]. intros L HL. destruct (E L HL) as [E1 [_ [E2 _]]].
    unfold rt, rt_with, at_distance. cbn [V0 V2 V4 c_lmax c_lssmax c_med c_L c_ext]. rewrite Hx, E1, E2, exp_0. assert (SS := sgnZ_sq m).
    set (q := k * L * sqrt (e k)). split.
    - transitivity (sgnZ m * sgnZ m * P q); [ring|]. rewrite SS. ring.
    - transitivity (sgnZ m * sgnZ m * (2 * IZR m * (q * Q q))); [ring|]. rewrite SS. ring.
  Qed.
End Trips.
