(** * Sums that may stop early against full sums *)
From Coq Require Import Reals.
From Coq Require Import ZArith List Lia Lra.
From Verif Require Import Base Thermo_Model Geo_Model Geo_Spec Run_Spec Run_Proofs4 Conv_Spec2.
Import ListNotations.
Open Scope R_scope.
Lemma Rsum_app (l l' : list R) : Rsum (l ++ l') = Rsum l + Rsum l'.
Proof. unfold Rsum. rewrite fold_right_app. generalize (fold_right Rplus 0 l'). intros x. induction l as [|a l IH]; cbn [fold_right]; lra. Qed.
Lemma Rsum_map_le {A} (f g : A -> R) l : (forall x, In x l -> f x <= g x) -> Rsum (map f l) <= Rsum (map g l).
Proof. unfold Rsum. induction l as [|a l IH]; intros H; cbn [map fold_right]; [lra|]. assert (X := H a (or_introl eq_refl)). assert (Y := IH (fun x Hx => H x (or_intror Hx))). lra. Qed.
Lemma rsum_cut (g : nat -> R) M N : (M <= N)%nat -> (forall m, (m <= N)%nat -> g m <= 0) -> rsum g N <= rsum g M.
Proof.
  intros HM H. unfold rsum. replace N with (M + (N - M))%nat by lia. rewrite seq_app, map_app, Rsum_app.
  assert (X : Rsum (map g (seq (1 + M) (N - M))) <= 0). { assert (Y := Rsum_map_le g (fun _ => 0) (seq (1 + M) (N - M))). assert (Z : forall l : list nat, Rsum (map (fun _ => 0) l) = 0) by (unfold Rsum; induction l as [|a l IH]; cbn [map fold_right]; lra).
    rewrite Z in Y. apply Y. intros m Hm. apply in_seq in Hm. apply H. lia. }
  lra.
Qed.
Lemma rsum_mono (g g' : nat -> R) M : (forall m, (m <= M)%nat -> g m <= g' m) -> rsum g M <= rsum g' M.
Proof.
  intros H. unfold rsum. assert (X := Rsum_map_le g g' (seq 1 M)). assert (Y := H 0%nat ltac:(lia)).
  assert (Z : Rsum (map g (seq 1 M)) <= Rsum (map g' (seq 1 M))); [|lra]. apply X. intros m Hm. apply in_seq in Hm. apply H. lia.
Qed.
Lemma sliced_above g0 (g : nat -> R -> R) (h : R -> R) k0 dT nmax i : 0 < dT -> (1 <= i)%nat -> h k0 <= g0 -> (forall n, (1 <= n)%nat /\ (n <= nmax)%nat -> h (dT * INR n) <= g (n / 50)%nat (dT * INR n)) ->
  matsubara h k0 dT nmax i <= sliced_sum g0 g dT nmax i.
Proof.
  intros HT Hi H0 H. unfold sliced_sum, matsubara. assert (Pi : 0 < INR i) by (apply lt_0_INR; lia). assert (P := Rmult_lt_0_compat _ _ Pi HT).
  apply Rmult_le_compat_l; [lra|]. apply Rplus_le_compat; [lra|]. apply Rsum_map_le. intros j Hj. apply in_seq in Hj.
  replace (INR j * (INR i * dT)) with (dT * INR (i * j)) by (rewrite mult_INR; ring). apply H. split; [nia|]. assert (i * (nmax / i) <= nmax)%nat by (apply Nat.mul_div_le; lia). nia.
Qed.
