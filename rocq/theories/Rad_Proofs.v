(** * The Mie coefficients as functions of radius and material, for exact Bessel functions *)
From Coq Require Import Reals.
From Coquelicot Require Import Coquelicot.
From Coq Require Import Bool ZArith List Lia Lra.
From Verif Require Import Base Mat_Model Mat_Spec Help_Proofs Bessel_Model Bessel_Spec Bessel_Proofs Bessel_Proofs2 Scat_Model Scat_Spec Scat_Proofs Scat_Proofs2 Scat_Proofs3 Scat_Proofs4 Scat_Proofs9 Scat_Proofs11
  Trans_Model Trans_Spec Lin_Model RT_Model RT_Spec RT_Spec2 RT_Proofs10.
Import ListNotations.
Open Scope R_scope.

Lemma incr_pos_le (f df : R -> R) : (forall x, 0 < x -> is_derive f x (df x)) -> (forall x, 0 < x -> 0 <= df x) -> forall x y, 0 < x -> x <= y -> f x <= f y.
Proof.
  intros D P x y Hx [Hy| ->]; [|apply Rle_refl].
  destruct (MVT_gen f x y df) as [c [Hc E]].
  - intros t Ht. apply D. rewrite Rmin_left, Rmax_right in Ht by lra. lra.
  - intros t Ht. rewrite Rmin_left, Rmax_right in Ht by lra. apply derivable_continuous_pt. exists (df t). apply is_derive_Reals. apply D. lra.
  - rewrite Rmin_left, Rmax_right in Hc by lra. assert (0 <= df c * (y - x)) by (apply Rmult_le_pos; [apply P|]; lra). lra.
Qed.

Section Riccati.
  Context (l : nat).
  Let lam : R := (INR l + 1) * (INR l + 2).
  Lemma DI_riccati x : 0 < x -> is_derive (DI l) x ((x ^ 2 + lam + DI l x - DI l x ^ 2) / x).
  Proof.
    intros Hx. eapply deq; [now apply DI_derive|]. rewrite DIE by assumption. unfold lam. rewrite S_INR.
    assert (P1 := sph_i_pos (S l) x Hx). assert (E := sph_i_rec l x Hx). set (i0 := sph_i l x) in *. set (i1 := sph_i (S l) x) in *. set (i2 := sph_i (S (S l)) x) in *.
    clearbody i0 i1 i2. assert (E2 : i2 = i0 - (2 * INR l + 3) / x * i1) by lra. rewrite E2. field. lra.
  Qed.
  Lemma DK_riccati x : 0 < x -> is_derive (DK l) x ((x ^ 2 + lam + DK l x - DK l x ^ 2) / x).
  Proof.
    intros Hx. eapply deq; [now apply DK_derive|]. rewrite DKE by assumption. unfold lam. rewrite S_INR.
    assert (P1 := sph_k_pos (S l) x Hx). assert (E := sph_k_rec l x Hx). set (i0 := sph_k l x) in *. set (i1 := sph_k (S l) x) in *. set (i2 := sph_k (S (S l)) x) in *.
    clearbody i0 i1 i2. rewrite E. field. lra.
  Qed.
  (** the size of the coefficients of a perfect reflector *)
  Definition QQ (x : R) : R := sph_i (S l) x / sph_k (S l) x.
  Lemma QQ_pos x : 0 < x -> 0 < QQ x.
  Proof. intros Hx. apply Rdiv_lt_0_compat; [now apply sph_i_pos|now apply sph_k_pos]. Qed.
  Lemma QQ_derive x : 0 < x -> is_derive QQ x (QQ x * (DI l x - DK l x) / x).
  Proof.
    intros Hx. assert (K := sph_k_pos (S l) x Hx). assert (I := sph_i_pos (S l) x Hx). unfold QQ.
    eapply deq; [apply is_derive_div; [now apply sph_i_derive_down|now apply sph_k_derive_down|lra]|].
    rewrite DIE, DKE by assumption. rewrite S_INR. field. repeat split; lra.
  Qed.
  Lemma scaled (f : R -> R) c r d : 0 < c -> is_derive f (c * r) d -> is_derive (fun t => f (c * t)) r (c * d).
  Proof.
    intros Hc H. eapply deq; [apply (is_derive_comp f (fun t => c * t) r d c); [exact H|]|].
    - eapply deq; [apply is_derive_scal; apply did|]. ring.
    - unfold scal. simpl. unfold mult. simpl. ring.
  Qed.
  (** ** a sphere with index c1/k in a medium with index c/k; p1 and p are the permeabilities (TE) or the permittivities (TM) *)
  Context (p1 p c1 c : R) (Hp1 : 0 < p1) (Hp : 0 < p) (Hc1 : 0 < c1) (Hc : 0 < c).
  Definition TT (r : R) : R := QQ (c * r) * (p * DI l (c1 * r) - p1 * DI l (c * r)) / (p * DI l (c1 * r) - p1 * DK l (c * r)).
  Definition TTd (r : R) : R := QQ (c * r) * (DI l (c * r) - DK l (c * r)) / (r * (p * DI l (c1 * r) - p1 * DK l (c * r)) ^ 2) *
    (p1 * (p * (c1 * r) ^ 2 - p1 * (c * r) ^ 2) + lam * p1 * (p - p1) + DI l (c1 * r) ^ 2 * p * (p - p1)).
  Lemma TT_derive r : 0 < r -> is_derive TT r (TTd r).
  Proof.
    intros Hr. assert (Hx : 0 < c * r) by (now apply Rmult_lt_0_compat). assert (Hy : 0 < c1 * r) by (now apply Rmult_lt_0_compat).
    assert (Da := scaled _ c1 r _ Hc1 (DI_riccati _ Hy)). assert (Db := scaled _ c r _ Hc (DI_riccati _ Hx)). assert (Dd := scaled _ c r _ Hc (DK_riccati _ Hx)). assert (Dq := scaled _ c r _ Hc (QQ_derive _ Hx)).
    assert (A := nDI l (c1 * r) Hy). assert (B := nDI l (c * r) Hx). assert (D := nDK l (c * r) Hx).
    assert (E : 0 < p * DI l (c1 * r) - p1 * DK l (c * r)). { assert (0 < p * DI l (c1 * r)) by (now apply Rmult_lt_0_compat). assert (0 < p1 * - DK l (c * r)) by (apply Rmult_lt_0_compat; lra). lra. }
    unfold TT, TTd.
    eapply deq; [apply is_derive_div; [apply dmult; [exact Dq|apply @is_derive_minus; apply is_derive_scal; [exact Da|exact Db]]|apply @is_derive_minus; apply is_derive_scal; [exact Da|exact Dd]|cbv beta; lra]|].
    cbv beta. unfold minus, plus, opp. simpl. set (a := DI l (c1 * r)) in *. set (b := DI l (c * r)) in *. set (d := DK l (c * r)) in *. set (q := QQ (c * r)).
    clearbody a b d q. clear Da Db Dd Dq. field. repeat split; lra.
  Qed.
  Lemma TT_front r : 0 < r -> 0 < QQ (c * r) * (DI l (c * r) - DK l (c * r)) / (r * (p * DI l (c1 * r) - p1 * DK l (c * r)) ^ 2).
  Proof.
    intros Hr. assert (Hx : 0 < c * r) by (now apply Rmult_lt_0_compat). assert (Hy : 0 < c1 * r) by (now apply Rmult_lt_0_compat).
    assert (A := nDI l (c1 * r) Hy). assert (B := nDI l (c * r) Hx). assert (D := nDK l (c * r) Hx).
    assert (E : 0 < p * DI l (c1 * r) - p1 * DK l (c * r)). { assert (0 < p * DI l (c1 * r)) by (now apply Rmult_lt_0_compat). assert (0 < p1 * - DK l (c * r)) by (apply Rmult_lt_0_compat; lra). lra. }
    apply Rdiv_lt_0_compat; [apply Rmult_lt_0_compat; [now apply QQ_pos|lra]|apply Rmult_lt_0_compat; [assumption|now apply pow_lt]].
  Qed.
  Lemma lam_pos : 0 < lam.
  Proof. unfold lam. generalize (pos_INR l). intros. apply Rmult_lt_0_compat; lra. Qed.
  Lemma TT_incr : p1 <= p -> p1 * c ^ 2 <= p * c1 ^ 2 -> forall r r', 0 < r -> r <= r' -> TT r <= TT r'.
  Proof.
    intros H1 H2. apply (incr_pos_le TT TTd TT_derive). intros r Hr. unfold TTd. apply Rmult_le_pos; [left; now apply TT_front|]. assert (L := lam_pos).
    assert (0 <= p1 * (p * (c1 * r) ^ 2 - p1 * (c * r) ^ 2)).
    { apply Rmult_le_pos; [lra|]. replace (p * (c1 * r) ^ 2 - p1 * (c * r) ^ 2) with ((p * c1 ^ 2 - p1 * c ^ 2) * r ^ 2) by ring. apply Rmult_le_pos; [lra|apply pow2_ge_0]. }
    assert (0 <= lam * p1 * (p - p1)) by (apply Rmult_le_pos; [apply Rmult_le_pos|]; lra).
    assert (0 <= DI l (c1 * r) ^ 2 * p * (p - p1)) by (apply Rmult_le_pos; [apply Rmult_le_pos; [apply pow2_ge_0|]|]; lra). lra.
  Qed.
  Lemma TT_decr : p <= p1 -> p * c1 ^ 2 <= p1 * c ^ 2 -> forall r r', 0 < r -> r <= r' -> TT r' <= TT r.
  Proof.
    intros H1 H2 r r' Hr Hr'. apply Ropp_le_cancel. revert r r' Hr Hr'. apply (incr_pos_le (fun r => - TT r) (fun r => - TTd r)); [intros r Hr; apply (is_derive_opp TT); now apply TT_derive|].
    intros r Hr. unfold TTd. replace (- (_ * _)) with (QQ (c * r) * (DI l (c * r) - DK l (c * r)) / (r * (p * DI l (c1 * r) - p1 * DK l (c * r)) ^ 2) *
    (p1 * (p1 * (c * r) ^ 2 - p * (c1 * r) ^ 2) + lam * p1 * (p1 - p) + DI l (c1 * r) ^ 2 * p * (p1 - p))) by ring.
    apply Rmult_le_pos; [left; now apply TT_front|]. assert (L := lam_pos).
    assert (0 <= p1 * (p1 * (c * r) ^ 2 - p * (c1 * r) ^ 2)).
    { apply Rmult_le_pos; [lra|]. replace (p1 * (c * r) ^ 2 - p * (c1 * r) ^ 2) with ((p1 * c ^ 2 - p * c1 ^ 2) * r ^ 2) by ring. apply Rmult_le_pos; [lra|apply pow2_ge_0]. }
    assert (0 <= lam * p1 * (p1 - p)) by (apply Rmult_le_pos; [apply Rmult_le_pos|]; lra).
    assert (0 <= DI l (c1 * r) ^ 2 * p * (p1 - p)) by (apply Rmult_le_pos; [apply Rmult_le_pos; [apply pow2_ge_0|]|]; lra). lra.
  Qed.
  (** ** a perfect reflector *)
  Lemma QQ_incr r r' : 0 < r -> r < r' -> QQ r < QQ r'.
  Proof.
    revert r r'. apply (incr_pos QQ _ QQ_derive). intros x Hx. apply Rdiv_lt_0_compat; [|assumption]. apply Rmult_lt_0_compat; [now apply QQ_pos|].
    assert (A := nDI l x Hx). assert (B := nDK l x Hx). lra.
  Qed.
  Definition PP (x : R) : R := QQ x * DI l x / - DK l x.
  Lemma PP_incr r r' : 0 < r -> r < r' -> PP r < PP r'.
  Proof.
    revert r r'. apply (incr_pos PP (fun x => QQ x * (DI l x - DK l x) * (x ^ 2 + lam) / (x * DK l x ^ 2))).
    - intros x Hx. assert (B := nDK l x Hx). unfold PP.
      eapply deq; [apply is_derive_div; [apply dmult; [now apply QQ_derive|now apply DI_riccati]|apply @is_derive_opp; now apply DK_riccati|lra]|].
      cbv beta. unfold opp. simpl. set (a := DI l x) in *. set (d := DK l x) in *. set (q := QQ x). clearbody a d q. field. lra.
    - intros x Hx. assert (A := nDI l x Hx). assert (B := nDK l x Hx). assert (L := lam_pos). assert (0 < x ^ 2) by (now apply pow_lt).
      apply Rdiv_lt_0_compat; [apply Rmult_lt_0_compat; [apply Rmult_lt_0_compat; [now apply QQ_pos|lra]|lra]|].
      apply Rmult_lt_0_compat; [assumption|]. replace (DK l x ^ 2) with ((- DK l x) ^ 2) by ring. apply pow_lt. lra.
  Qed.
End Riccati.
