(** * Proofs: the force blocks and the product rule *)
From Coq Require Import Bool Reals List ZArith Arith Lia Lra.
From Verif Require Import Base Lin_Model Lin_Spec Bal_Proofs.
Open Scope R_scope.

Lemma deriv_ext f g x l l' : (forall y, f y = g y) -> l = l' -> derivable_pt_lim f x l -> derivable_pt_lim g x l'.
Proof. intros E -> H eps He. destruct (H eps He) as [d Hd]. exists d. intros h Hh Hd'. rewrite <- !E. now apply Hd. Qed.

Lemma sumn_minus n f g : sumn n (fun i => f i - g i) = sumn n f - sumn n g.
Proof. induction n as [|n IH]; cbn [sumn]; [ring|]. rewrite IH. ring. Qed.

Lemma deriv_sumn ns (f : R -> nat -> R) (d : nat -> R) L : (forall s, derivable_pt_lim (fun x => f x s) L (d s)) ->
  derivable_pt_lim (fun x => sumn ns (f x)) L (sumn ns d).
Proof.
  intros H. induction ns as [|n IH]; cbn [sumn].
  - apply derivable_pt_lim_const.
  - exact (derivable_pt_lim_plus _ _ L _ _ IH (H n)).
Qed.

(** c * (p q k1 + r s k2) *)
Lemma deriv_term (c k1 k2 : R) (p q r s : R -> R) L p' q' r' s' :
  derivable_pt_lim p L p' -> derivable_pt_lim q L q' -> derivable_pt_lim r L r' -> derivable_pt_lim s L s' ->
  derivable_pt_lim (fun x => c * (p x * k1 * q x + r x * k2 * s x)) L
    (c * (k1 * (p' * q L + p L * q') + k2 * (r' * s L + r L * s'))).
Proof.
  intros Hp Hq Hr Hs.
  eapply deriv_ext; [| |exact (derivable_pt_lim_plus _ _ L _ _
    (derivable_pt_lim_scal _ (c * k1) L _ (derivable_pt_lim_mult _ _ L _ _ Hp Hq))
    (derivable_pt_lim_scal _ (c * k2) L _ (derivable_pt_lim_mult _ _ L _ _ Hr Hs)))].
  - intros y. unfold plus_fct, mult_real_fct, mult_fct. ring.
  - ring.
Qed.

Section Force.
Context (m ns : nat) (skal : arr_log) (e : roundtrip) (v : vfuns) (d : vderiv) (L : R).
Context (Hd : derivs_at v L d).
Let e' := at_L e v L.

(** all four translation coefficients non-zero, m > 0: the diagonal blocks are right *)
Lemma force_diag i j : m <> 0%nat -> nonzero (w0 v L) -> nonzero (w1 v L) -> nonzero (w2 v L) -> nonzero (w3 v L) ->
  derivable_pt_lim (fun x => EE (blocks ns skal (at_L e v x)) i j) L (EE (blocks_force m ns skal e' d) i j) /\
  derivable_pt_lim (fun x => MM (blocks ns skal (at_L e v x)) i j) L (MM (blocks_force m ns skal e' d) i j).
Proof.
  intros Hm N0 N1 N2 N3. destruct Hd as (H0 & H1 & H2 & H3).
  unfold nonzero in *.
  split; cbn [EE MM blocks blocks_force]; apply deriv_sumn with (f := fun x s => _); intros s;
    cbn [V0 V1 V2 V3 aTE aTM bTE bTM e' at_L];
    (eapply deriv_ext; [intros y; reflexivity| |refine (deriv_term _ _ _ _ _ _ _ _ _ _ _ _ _ _ _ _); [apply H0 || apply H2|apply H1 || apply H3|apply H0 || apply H2|apply H1 || apply H3]]); destruct (Nat.eqb_spec m 0); try contradiction; field; auto.
Qed.

(** m = 0 where the mixing coefficients vanish identically: all blocks are right *)
Lemma force_m0 i j : m = 0%nat -> nonzero (w0 v L) -> nonzero (w1 v L) ->
  (forall x i s, w2 v x i s = 0) -> (forall x i s, w3 v x i s = 0) ->
  derivable_pt_lim (fun x => EE (blocks ns skal (at_L e v x)) i j) L (EE (blocks_force m ns skal e' d) i j) /\
  derivable_pt_lim (fun x => EM (blocks ns skal (at_L e v x)) i j) L (EM (blocks_force m ns skal e' d) i j) /\
  derivable_pt_lim (fun x => ME (blocks ns skal (at_L e v x)) i j) L (ME (blocks_force m ns skal e' d) i j) /\
  derivable_pt_lim (fun x => MM (blocks ns skal (at_L e v x)) i j) L (MM (blocks_force m ns skal e' d) i j).
Proof.
  intros Hm N0 N1 Z2 Z3. destruct Hd as (H0 & H1 & H2 & H3). unfold nonzero in *.
  assert (Z7 : forall i s, V7 d i s = 0).
  { intros a b. eapply uniqueness_limite; [apply H2|]. eapply deriv_ext; [|reflexivity|apply (derivable_pt_lim_const 0)].
    intros y. unfold fct_cte. now rewrite Z2. }
  assert (Z8 : forall i s, V8 d i s = 0).
  { intros a b. eapply uniqueness_limite; [apply H3|]. eapply deriv_ext; [|reflexivity|apply (derivable_pt_lim_const 0)].
    intros y. unfold fct_cte. now rewrite Z3. }
  repeat split; cbn [EE EM ME MM blocks blocks_force]; apply deriv_sumn with (f := fun x s => _); intros s;
    cbn [V0 V1 V2 V3 aTE aTM bTE bTM e' at_L];
    (eapply deriv_ext; [intros y; reflexivity| |refine (deriv_term _ _ _ _ _ _ _ _ _ _ _ _ _ _ _ _); [apply H0 || apply H2|apply H1 || apply H3|apply H0 || apply H2|apply H1 || apply H3]]); rewrite ?Z2, ?Z3, ?Z7, ?Z8, Hm; cbn [Nat.eqb]; field; auto.
Qed.

(** the off-diagonal blocks keep one undifferentiated product *)
Lemma force_offdiag i j : m <> 0%nat -> nonzero (w0 v L) -> nonzero (w3 v L) ->
  exists gEM gME,
  derivable_pt_lim (fun x => EM (blocks ns skal (at_L e v x)) i j) L gEM /\
  derivable_pt_lim (fun x => ME (blocks ns skal (at_L e v x)) i j) L gME /\
  EM (blocks_force m ns skal e' d) i j - gEM =
    sumn ns (fun s => skal i j s * aTE e i * bTM e s *
       (w2 v L i s * w1 v L j s - (V7 d i s * w1 v L j s + w2 v L i s * V6 d j s))) /\
  ME (blocks_force m ns skal e' d) i j - gME =
    sumn ns (fun s => skal i j s * aTM e i * bTE e s *
       (w2 v L i s * w1 v L j s - (V7 d i s * w1 v L j s + w2 v L i s * V6 d j s))).
Proof.
  intros Hm N0 N3. destruct Hd as (H0 & H1 & H2 & H3). unfold nonzero in *.
  exists (sumn ns (fun s => skal i j s * aTE e i * (bTE e s * (V5 d i s * w3 v L j s + w0 v L i s * V8 d j s) + bTM e s * (V7 d i s * w1 v L j s + w2 v L i s * V6 d j s)))).
  exists (sumn ns (fun s => skal i j s * aTM e i * (bTE e s * (V7 d i s * w1 v L j s + w2 v L i s * V6 d j s) + bTM e s * (V5 d i s * w3 v L j s + w0 v L i s * V8 d j s)))).
  split; [|split; [|split]].
  - cbn [EM blocks]. apply deriv_sumn with (f := fun x s => _). intros s.
    exact (deriv_term (skal i j s * aTE e i) (bTE e s) (bTM e s) (fun x => w0 v x i s) (fun x => w3 v x j s) (fun x => w2 v x i s) (fun x => w1 v x j s) L _ _ _ _
      (H0 _ _) (H3 _ _) (H2 _ _) (H1 _ _)).
  - cbn [ME blocks]. apply deriv_sumn with (f := fun x s => _). intros s.
    exact (deriv_term (skal i j s * aTM e i) (bTE e s) (bTM e s) (fun x => w2 v x i s) (fun x => w1 v x j s) (fun x => w0 v x i s) (fun x => w3 v x j s) L _ _ _ _
      (H2 _ _) (H1 _ _) (H0 _ _) (H3 _ _)).
  - cbn [EM blocks_force]. rewrite <- sumn_minus.
    apply sumn_ext. intros s _. destruct (Nat.eqb_spec m 0); [contradiction|].
    cbn [V0 V1 V2 V3 aTE aTM bTE bTM e' at_L]. field. auto.
  - cbn [ME blocks_force]. rewrite <- sumn_minus.
    apply sumn_ext. intros s _. destruct (Nat.eqb_spec m 0); [contradiction|].
    cbn [V0 V1 V2 V3 aTE aTM bTE bTM e' at_L]. field. auto.
Qed.
End Force.
