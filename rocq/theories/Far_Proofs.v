(** * Entries of the round-trip blocks at low frequency, for any implementation of the Bessel functions that is accurate at small arguments *)
From Coq Require Import Reals.
From Coquelicot Require Import Coquelicot.
From Coq Require Import Bool ZArith List Lia Lra.
From Verif Require Import Base Mat_Model Mat_Spec Mat_Proofs Help_Proofs Bessel_Model Bessel_Spec
  Scat_Model Scat_Spec Scat_Proofs Scat_Proofs2 Scat_Proofs6 Scat_Proofs7 Scat_Proofs8 Scat_Proofs9 Scat_Proofs10 Scat_Props2
  Trans_Model Trans_Spec Trans_Proofs Trans_Proofs3 Trans_Proofs4 Trans_Proofs5 Trans_Props Lin_Model Trip_Proofs RT_Model RT_Spec RT_Proofs RT_Proofs2.
Import ListNotations.
Open Scope R_scope.


Section Ext.
  Context (bes : list R -> nat -> Z -> res (list (list R) * list (list R))) (I : nat -> R -> R) (d : R) (HG : good_bes bes I d).
  Context (c : config) (m1 m2 : material) (ra rb : R) (e : list osc) (b : bprops) (HC : two_spheres c m1 m2 ra rb e b).
  Context (S1 : static_sphere m1) (S2 : static_sphere m2) (Hext : c_ext c = true) (m : Z) (Hm : (0 <= m)%Z).
  Let L := c_L c.
  Let o := (lmin m - 1)%nat.
  Let l i := (lmin m + i)%nat.
  Let sv i s := static_value (trans_k0_ext m (l i) (l s)).
  Let y k := k * ra * refr (eps_spec e) (mu_val b) k.
  Let q := sqrt (mu_val b 0).
  Definition gblocks (k : R) := blocks (n2 c m) (fun _ _ _ => 1) (rt_with bes c m k).

  (** the rows of the zero-frequency functions are the limits with these Bessel functions too *)
  Lemma rows_same te tm cm : rows e b te tm cm (mieA mie_bessels c) ra (c_lmax c) -> rows e b te tm cm (mieA bes c) ra (c_lmax c).
  Proof.
    intros H j Hj. destruct HC as [C1 [C2 [CM [P1 [P2 P3]]]]]. destruct (H j Hj) as [A B]. destruct (mie_static m1 (c_med c) e b ra (c_lmax c) j P1 CM S1 Hj) as [v [w K]].
    destruct (K _ _ _ HG) as [K1 K2]. destruct (K _ _ _ code_good) as [K3 K4]. unfold mieA in *. rewrite C1 in *.
    rewrite <- (limit0_unique _ _ _ K3 A), <- (limit0_unique _ _ _ K4 B). split; assumption.
  Qed.
  Lemma rows_same2 te tm cm : rows e b te tm cm (mieB mie_bessels c) rb (c_lssmax c) -> rows e b te tm cm (mieB bes c) rb (c_lssmax c).
  Proof.
    intros H j Hj. destruct HC as [C1 [C2 [CM [P1 [P2 P3]]]]]. destruct (H j Hj) as [A B]. destruct (mie_static m2 (c_med c) e b rb (c_lssmax c) j P2 CM S2 Hj) as [v [w K]].
    destruct (K _ _ _ HG) as [K1 K2]. destruct (K _ _ _ code_good) as [K3 K4]. unfold mieB in *. rewrite C2, Hext in *.
    rewrite <- (limit0_unique _ _ _ K3 A), <- (limit0_unique _ _ _ K4 B). split; assumption.
  Qed.

  Context (ate atm aln bte btm bln : list R).
  Context (RA : rows e b ate atm aln (mieA bes c) ra (c_lmax c)) (RB : rows e b bte btm bln (mieB bes c) rb (c_lssmax c)).
  Lemma V_limits i s : (i < n1 c m)%nat -> (s < n2 c m)%nat -> let x k := k * L * sqrt (eps_spec e k) in
    lim0 (fun k => x k ^ (l i + l s + 1) * V0 (rt_with bes c m k) i s) (sv i s) /\ lim0 (fun k => x k ^ (l i + l s + 1) * V1 (rt_with bes c m k) i s) (sgn2 (l s) (l i) * sv i s) /\
    lim0 (fun k => x k ^ (l i + l s + 1) * V2 (rt_with bes c m k) i s) 0 /\ lim0 (fun k => x k ^ (l i + l s + 1) * V3 (rt_with bes c m k) i s) 0.
  Proof.
    intros Hi Hs x. destruct HC as [_ [_ [CM [P1 [P2 P3]]]]]. unfold sgn2. rewrite (Nat.add_comm (l s)).
    unfold rt_with. cbn [V0 V1 V2 V3]. rewrite Hext. fold (l i) (l s).
    apply (C45_static_exterior (c_med c) e b L (c_lmax c) (c_lssmax c) (l i) (l s) m); [now left|exact P3|split; [apply (l_pos m)|now apply (i_lmax c m)]|split; [apply (l_pos m)|now apply (s_lmax c m)]|apply (abs_m m Hm)].
  Qed.
  Let alTE i := at_ ate (o + i) * exp (at_ aln (o + i)).
  Let alTM i := at_ atm (o + i) * exp (at_ aln (o + i)).
  Let beTE s := at_ bte (o + s) * exp (at_ bln (o + s)).
  Let beTM s := at_ btm (o + s) * exp (at_ bln (o + s)).
  Lemma block_limits i j : (i < n1 c m)%nat -> (j < n1 c m)%nat ->
    lim0 (fun k => rescaled ra e b m (fst (fst (fst (gblocks k)))) k i j) (sblock c ra rb m q alTE beTE i j) /\
    lim0 (fun k => rescaled ra e b m (snd (fst (fst (gblocks k)))) k i j) 0 /\
    lim0 (fun k => rescaled ra e b m (snd (fst (gblocks k))) k i j) 0 /\
    lim0 (fun k => rescaled ra e b m (snd (gblocks k)) k i j) (sblock c ra rb m q alTM beTM i j).
  Proof.
    intros Hi Hj. unfold rescaled, gblocks, blocks. cbn [fst snd].
    assert (HA : forall i, (i < n1 c m)%nat -> lim0 (fun k => aTE (rt_with bes c m k) i / (k * ra * refr (eps_spec e) (mu_val b) k) ^ (2 * l i + 1)) (alTE i) /\
                                 lim0 (fun k => aTM (rt_with bes c m k) i / (k * ra * refr (eps_spec e) (mu_val b) k) ^ (2 * l i + 1)) (alTM i)).
    { intros i0 H0. rewrite (l_so m). apply RA. generalize (i_lmax c m i0 H0). rewrite (l_so m). lia. }
    assert (HB : forall s, (s < n2 c m)%nat -> lim0 (fun k => bTE (rt_with bes c m k) s / (k * rb * refr (eps_spec e) (mu_val b) k) ^ (2 * l s + 1)) (beTE s) /\
                                 lim0 (fun k => bTM (rt_with bes c m k) s / (k * rb * refr (eps_spec e) (mu_val b) k) ^ (2 * l s + 1)) (beTM s)).
    { intros i0 H0. rewrite (l_so m). apply RB. generalize (s_lmax c m i0 H0). rewrite (l_so m). lia. }
    assert (SUM : forall (G : nat -> R -> R) (v : nat -> R) k0, (forall s, (s < n2 c m)%nat -> lim0 (fun k => y k ^ l j / y k ^ l i * G s k) (v s)) -> sumn (n2 c m) v = k0 ->
                    lim0 (fun k => y k ^ l j / y k ^ l i * sumn (n2 c m) (fun s => G s k)) k0).
    { intros G v k0 H E. rewrite <- E. apply (lim0_ext (fun k => sumn (n2 c m) (fun s => y k ^ l j / y k ^ l i * G s k))); [intros k _; apply sumn_scal|]. now apply lim0_sumn. }
    assert (Z : forall f : nat -> R, (forall s, f s = 0) -> sumn (n2 c m) f = 0).
    { intros f H. now apply sumn_zero. }
    assert (TT : forall (A B1 W1 W2 B2 W3 W4 : R -> R) s x1 x2, lim0 (fun k => y k ^ l j / y k ^ l i * (A k * (W1 k * B1 k * W2 k))) x1 -> lim0 (fun k => y k ^ l j / y k ^ l i * (A k * (W3 k * B2 k * W4 k))) x2 ->
       (s < n2 c m)%nat -> lim0 (fun k => y k ^ l j / y k ^ l i * (1 * A k * (W1 k * B1 k * W2 k + W3 k * B2 k * W4 k))) (x1 + x2)).
    { intros A B1 W1 W2 B2 W3 W4 s x1 x2 H1 H2 _. apply (lim0_ext (fun k => y k ^ l j / y k ^ l i * (A k * (W1 k * B1 k * W2 k)) + y k ^ l j / y k ^ l i * (A k * (W3 k * B2 k * W4 k)))); [intros k _; ring|]. now apply lim0_plus. }
    destruct (HA i Hi) as [A1 A2].
    split; [|split; [|split]].
    - eapply (SUM (fun s k => 1 * aTE (rt_with bes c m k) i * (V0 (rt_with bes c m k) i s * bTE (rt_with bes c m k) s * V1 (rt_with bes c m k) j s + V2 (rt_with bes c m k) i s * bTM (rt_with bes c m k) s * V3 (rt_with bes c m k) j s))).
      + intros s Hs. destruct (HB s Hs) as [B1 B2]. destruct (V_limits i s Hi Hs) as [v0 [v1 [v2 v3]]]. destruct (V_limits j s Hj Hs) as [w0 [w1 [w2 w3]]].
        apply (TT _ _ _ _ _ _ _ s); [apply (term_limit c m1 m2 ra rb e b HC m _ _ _ _ i j s _ _ _ _ A1 B1 v0 w1)|apply (term_limit c m1 m2 ra rb e b HC m _ _ _ _ i j s _ _ _ _ A1 B2 v2 w3)|exact Hs].
      + cbv beta. unfold sblock. apply sumn_ext. intros s Hs. unfold sv, l, L, q. ring.
    - eapply (SUM (fun s k => 1 * aTE (rt_with bes c m k) i * (V0 (rt_with bes c m k) i s * bTE (rt_with bes c m k) s * V3 (rt_with bes c m k) j s + V2 (rt_with bes c m k) i s * bTM (rt_with bes c m k) s * V1 (rt_with bes c m k) j s))).
      + intros s Hs. destruct (HB s Hs) as [B1 B2]. destruct (V_limits i s Hi Hs) as [v0 [v1 [v2 v3]]]. destruct (V_limits j s Hj Hs) as [w0 [w1 [w2 w3]]].
        apply (TT _ _ _ _ _ _ _ s); [apply (term_limit c m1 m2 ra rb e b HC m _ _ _ _ i j s _ _ _ _ A1 B1 v0 w3)|apply (term_limit c m1 m2 ra rb e b HC m _ _ _ _ i j s _ _ _ _ A1 B2 v2 w1)|exact Hs].
      + cbv beta. apply Z. intros s. ring.
    - eapply (SUM (fun s k => 1 * aTM (rt_with bes c m k) i * (V2 (rt_with bes c m k) i s * bTE (rt_with bes c m k) s * V1 (rt_with bes c m k) j s + V0 (rt_with bes c m k) i s * bTM (rt_with bes c m k) s * V3 (rt_with bes c m k) j s))).
      + intros s Hs. destruct (HB s Hs) as [B1 B2]. destruct (V_limits i s Hi Hs) as [v0 [v1 [v2 v3]]]. destruct (V_limits j s Hj Hs) as [w0 [w1 [w2 w3]]].
        apply (TT _ _ _ _ _ _ _ s); [apply (term_limit c m1 m2 ra rb e b HC m _ _ _ _ i j s _ _ _ _ A2 B1 v2 w1)|apply (term_limit c m1 m2 ra rb e b HC m _ _ _ _ i j s _ _ _ _ A2 B2 v0 w3)|exact Hs].
      + cbv beta. apply Z. intros s. ring.
    - eapply (SUM (fun s k => 1 * aTM (rt_with bes c m k) i * (V2 (rt_with bes c m k) i s * bTE (rt_with bes c m k) s * V3 (rt_with bes c m k) j s + V0 (rt_with bes c m k) i s * bTM (rt_with bes c m k) s * V1 (rt_with bes c m k) j s))).
      + intros s Hs. destruct (HB s Hs) as [B1 B2]. destruct (V_limits i s Hi Hs) as [v0 [v1 [v2 v3]]]. destruct (V_limits j s Hj Hs) as [w0 [w1 [w2 w3]]].
        apply (TT _ _ _ _ _ _ _ s); [apply (term_limit c m1 m2 ra rb e b HC m _ _ _ _ i j s _ _ _ _ A2 B1 v2 w3)|apply (term_limit c m1 m2 ra rb e b HC m _ _ _ _ i j s _ _ _ _ A2 B2 v0 w1)|exact Hs].
      + cbv beta. unfold sblock. apply sumn_ext. intros s Hs. unfold sv, l, L, q. ring.
  Qed.
End Ext.
