(** * The loops of the trace evaluation *)
From Coq Require Import Reals List ZArith Lia Lra.
From Verif Require Import Base Thermo_Model Thermo_Spec Geo_Model Geo_Spec Geo_Proofs Lin_Model Run_Model Run_Spec Run_Proofs4.
Import ListNotations.
Open Scope R_scope.

(** [x] lies between (1 + eps) r and r *)
Definition close (eps r x : R) : Prop := (1 + eps) * r <= x <= r.

(** more fuel does not change the result *)
Lemma trips_auto_mono f f' precision M P sum n rel r : trips_auto f precision M P sum n rel = Some r -> (f <= f')%nat -> trips_auto f' precision M P sum n rel = Some r.
Proof.
  revert f' P sum n rel. induction f as [|f IH]; intros f' P sum n rel H Hf; [discriminate|]. destruct f' as [|f']; [lia|].
  cbn [trips_auto] in *. destruct (xltb (Fin precision) rel); [|exact H]. destruct (map _ _) as [|x l]; [exact H|]. apply IH; [exact H|lia].
Qed.
Lemma roundtrips_mono f f' precision M r : arbitrary_roundtrips f precision M OAuto = Some r -> (f <= f')%nat -> arbitrary_roundtrips f' precision M OAuto = Some r.
Proof.
  unfold arbitrary_roundtrips. intros H Hf. destruct (trips_auto f _ _ _ _ _ _) as [x|] eqn:E; [|discriminate]. now rewrite (trips_auto_mono _ _ _ _ _ _ _ _ _ E Hf).
Qed.

(** negative terms: the sum over m runs up to lmax *)
Section Full.
  Context {St : Type} (precision : R) (tr : nat -> list R -> M St (list xr)) (lmax : nat) (ks : list R) (f : nat -> R -> R) (s1 : St).
  Context (Hp : precision <= 1) (Hks : ks <> []).
  Context (Htr : forall m, (1 <= m <= lmax)%nat -> tr m ks s1 = (s1, Ok (map (fun k => Fin (f m k)) ks))).
  Context (Hf : forall m k, (m <= lmax)%nat -> In k ks -> f m k < 0).
  Lemma zip_terms (a b : R -> R) l : zipx xadd (map (fun k => Fin (a k)) l) (map (xmul (Fin 2)) (map (fun k => Fin (b k)) l)) = map (fun k => Fin (a k + 2 * b k)) l.
  Proof. unfold zipx. induction l as [|k l IH]; [reflexivity|]. cbn [map combine]. rewrite IH. reflexivity. Qed.
  Lemma nth_fin (a : R -> R) l i : (i < length l)%nat -> exists k, In k l /\ nth i (map (fun k => Fin (a k)) l) NaN = Fin (a k) /\ k = nth i l 0.
  Proof.
    intros Hi. exists (nth i l 0). split; [now apply nth_In|]. split; [|reflexivity].
    rewrite (nth_indep _ NaN (Fin (a 0))) by (rewrite map_length; exact Hi). now rewrite (map_nth (fun k => Fin (a k))).
  Qed.
  Lemma rloop_full n m (a : R -> R) : (1 <= m)%nat -> (n + m <= S lmax)%nat -> (forall k, In k ks -> a k < 0) ->
    rloop precision tr n m ks (map (fun k => Fin (a k)) ks) s1 = (s1, Ok (map (fun k => Fin (a k + 2 * Rsum (map (fun m => f m k) (seq m n)))) ks)).
  Proof.
    revert m a. induction n as [|n IH]; intros m a Hm Hn Ha.
    - cbn [rloop seq map]. unfold ret. do 2 f_equal. apply map_ext. intros k. f_equal. change (Rsum []) with 0. ring.
    - cbn [rloop]. unfold mbind. rewrite Htr by lia. rewrite !map_length, Nat.eqb_refl.
      destruct (Nat.eqb_spec (length ks) 0) as [E|_]; [apply length_zero_iff_nil in E; contradiction|].
      rewrite zip_terms. set (new := map (fun k => Fin (a k + 2 * f m k)) ks). cbn zeta.
      assert (Hne : new <> []) by (unfold new; destruct ks; [contradiction|discriminate]).
      destruct (argmax_abs_spec new Hne) as [Hi _]. unfold new in Hi at 2. rewrite map_length in Hi.
      destruct (nth_fin (fun k => a k + 2 * f m k) ks _ Hi) as [k [Hk [E1 Ek]]]. fold new in E1.
      destruct (nth_fin a ks _ Hi) as [k' [_ [E2 Ek']]]. rewrite <- Ek in Ek'. subst k'.
      unfold at_. rewrite E1, E2. assert (A := Ha k Hk). assert (F := Hf m k ltac:(lia) Hk). cbn [xdiv].
      destruct (Reqb_spec (a k) 0) as [Z|_]; [lra|]. cbn [xabs xltb].
      destruct (Rltb_spec (Rabs ((a k + 2 * f m k) / a k)) precision) as [L|_].
      { exfalso. assert (X : (a k + 2 * f m k) / a k = 1 + 2 * ((- f m k) / (- a k))) by (field; lra). rewrite X in L.
        assert (Y : 0 < (- f m k) / (- a k)) by (apply Rdiv_lt_0_compat; lra). rewrite Rabs_pos_eq in L; lra. }
      unfold new. rewrite IH; [|lia|lia|intros k1 Hk1; assert (A1 := Ha k1 Hk1); assert (F1 := Hf m k1 ltac:(lia) Hk1); lra].
      do 2 f_equal. apply map_ext. intros k1. f_equal. cbn [seq map]. set (x := map _ _). change (Rsum (f m k1 :: x)) with (f m k1 + Rsum x). ring.
  Qed.
  Lemma roundtrips_full s : tr 0%nat ks s = (s1, Ok (map (fun k => Fin (f 0%nat k)) ks)) ->
    mSum_roundtrips lmax precision tr ks s = (s1, Ok (map (fun k => Fin (rsum (fun m => f m k) lmax)) ks)).
  Proof.
    intros H0. unfold mSum_roundtrips, mbind. rewrite H0. rewrite rloop_full; [reflexivity|lia|lia|]. intros k Hk. apply Hf; [lia|exact Hk].
  Qed.
End Full.

(** ** relative errors of sums *)
Lemma Rsum_close {A} eps (f g : A -> R) l : (forall x, In x l -> close eps (f x) (g x)) -> close eps (Rsum (map f l)) (Rsum (map g l)).
Proof.
  intros H. induction l as [|a l IH].
  - unfold close. change (Rsum (map f nil)) with 0. change (Rsum (map g nil)) with 0. lra.
  - destruct (H a (or_introl eq_refl)) as [h1 h2]. destruct (IH (fun x Hx => H x (or_intror Hx))) as [h3 h4]. unfold close.
    change (Rsum (map f (a :: l))) with (f a + Rsum (map f l)). change (Rsum (map g (a :: l))) with (g a + Rsum (map g l)). lra.
Qed.
Lemma rsum_close eps (f g : nat -> R) M : (forall m, (m <= M)%nat -> close eps (f m) (g m)) -> close eps (rsum f M) (rsum g M).
Proof.
  intros H. unfold rsum. destruct (H 0%nat ltac:(lia)) as [a1 a2].
  destruct (Rsum_close eps f g (seq 1 M)) as [b1 b2]; [intros m Hm; apply in_seq in Hm; apply H; lia|]. unfold close. lra.
Qed.
Lemma sliced_close eps g0 g0' g g' dT nmax i : 0 < dT -> (1 <= i)%nat -> close eps g0 g0' ->
  (forall n, (1 <= n <= nmax)%nat -> close eps (g (n / 50)%nat (dT * INR n)) (g' (n / 50)%nat (dT * INR n))) -> close eps (sliced_sum g0 g dT nmax i) (sliced_sum g0' g' dT nmax i).
Proof.
  intros HT Hi [a1 a2] H. unfold sliced_sum. assert (P : 0 < INR i * dT) by (apply Rmult_lt_0_compat; [apply lt_0_INR; lia|exact HT]).
  destruct (Rsum_close eps (fun j => g (i * j / 50)%nat (INR j * (INR i * dT))) (fun j => g' (i * j / 50)%nat (INR j * (INR i * dT))) (seq 1 (nmax / i))) as [b1 b2].
  { intros j Hj. destruct (used_freq dT nmax i j Hi Hj) as [h1 h2]. rewrite h2. now apply H. }
  unfold close. revert b1 b2. generalize (Rsum (map (fun j => g (i * j / 50)%nat (INR j * (INR i * dT))) (seq 1 (nmax / i)))). generalize (Rsum (map (fun j => g' (i * j / 50)%nat (INR j * (INR i * dT))) (seq 1 (nmax / i)))).
  intros x y b1 b2. revert P. generalize (INR i * dT). intros w P. split.
  - replace ((1 + eps) * (w * (g0 / 2 + y))) with (w * (((1 + eps) * g0) / 2 + (1 + eps) * y)) by field. apply Rmult_le_compat_l; lra.
  - apply Rmult_le_compat_l; lra.
Qed.
