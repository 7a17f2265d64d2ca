(** * Comparison of sums over m and over frequencies; summation without early stop *)
From Coq Require Import Reals List Lia Lra ZArith Bool.
From Verif Require Import Base Geo_Model Geo_Spec Bessel_Model Scat_Model Scat_Spec Trans_Model RT_Model RT_Spec Run_Spec Run_Proofs Run_Proofs4.
Import ListNotations.
Open Scope R_scope.

Lemma Rsum_minus {A} (f g : A -> R) l : Rsum (map f l) - Rsum (map g l) = Rsum (map (fun a => f a - g a) l).
Proof. induction l as [|a l IH]; [cbn; lra|]. change (f a + Rsum (map f l) - (g a + Rsum (map g l)) = f a - g a + Rsum (map (fun a => f a - g a) l)). rewrite <- IH. ring. Qed.
Lemma rsum_lt (f g : nat -> R) M : (forall m, (m <= M)%nat -> f m < g m) -> rsum f M < rsum g M.
Proof.
  intros H. unfold rsum. assert (H0 := H 0%nat (Nat.le_0_l _)).
  assert (X : 0 <= Rsum (map g (seq 1 M)) - Rsum (map f (seq 1 M))).
  { rewrite Rsum_minus. apply Rsum_nonneg. intros x Hx. apply in_map_iff in Hx. destruct Hx as [j [<- Hj]]. apply in_seq in Hj. assert (Hj' := H j ltac:(lia)). lra. }
  lra.
Qed.
Lemma rsum_zero M : rsum (fun _ => 0) M = 0.
Proof. unfold rsum. assert (X : Rsum (map (fun _ : nat => 0) (seq 1 M)) = 0); [|rewrite X; ring]. induction (seq 1 M) as [|a l IH]; [reflexivity|]. change (0 + Rsum (map (fun _ : nat => 0) l) = 0). rewrite IH. ring. Qed.
Lemma rsum_neg (f : nat -> R) M : (forall m, (m <= M)%nat -> f m < 0) -> rsum f M < 0.
Proof. intros H. rewrite <- (rsum_zero M). now apply rsum_lt. Qed.
Lemma Rsum_app_nonpos l l' : (forall x, In x l' -> x <= 0) -> Rsum (l ++ l') <= Rsum l.
Proof.
  intros H. induction l as [|a l IH].
  - cbn [app]. change (Rsum l' <= 0). induction l' as [|b l' IH]; [apply Rle_refl|]. change (b + Rsum l' <= 0). assert (B := H b (or_introl eq_refl)). specialize (IH (fun x Hx => H x (or_intror Hx))). lra.
  - cbn [app]. change (a + Rsum (l ++ l') <= a + Rsum l). lra.
Qed.
Lemma rsum_longer (f g : nat -> R) N N' : (N <= N')%nat -> (forall m, (m <= N)%nat -> f m < g m) -> (forall m, (N < m)%nat /\ (m <= N')%nat -> f m < 0) -> rsum f N' < rsum g N.
Proof.
  intros HN H H'. apply Rle_lt_trans with (rsum f N); [|now apply rsum_lt]. unfold rsum. replace N' with (N + (N' - N))%nat by lia. rewrite seq_app, map_app.
  assert (X : Rsum (map f (seq 1 N) ++ map f (seq (1 + N) (N' - N))) <= Rsum (map f (seq 1 N))); [|lra].
  apply Rsum_app_nonpos. intros x Hx. apply in_map_iff in Hx. destruct Hx as [j [<- Hj]]. apply in_seq in Hj. left. apply H'. lia.
Qed.
Lemma sliced_lt g0 g0' g g' dT nmax i : 0 < dT -> (1 <= i)%nat -> g0 < g0' ->
  (forall n, (1 <= n <= nmax)%nat -> g (n / 50)%nat (dT * INR n) <= g' (n / 50)%nat (dT * INR n)) -> sliced_sum g0 g dT nmax i < sliced_sum g0' g' dT nmax i.
Proof.
  intros HT Hi H0 H. unfold sliced_sum. assert (Pi : 0 < INR i) by (apply lt_0_INR; lia). apply Rmult_lt_compat_l; [apply Rmult_lt_0_compat; lra|].
  match goal with |- _ / 2 + ?a < _ / 2 + ?b => assert (X : 0 <= b - a) end; [|lra].
  rewrite Rsum_minus. apply Rsum_nonneg. intros x Hx. apply in_map_iff in Hx. destruct Hx as [j [<- Hj]].
  destruct (used_freq dT nmax i j Hi Hj) as [Hb E]. rewrite E. specialize (H _ Hb). lra.
Qed.
Lemma sliced_zero dT nmax i : sliced_sum 0 (fun _ _ => 0) dT nmax i = 0.
Proof. unfold sliced_sum. assert (X : Rsum (map (fun _ : nat => 0) (seq 1 (nmax / i))) = 0); [|rewrite X; lra]. induction (seq 1 (nmax / i)) as [|a l IH]; [reflexivity|]. change (0 + Rsum (map (fun _ : nat => 0) l) = 0). rewrite IH. ring. Qed.
Lemma sliced_neg g0 g dT nmax i : 0 < dT -> (1 <= i)%nat -> g0 < 0 ->
  (forall n, (1 <= n <= nmax)%nat -> g (n / 50)%nat (dT * INR n) <= 0) -> sliced_sum g0 g dT nmax i < 0.
Proof. intros HT Hi H0 H. rewrite <- (sliced_zero dT nmax i). now apply sliced_lt. Qed.

(** with a precision that is not positive and negative terms the sum over m is never cut short *)
Lemma never_close a b eps : eps <= 0 -> ~ rel_close a b eps.
Proof.
  intros He. unfold rel_close. set (z := xsub _ _). clearbody z. destruct z as [r| | |]; cbn; try discriminate.
  intros H. unfold Rltb in H. destruct (Rlt_dec (Rabs r) eps) as [h|]; [|discriminate]. assert (P := Rabs_pos r). lra.
Qed.
Lemma no_stop precision lmax (g : nat -> R -> R) f ks M : precision <= 0 -> ks <> [] ->
  (forall m k, (m <= lmax)%nat -> In k ks -> f m k = Fin (g m k) /\ g m k < 0) -> stops_at precision lmax f ks M -> M = lmax.
Proof.
  intros Hp Hne H [HM [_ HS]]. destruct (Nat.eq_dec M lmax) as [|Hn]; [assumption|exfalso].
  destruct (HS ltac:(lia)) as [Z|[_ [i [_ C]]]].
  - destruct ks as [|k ks]; [now apply Hne|]. specialize (Z 0%nat ltac:(cbn; lia)). cbn [map nth] in Z.
    rewrite (msum_fin _ (fun m => g m k)) in Z; [|intros m Hm; apply H; [lia|now left]].
    injection Z as Z. assert (X : rsum (fun m => g m k) M < 0) by (apply rsum_neg; intros m Hm; apply H; [lia|now left]). lra.
  - refine (never_close _ _ _ _ C). lra.
Qed.
Lemma freqs_in dT nmax q k : In k (freqs dT nmax q) -> exists n, ((1 <= n)%nat /\ (n <= nmax)%nat) /\ k = dT * INR n.
Proof.
  unfold freqs. intros H. apply in_map_iff in H. destruct H as [n [<- Hn]]. apply filter_In in Hn. destruct Hn as [_ Hn]. apply andb_true_iff in Hn.
  destruct Hn as [H1 H2]. apply Nat.leb_le in H1. apply Nat.leb_le in H2. exists n. auto.
Qed.

(** a single wavenumber never crosses a switching point of the Bessel functions *)
Lemma one_wavenumber c m1 m2 ra rb k : c_1 c = Solid m1 ra -> c_2 c = Solid m2 rb -> 0 < ra -> 0 < rb -> 0 < c_L c -> 0 < k -> elementwise_at mie_bessels c [k].
Proof.
  intros E1 E2 Ha Hb HL Hk. split; [|now apply trans_at_one]. intros m r n e u Hm Hh.
  assert (Hr : 0 < r). { destruct Hm as [[H _]|[H _]]; rewrite ?E1, ?E2 in H; injection H as _ H; now rewrite <- H. }
  assert (Hp : 0 < e k * u k). { destruct Hh as [[_ [P _]]|[_ [P _]]]; destruct (P k Hk); now apply Rmult_lt_0_compat. }
  assert (Ht : forall t, In t (xs (refr e u) r [k]) -> t = k * r * sqrt (e k * u k)) by (intros t [<-|[]]; reflexivity).
  apply code_elementwise; [discriminate| |].
  - intros t Hin. rewrite (Ht t Hin). repeat apply Rmult_lt_0_compat; try assumption. now apply sqrt_lt_R0.
  - split.
    + destruct (Rle_dec 1e-3 (k * r * sqrt (e k * u k))) as [H|H]; [left|right]; intros t Hin; rewrite (Ht t Hin); lra.
    + destruct (Rle_dec (k * r * sqrt (e k * u k)) 100) as [H|H]; [left|right]; intros t Hin; rewrite (Ht t Hin); lra.
Qed.
