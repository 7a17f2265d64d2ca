(** * Sums over m whose terms do not depend on the history; the attributes *)
From Coq Require Import Reals.
From Coq Require Import Bool ZArith List Lia Lra.
From Verif Require Import Base Thermo_Model Geo_Model Geo_Spec Geo_Proofs Bessel_Model Scat_Model Scat_Spec Trans_Model Lin_Model RT_Model Run_Model Run_Spec.
Import ListNotations.
Open Scope R_scope.

(** ** mSumme *)
Lemma firstn_seq1 j n : (j <= n)%nat -> firstn j (seq 1 n) = seq 1 j.
Proof.
  intros H. replace n with (j + (n - j))%nat by lia. rewrite seq_app, firstn_app, seq_length, Nat.sub_diag, firstn_O, app_nil_r. apply firstn_all2. now rewrite seq_length.
Qed.
Section Pure.
  Context {St : Type} (term : nat -> list R -> M St (list xr)) (term0 : nat -> M St xr) (lmax : nat) (precision : R).
  Section Dynamic.
    Context (ks : list R) (v : nat -> list xr) (s s1 : St).
    Context (Hk : ks <> []) (Hv : forall m, length (v m) = length ks).
    Context (H0 : term 0%nat ks s = (s1, Ok (v 0%nat))) (H1 : forall m, (1 <= m <= lmax)%nat -> term m ks s1 = (s1, Ok (v m))).
    Lemma mloop_sim n m acc : length acc = length ks -> (1 <= m)%nat -> (n + m <= S lmax)%nat -> exists r,
      mloop term precision n m ks acc s1 = (s1, Ok r) /\ mloop (S := unit) (fun m _ => ret (v m)) precision n m ks acc tt = (tt, Ok r).
    Proof.
      revert m acc. induction n as [|n IH]; intros m acc Ha Hm Hn; [exists acc; split; reflexivity|]. cbn [mloop].
      assert (L : length acc <> 0%nat) by (rewrite Ha; destruct ks; [congruence|discriminate]).
      destruct (Nat.eqb_spec (length acc) 0) as [e|_]; [congruence|].
      destruct (xeqb _ _); [exists acc; split; reflexivity|]. unfold mbind. rewrite H1 by lia. unfold ret at 2. cbv beta iota.
      rewrite Hv, Ha, Nat.eqb_refl. destruct (xltb _ _); [eexists; split; reflexivity|].
      apply IH; [|lia|lia]. unfold zipx. rewrite map_length, combine_length, map_length, Hv, Ha. apply Nat.min_id.
    Qed.
    Lemma mSumme_sim k0 : hd_error ks = Some k0 -> k0 <> 0 -> exists r,
      mSumme term term0 lmax precision ks s = (s1, Ok r) /\ mSumme (S := unit) (fun m _ => ret (v m)) (fun _ => ret (Fin 0)) lmax precision ks tt = (tt, Ok r).
    Proof.
      intros Hd Hn. destruct (mloop_sim lmax 1 (v 0%nat)) as [r [E1 E2]]; [apply Hv|lia|lia|]. exists r. destruct ks as [|k rest]; [congruence|].
      injection Hd as ->. cbn [mSumme]. destruct (Reqb_spec k0 0); [congruence|]. unfold mbind. rewrite H0. split; [exact E1|exact E2].
    Qed.
  End Dynamic.
  Lemma runs_pure (v : nat -> list xr) ks s' m ts : runs (S := unit) (fun m => (fun (m : nat) (_ : list R) => ret (v m)) m ks) tt m s' ts -> ts = map v (seq m (length ts)).
  Proof.
    intros H. remember tt as s. revert Heqs. induction H as [|s m s1 a s2 l E H IH]; intros Hs; [reflexivity|]. cbn [length seq map]. injection E as <- <-.
    f_equal. apply IH. destruct s; reflexivity.
  Qed.
  Lemma mSumme_run ks (f : nat -> R -> xr) s s1 : ks <> [] -> hd 0 ks <> 0 ->
    term 0%nat ks s = (s1, Ok (map (f 0%nat) ks)) -> (forall m, (1 <= m <= lmax)%nat -> term m ks s1 = (s1, Ok (map (f m) ks))) ->
    exists M, stops_at precision lmax f ks M /\ mSumme term term0 lmax precision ks s = (s1, Ok (map (fun k => msum (fun m => f m k) M) ks)).
  Proof.
    intros Hk Hh H0 H1. destruct ks as [|k rest] eqn:Ek; [congruence|]. cbn [hd] in Hh. rewrite <- Ek in *.
    assert (Hd : hd_error ks = Some k) by now rewrite Ek.
    destruct (mSumme_sim ks (fun m => map (f m) ks) s s1 Hk (fun m => map_length _ _) H0 H1 k Hd Hh) as [r [E1 E2]].
    destruct (mSumme_spec (fun m (_ : list R) => ret (map (f m) ks)) (fun _ => ret (Fin 0)) lmax precision ks k tt tt r Hd Hh) as [t0 [ts [HM [HR [_ [Hr [Hj Hs]]]]]]].
    { intros m [] s2 t E. injection E as _ <-. rewrite Ek. discriminate. }
    { exact E2. }
    assert (R := runs_pure (fun m => map (f m) ks) ks _ _ _ HR). cbn [length seq map] in R. injection R as R0 R1.
    set (N := length ts) in *. exists N.
    assert (PE : forall j, (j <= N)%nat -> partial t0 ts j = map (fun k => msum (fun m => f m k) j) ks).
    { intros j Hj'. unfold partial. rewrite R0, map_length. apply nth_ext with NaN NaN; rewrite !map_length, seq_length; [reflexivity|]. intros q Hq.
      set (F := fun i => weighted _ _). rewrite (nth_indep _ NaN (F 0%nat)) by (rewrite map_length, seq_length; exact Hq). rewrite map_nth, seq_nth by exact Hq. cbn [Nat.add].
      set (G := fun k => msum _ j). rewrite (nth_indep _ NaN (G 0)) by (rewrite map_length; exact Hq). rewrite map_nth. unfold F, G, msum, Geo_Spec.column.
      f_equal.
      - rewrite (nth_indep _ NaN (f 0%nat 0)) by (rewrite map_length; exact Hq). now rewrite map_nth.
      - rewrite R1, firstn_map, map_map. rewrite firstn_seq1 by exact Hj'.
        apply map_ext. intros m. rewrite (nth_indep _ NaN (f m 0)) by (rewrite map_length; exact Hq). now rewrite map_nth. }
    split; [|rewrite E1, Hr, PE by lia; reflexivity].
    assert (L0 : length t0 = length ks) by (rewrite R0; apply map_length).
    unfold stops_at. split; [exact HM|]. split.
    - intros j Hlt. destruct (Hj j Hlt) as [A B]. rewrite L0 in A. rewrite <- !PE by lia. split; assumption.
    - intros HL. destruct (Hs HL) as [A|[A B]]; [left; rewrite L0, Hr in A; rewrite <- PE by lia; exact A|].
      right. split; [exact A|]. rewrite Hr in B. rewrite <- !PE by lia. exact B.
  Qed.

  (** zero frequency *)
  Lemma mloop_k0_sim (g : nat -> xr) s1 n m acc : (forall m, (1 <= m <= lmax)%nat -> term0 m s1 = (s1, Ok (g m))) -> (1 <= m)%nat -> (n + m <= S lmax)%nat -> exists r,
    mloop_k0 term0 precision n m acc s1 = (s1, Ok r) /\ mloop_k0 (S := unit) (fun m => ret (g m)) precision n m acc tt = (tt, Ok r).
  Proof.
    intros H1. revert m acc. induction n as [|n IH]; intros m acc Hm Hn; [exists acc; split; reflexivity|]. cbn [mloop_k0]. unfold mbind. rewrite H1 by lia.
    unfold ret at 2. cbv beta iota. destruct (xltb _ _); [eexists; split; reflexivity|]. apply IH; lia.
  Qed.
  Lemma runs_pure0 (v : nat -> xr) s' m ts : runs (S := unit) (fun m => ret (v m)) tt m s' ts -> ts = map v (seq m (length ts)).
  Proof.
    intros H. remember tt as s. revert Heqs. induction H as [|s m s1 a s2 l E H IH]; intros Hs; [reflexivity|]. cbn [length seq map]. injection E as <- <-.
    f_equal. apply IH. destruct s; reflexivity.
  Qed.
  Lemma mSumme_k0_run (g : nat -> xr) s s1 : term0 0%nat s = (s1, Ok (g 0%nat)) -> (forall m, (1 <= m <= lmax)%nat -> term0 m s1 = (s1, Ok (g m))) ->
    exists M, stops_at_k0 precision lmax g M /\ mSumme_k0 term0 lmax precision s = (s1, Ok [msum g M]).
  Proof.
    intros H0 H1. destruct (mloop_k0_sim g s1 lmax 1 (g 0%nat) H1 ltac:(lia) ltac:(lia)) as [r [E1 E2]].
    assert (E3 : mSumme_k0 (S := unit) (fun m => ret (g m)) lmax precision tt = (tt, Ok [r])) by (unfold mSumme_k0, mbind; cbn [ret]; rewrite E2; reflexivity).
    destruct (mSumme_k0_spec _ _ _ _ _ _ E3) as [t0 [ts [HM [HR [Hr [Hj Hs]]]]]].
    assert (R := runs_pure0 g _ _ _ HR). cbn [length seq map] in R. injection R as R0 R1. set (N := length ts) in *. exists N.
    assert (PE : forall j, (j <= N)%nat -> weighted t0 (firstn j ts) = msum g j).
    { intros j Hj'. unfold msum. rewrite R0, R1, firstn_map. do 2 f_equal. now apply firstn_seq1. }
    assert (PN : weighted t0 ts = msum g N) by (rewrite <- PE by lia; unfold N; now rewrite firstn_all).
    split; [|unfold mSumme_k0, mbind; rewrite H0, E1; unfold ret; do 2 f_equal; injection Hr as ->; now rewrite PN].
    split; [exact HM|]. split.
    - intros j Hlt. rewrite <- !PE by lia. now apply Hj.
    - intros HL. destruct (Hs HL) as [A B]. split; [exact A|]. rewrite <- PE by lia. now rewrite <- PN.
  Qed.
End Pure.

(** ** attributes *)
Lemma same_ks_eq a b : same_ks a b = true <-> a = b.
Proof.
  revert b. induction a as [|x a IH]; intros [|y b]; cbn; try (split; congruence). destruct (Reqb_spec x y) as [->|n]; cbn; [|split; [discriminate|congruence]].
  rewrite IH. split; congruence.
Qed.
(** the object after a request for [ks] *)
Definition loaded (ks : list R) (A B : coefs) (s : gstate) : gstate := {| g_force := false; g_K := Some ks; g_A := A; g_B := B; g_0 := g_0 s |}.
Section Attributes.
  Context (unk : exn) (fuel : nat) (mieb : list R -> nat -> Z -> res (list (list R) * list (list R))) (transb : bessel_fun) (c : config).
  Lemma elements_run m ks s A B V : sound mieb c s -> mieA mieb c ks = Val A -> mieB mieb c ks = Val B -> trans transb c m ks = Val V ->
    (m <= 1)%Z \/ g_K s = Some ks -> s_elements unk mieb transb c m ks s = (loaded ks A B s, Ok (pack m A B V)).
  Proof.
    intros [Hf [Hc _]] EA EB EV Hm. destruct s as [f K a b z]. cbn in Hf. subst f. unfold s_elements, mbind, get, s_trans, loaded. cbn [g_K g_A g_B g_0] in *.
    destruct (match K with Some k => same_ks k ks | None => false end) eqn:Hh.
    - destruct K as [k|]; [|discriminate]. apply same_ks_eq in Hh as ->. destruct (Hc ks eq_refl) as [EA' EB']. rewrite EA in EA'. rewrite EB in EB'. injection EA' as <-. injection EB' as <-.
      rewrite EV. cbn. reflexivity.
    - rewrite EA. cbn. rewrite EB. cbn. unfold mbind, get. rewrite EV. cbn. destruct Hm as [Hm|Hm]; [|subst K; assert (X : same_ks ks ks = true) by (now apply same_ks_eq); congruence].
      apply Z.leb_le in Hm. rewrite Hm. reflexivity.
  Qed.
  Lemma sound_loaded ks s A B : sound mieb c s -> mieA mieb c ks = Val A -> mieB mieb c ks = Val B -> sound mieb c (loaded ks A B s).
  Proof. intros [_ [_ Hz]] EA EB. split; [reflexivity|]. split; [intros ks' E; injection E as <-; auto|exact Hz]. Qed.
  Lemma sound_fresh : sound mieb c (fresh false).
  Proof. split; [reflexivity|]. split; intros ? E; discriminate E. Qed.
  (** zero frequency *)
  Definition with_static (s : gstate) (m : Z) : gstate := match g_0 s with Some _ => s | None => set_0 m s end.
  Lemma blocks_k0_run m s X v : sound mieb c s -> static_coefs c = Val tt -> elements_k0 transb c m = Val X -> blockmatrices_k0 transb c m = Val v ->
    s_blocks_k0 unk transb c m s = (with_static s m, Ok v).
  Proof.
    intros [Hf [_ Hz]] E0 E1 E2. unfold s_blocks_k0, s_elements_k0, mbind, get, with_static, put. destruct (g_0 s) as [m0|] eqn:E.
    - assert (H := Hz m0 eq_refl). apply Z.leb_le in H. rewrite H. cbn. rewrite E1. cbn. rewrite Hf. cbn. rewrite E2. reflexivity.
    - rewrite E0. cbn. rewrite E1. cbn. rewrite Hf. cbn. rewrite E2. reflexivity.
  Qed.
  Lemma sound_static s m : (m <= 1)%Z -> sound mieb c s -> sound mieb c (with_static s m).
  Proof.
    intros Hm [Hf [Hc Hz]]. unfold with_static. destruct (g_0 s) eqn:E; [split; [exact Hf|split; [exact Hc|now rewrite E]]|].
    split; [exact Hf|]. split; [exact Hc|]. intros m' E'. cbn in E'. injection E' as <-. exact Hm.
  Qed.
End Attributes.
