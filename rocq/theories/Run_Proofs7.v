(** * Single round trips *)
From Coq Require Import Bool Reals List ZArith Lia Lra.
From Verif Require Import Base Thermo_Model Thermo_Spec Thermo_Proofs Geo_Model Geo_Spec Bessel_Model Scat_Model Scat_Spec Trans_Model Lin_Model RT_Model RT_Spec Run_Model Run_Spec
  Run_Proofs Run_Proofs2 Run_Proofs4.
Import ListNotations.
Open Scope R_scope.

Lemma Rsum_app a b : Rsum (a ++ b) = Rsum a + Rsum b.
Proof. unfold Rsum. induction a as [|x a IH]; cbn; [lra|]. rewrite IH. lra. Qed.
Lemma rsum_S f M : rsum f (S M) = rsum f M + 2 * f (S M).
Proof. unfold rsum. rewrite seq_S, map_app, Rsum_app. cbn. lra. Qed.
Section One.
  Context (unk : exn) (mieb : list R -> nat -> Z -> res (list (list R) * list (list R))) (transb : bessel_fun) (c : config) (ks : list R) (tv : nat -> R -> R) (s s1 : gstate).
  Context (Bs : nat -> arr3 * arr3 * arr3 * arr3) (Hl : (1 <= c_lmax c)%nat).
  Context (H0 : s_blocks_all unk mieb transb c 0 ks s = (s1, Ok (Bs 0%nat))).
  Context (H1 : forall m, (1 <= m <= c_lmax c)%nat -> s_blocks_all unk mieb transb c (Z.of_nat m) ks s1 = (s1, Ok (Bs m))).
  Context (HT : forall m, (m <= c_lmax c)%nat -> traces (Bs m) (length ks) = map (tv m) ks /\ r3 (fst (fst (fst (Bs m)))) = n1 c (Z.of_nat m)).
  (** the last m that is added *)
  Definition last_m (mm : Z) : nat := Nat.min (c_lmax c) (Nat.max 1 (Z.to_nat mm)).
  Lemma oloop_run mm n m : (1 <= m)%nat -> (n + m = S (c_lmax c))%nat -> (m <= last_m mm)%nat ->
    oloop unk mieb transb c mm n m ks (map (fun k => rsum (fun m => tv m k) (m - 1)) ks) s1 = (s1, Ok (map (fun k => rsum (fun m => tv m k) (last_m mm)) ks)).
  Proof.
    revert m. induction n as [|n IH]; intros m Hm Hn HM; [unfold last_m in HM; lia|]. cbn [oloop]. unfold mbind. rewrite H1 by lia.
    destruct (HT m ltac:(lia)) as [E R]. rewrite E, R. clear E R.
    assert (E : map (fun p : R * R => fst p + 2 * snd p) (combine (map (fun k => rsum (fun m0 => tv m0 k) (m - 1)) ks) (map (tv m) ks)) = map (fun k => rsum (fun m0 => tv m0 k) m) ks).
    { clear -Hm. induction ks as [|k r IHk]; [reflexivity|]. cbn [map combine]. rewrite IHk. f_equal. cbn [fst snd].
      destruct m as [|m]; [lia|]. replace (S m - 1)%nat with m by lia. now rewrite rsum_S. }
    rewrite E. clear E. destruct (Nat.eqb_spec (n1 c (Z.of_nat m)) 1) as [e|e].
    - replace (last_m mm) with m; [reflexivity|]. unfold n1, lmin in e. unfold last_m in *. lia.
    - destruct (Z.leb_spec mm (Z.of_nat m)).
      + replace (last_m mm) with m; [reflexivity|]. unfold last_m in *. lia.
      + assert (HM' : (S m <= last_m mm)%nat) by (unfold n1, lmin in e; unfold last_m in *; lia).
        assert (X := IH (S m) ltac:(lia) ltac:(lia) HM'). replace (S m - 1)%nat with m in X by lia. exact X.
  Qed.
  Lemma one_run precision mmax mm : 0 < precision ->
    (match mmax with MAuto => mm = pyround (ln precision / ln 0.5) | MGiven n => mm = n /\ (n <= Z.of_nat (c_lmax c))%Z | MOther => False end) ->
    geo_mSum_oneRoundtrip unk mieb transb c precision true ks mmax s = (s1, Ok (map (fun k => rsum (fun m => tv m k) (last_m mm)) ks)).
  Proof.
    intros Hp Hmm. unfold geo_mSum_oneRoundtrip, mbind at 1. rewrite H0. destruct (Rltb_spec 0 precision); [|lra].
    destruct (HT 0%nat ltac:(lia)) as [E _]. rewrite E.
    replace (map (tv 0%nat) ks) with (map (fun k => rsum (fun m => tv m k) (1 - 1)) ks) by (apply map_ext; intros k; unfold rsum; cbn; lra).
    unfold mbind. destruct mmax as [|n|]; [| |contradiction].
    - subst mm. unfold ret. apply oloop_run; [lia|lia|unfold last_m; lia].
    - destruct Hmm as [-> Hle]. apply Z.leb_le in Hle. rewrite Hle. unfold ret. apply oloop_run; [lia|lia|unfold last_m; lia].
  Qed.
End One.

(** ** the class oneRoundtrip is finiteT without the analytic term and with mSum_oneRoundtrip in place of mSumme *)
Lemma slice_loop_sim {S1 S2 A} (f : S1 -> S2) (P : S1 -> Prop) (g1 : list Z -> M S1 (list A)) (g2 : list Z -> M S2 (list A)) :
  (forall x s, P s -> P (fst (g1 x s)) /\ g2 x (f s) = (f (fst (g1 x s)), snd (g1 x s))) ->
  forall fuel noff nmin nmax step r s, P s -> slice_loop fuel g2 noff nmin nmax step r (f s) = option_map (fun p => (f (fst p), snd p)) (slice_loop fuel g1 noff nmin nmax step r s).
Proof.
  intros H. induction fuel as [|fuel IH]; intros noff nmin nmax step r s HP; [reflexivity|]. cbn [slice_loop].
  destruct (nmin <=? nmax)%Z; [|reflexivity]. destruct (H (arange nmin (Z.min (nmin + step - 1) nmax + 1)) s HP) as [HP' ->].
  destruct (g1 _ s) as [s' [v|e]]; [|reflexivity]. cbn [fst snd] in *. destruct (slice_assign _ _ _ v); [now apply IH|reflexivity].
Qed.
Lemma slicewise_sim {S1 S2 A} (f : S1 -> S2) (P : S1 -> Prop) (g1 : list Z -> M S1 (list A)) (g2 : list Z -> M S2 (list A)) garbage nmin nmax step s :
  (forall x s, P s -> P (fst (g1 x s)) /\ g2 x (f s) = (f (fst (g1 x s)), snd (g1 x s))) -> P s ->
  slicewise_eval garbage g2 nmin nmax step (f s) = option_map (fun p => (f (fst p), snd p)) (slicewise_eval garbage g1 nmin nmax step s).
Proof.
  intros H HP. unfold slicewise_eval. destruct (py_int step) as [st|e]; [|reflexivity]. destruct (st <=? 0)%Z; [reflexivity|].
  destruct (_ <? 0)%Z; [reflexivity|]. now apply slice_loop_sim with (P := P).
Qed.
Section OneFE.
  Context (unk : exn) (mieb : list R -> nat -> Z -> res (list (list R) * list (list R))) (transb : bessel_fun) (c : config) (precision : R) (xrange : bool) (garbage : nat -> mat) (empty : nat -> R).
  Definition one_ops : geo_ops gstate :=
    {| g_mSumme := fun ks => geo_mSum_oneRoundtrip unk mieb transb c precision xrange ks MAuto; g_mSumme_k0 := raise unk; g_trace_dot := geo_mSum_trace_dot unk mieb transb c garbage |}.
  Lemma one_F ks b t : t_force t = false -> t_analytic t = false ->
    one_F_alle unk mieb transb c precision xrange garbage ks (set_analytic t b) = (set_analytic (fst (F_alle one_ops ks t)) b, snd (F_alle one_ops ks t)).
  Proof.
    intros Hf Ha. unfold one_F_alle, F_alle. destruct ks as [|k0 rest]; [reflexivity|]. cbn [t_force set_analytic]. rewrite Hf, Ha. cbn [negb andb].
    destruct (Reqb k0 0); unfold mbind, on_geom, ret; cbn [t_geom set_analytic one_ops g_mSumme].
    - destruct (geo_mSum_oneRoundtrip _ _ _ _ _ _ [1e-10] MAuto (t_geom t)) as [g1 [F0|ex]]; [|reflexivity].
      cbn [t_geom with_geom]. destruct (geo_mSum_oneRoundtrip _ _ _ _ _ _ rest MAuto g1) as [g2 [Fa|ex]]; reflexivity.
    - destruct (geo_mSum_oneRoundtrip _ _ _ _ _ _ (k0 :: rest) MAuto (t_geom t)) as [g1 [F0|ex]]; reflexivity.
  Qed.
  Lemma one_energy_is t : t_force t = false -> t_f t = None ->
    snd (one_free_energy unk mieb transb c precision xrange garbage empty t) = snd (free_energy one_ops empty (set_analytic t false)) /\
    t_geom (fst (one_free_energy unk mieb transb c precision xrange garbage empty t)) = t_geom (fst (free_energy one_ops empty (set_analytic t false))).
  Proof.
    intros Hf Hnone. set (t0 := set_analytic t false). set (b := t_analytic t). assert (Et : set_analytic t0 b = t) by (destruct t; reflexivity).
    assert (X := slicewise_sim (fun t => set_analytic t b) (fun s => t_force s = false /\ t_analytic s = false)
        (fun x => F_alle one_ops (map (fun n => t_deltaT t * IZR n) x)) (fun x => one_F_alle unk mieb transb c precision xrange garbage (map (fun n => t_deltaT t * IZR n) x))
        empty 0 (t_nmax t) (PyInt 50) t0).
    cbv beta in X. rewrite Et in X.
    assert (E : one_matsubaras unk mieb transb c precision xrange garbage empty t
      = (set_analytic (fst (get_f_matsubaras one_ops empty 0 (PyInt 50) t0)) b, snd (get_f_matsubaras one_ops empty 0 (PyInt 50) t0))).
    { unfold one_matsubaras, get_f_matsubaras. change (t_nprocs t0) with (t_nprocs t). change (t_nmax t0) with (t_nmax t). change (t_deltaT t0) with (t_deltaT t).
      destruct (t_nprocs t =? 0)%Z; [|cbn [fst snd]; now rewrite Et]. rewrite X.
      - pose proof (slicewise_terminates empty (fun x => F_alle one_ops (map (fun n => t_deltaT t * IZR n) x)) 0 (t_nmax t) (PyInt 50) t0) as N.
        destruct (slicewise_eval _ _ _ _ _ t0) as [[t' r]|]; [reflexivity|congruence].
      - intros x s [H1 H2]. split; [|now rewrite one_F].
        pose proof (F_alle_same one_ops (map (fun n => t_deltaT t * IZR n) x) s) as S. cbv zeta in S. unfold same_but_geom in S. intuition congruence.
      - split; [exact Hf|reflexivity]. }
    unfold one_free_energy, free_energy, ensure_f, mbind, get, put, ret. change (t_f t0) with (t_f t). rewrite Hnone. rewrite E.
    destruct (get_f_matsubaras one_ops empty 0 (PyInt 50) t0) as [t' [f|e]]; cbn [fst snd]; split; reflexivity.
  Qed.
  (** a repeated request returns the stored values *)
  Lemma one_again t t' F : one_free_energy unk mieb transb c precision xrange garbage empty t = (t', Ok F) ->
    one_free_energy unk mieb transb c precision xrange garbage empty t' = (t', Ok F).
  Proof.
    unfold one_free_energy, mbind, get, put, ret. destruct (t_f t) as [f|] eqn:Ef.
    - intros E. injection E as <- <-. now rewrite Ef.
    - destruct (one_matsubaras unk mieb transb c precision xrange garbage empty t) as [t1 [f|ex]]; [|discriminate].
      intros E. injection E as <- <-. reflexivity.
  Qed.
  Lemma one_force_fails t nmax : t_nmax t = Z.of_nat nmax -> t_nprocs t = 0%Z -> t_ff t = None ->
    one_force unk mieb transb c precision xrange garbage empty t = (with_force t true, Err AttributeError).
  Proof.
    intros Hn Hp Hff. unfold one_force, mbind, put, get. cbn [t_ff with_force]. rewrite Hff. unfold one_matsubaras. cbn [t_nprocs with_force t_nmax t_deltaT]. rewrite Hp. cbn [Z.eqb].
    unfold slicewise_eval. cbn [py_int Z.leb Z.compare]. destruct (Z.ltb_spec (t_nmax t - 0 + 1) 0); [lia|].
    destruct (Z.to_nat (t_nmax t - 0 + 1)) as [|fuel] eqn:Efuel; [lia|].
    cbn [slice_loop]. destruct (Z.leb_spec 0 (t_nmax t)); [|lia].
    rewrite (arange_cons 0) by lia. cbn [map]. rewrite Rmult_0_r.
    unfold one_F_alle. destruct (Reqb_spec 0 0); [|lra]. cbn [t_force with_force]. reflexivity.
  Qed.
End OneFE.
