(** * Complete calculations in the interior geometry *)
From Coq Require Import Reals.
From Coquelicot Require Import Coquelicot.
From Coq Require Import Bool ZArith List Lia Lra.
From Verif Require Import Base Mat_Model Mat_Spec Mat_Proofs Thermo_Model Geo_Model Bessel_Model Scat_Model Scat_Spec Scat_Proofs Scat_Proofs10 Trans_Model Lin_Model
  RT_Model RT_Spec RT_Proofs RT_Proofs2 RT_Proofs13 Run_Model Run_Spec Run_Proofs Run_Proofs2.
Import ListNotations.
Open Scope R_scope.

Section Interior.
  Context (c : config) (m1 m2 : material) (ra rb : R) (e : list osc) (b : bprops) (HC : two_spheres c m1 m2 ra rb e b).
  Context (S1 : static_sphere m1) (S2 : static_sphere m2) (Hext : c_ext c = false) (Hn : (c_lmax c * c_lssmax c <> 1)%nat).
  Lemma static_int : static_coefs c = Val tt.
  Proof.
    destruct (elements_int c m1 m2 ra rb e b HC S1 S2 Hext 0) as [ate [atm [aln [bte [btm [bln [T [_ [_ [_ E]]]]]]]]]].
    unfold elements_k0, static_coefs in *. destruct HC as [C1 [C2 _]]. rewrite C1, C2 in *.
    destruct (mie_k0 m1 _ _ _ _); try discriminate. cbn [obind] in *. rewrite Hext in *. destruct (mie_internal_k0 _ _ _ _ _); try discriminate. reflexivity.
  Qed.
  Lemma mSumme_k0_int unk fuel mieb precision conv s : sound mieb c s ->
    exists s', geo_mSumme_k0 unk fuel trans_bessels c precision conv s = (s', Err TypeError) /\ sound mieb c s'.
  Proof.
    intros Hs. exists (with_static s 0).
    assert (Hn0 : (n1 c 0 * n2 c 0 <> 1)%nat).
    { unfold n1, n2, lmin. change (Z.to_nat (Z.max 1 0)) with 1%nat. replace (c_lmax c + 1 - 1)%nat with (c_lmax c) by lia. replace (c_lssmax c + 1 - 1)%nat with (c_lssmax c) by lia. exact Hn. }
    assert (EB := int_type_error c m1 m2 ra rb e b HC S1 S2 Hext 0 Hn0).
    destruct (elements_int c m1 m2 ra rb e b HC S1 S2 Hext 0) as [ate [atm [aln [bte [btm [bln [T [_ [_ [_ E1]]]]]]]]]].
    assert (E0 := static_int). destruct Hs as [Hf [Hc Hz]]. split.
    - unfold geo_mSumme_k0, mSumme_k0, mbind at 1, s_lndet_k0, s_blocks_k0, s_elements_k0, mbind, get, with_static, put. change (Z.of_nat 0) with 0%Z.
      destruct (g_0 s) as [m0|] eqn:E.
      + assert (H := Hz m0 eq_refl). apply Z.leb_le in H. rewrite H. cbn. rewrite E1. cbn. rewrite Hf. cbn. now rewrite EB.
      + rewrite E0. cbn. rewrite E1. cbn. rewrite Hf. cbn. now rewrite EB.
    - unfold with_static. destruct (g_0 s) as [m0|] eqn:E; (split; [exact Hf|]); (split; [exact Hc|]); cbn.
      + rewrite E. exact Hz.
      + intros m E'. injection E' as <-. lia.
  Qed.
  Lemma mSumme_int unk fuel mieb precision conv rest s : sound mieb c s ->
    exists s', geo_mSumme unk fuel mieb trans_bessels c precision conv (0 :: rest) s = (s', Err TypeError) /\ sound mieb c s'.
  Proof.
    intros Hs. destruct (mSumme_k0_int unk fuel mieb precision conv s Hs) as [s' [E H]]. exists s'. split; [|exact H].
    unfold geo_mSumme, mSumme. destruct (Reqb_spec 0 0); [|lra]. unfold geo_mSumme_k0 in E. unfold mbind. rewrite E. reflexivity.
  Qed.
End Interior.

(** the permittivity of water on the imaginary axis stays below 26 *)
Lemma chi_le o k q : 0 < k -> 0 <= o_g o -> 0 < o_wR o -> o_wP o ^ 2 <= q * o_wR o ^ 2 -> 0 <= q -> chi o k <= q.
Proof.
  intros Hk Hg Hw H Hq. assert (ON := omega_norm_pos). assert (0 < wr o) by (unfold wr; apply Rdiv_lt_0_compat; assumption).
  assert (0 <= gm o) by (apply scale_nonneg; exact Hg).
  assert (D : wr o ^ 2 <= den o k). { unfold den. assert (0 <= k ^ 2) by apply pow2_ge_0. assert (0 <= gm o * k) by (apply Rmult_le_pos; lra). lra. }
  assert (0 < wr o ^ 2) by (apply pow_lt; assumption).
  assert (W : wp o ^ 2 <= q * wr o ^ 2).
  { unfold wp, wr. replace (q * (o_wR o / omega_norm) ^ 2) with (q * o_wR o ^ 2 * / omega_norm ^ 2) by (field; lra).
    replace ((o_wP o / omega_norm) ^ 2) with (o_wP o ^ 2 * / omega_norm ^ 2) by (field; lra).
    apply Rmult_le_compat_r; [|exact H]. left. apply Rinv_0_lt_compat, pow_lt, ON. }
  unfold chi. apply Rle_div_l; [lra|]. apply Rle_trans with (1 := W). apply Rmult_le_compat_l; assumption.
Qed.
Lemma water_bounds k : 0 < k -> 1 <= eps_spec e_Water k <= 25.
Proof.
  intros Hk. rewrite eps_spec_chi. unfold e_Water. cbn [map fold_right].
  assert (Q : forall a w q, 0 <= a -> 0 < w -> a ^ 2 <= q * w ^ 2 -> 0 <= q -> 0 <= chi (Osc a w 0) k <= q).
  { intros a w q ? ? ? ?. split; [apply chi_nonneg; [|exact Hk]; unfold physical; cbn [o_wP o_wR o_g]; repeat split; lra|]. apply chi_le; cbn [o_wP o_wR o_g]; try assumption; lra. }
  assert (H1 := Q 4.16e13 3.48e13 2 ltac:(lra) ltac:(lra) ltac:(lra) ltac:(lra)). set (x1 := chi (Osc 4.16e13 3.48e13 0) k) in *. clearbody x1.
  assert (H2 := Q 4.16e12 1.33e12 10 ltac:(lra) ltac:(lra) ltac:(lra) ltac:(lra)). set (x2 := chi (Osc 4.16e12 1.33e12 0) k) in *. clearbody x2.
  assert (H3 := Q 1.10e13 7.49e12 3 ltac:(lra) ltac:(lra) ltac:(lra) ltac:(lra)). set (x3 := chi (Osc 1.10e13 7.49e12 0) k) in *. clearbody x3.
  assert (H4 := Q 1.14e14 1.56e14 1 ltac:(lra) ltac:(lra) ltac:(lra) ltac:(lra)). set (x4 := chi (Osc 1.14e14 1.56e14 0) k) in *. clearbody x4.
  assert (H5 := Q 9.00e15 1.44e16 1 ltac:(lra) ltac:(lra) ltac:(lra) ltac:(lra)). set (x5 := chi (Osc 9.00e15 1.44e16 0) k) in *. clearbody x5.
  assert (H6 := Q 1.63e16 3.18e16 1 ltac:(lra) ltac:(lra) ltac:(lra) ltac:(lra)). set (x6 := chi (Osc 1.63e16 3.18e16 0) k) in *. clearbody x6.
  assert (H7 := Q 1.48e16 4.01e16 1 ltac:(lra) ltac:(lra) ltac:(lra) ltac:(lra)). set (x7 := chi (Osc 1.48e16 4.01e16 0) k) in *. clearbody x7.
  clear Q. split; lra.
Qed.

(** arguments n k L within one regime of the code's Bessel functions *)
Lemma trans_regime c e u ks : has (c_med c) e u -> ks <> [] -> (forall k, In k ks -> 0 < k) ->
  (forall k, In k ks -> 1e-3 <= k * c_L c * sqrt (e k) <= 100) -> trans_at c ks.
Proof.
  intros Hm Hne Hp Hr. right. intros e' u' Hm'.
  replace (map (fun k => k * c_L c * sqrt (e' k)) ks) with (map (fun k => k * c_L c * sqrt (e k)) ks).
  2:{ apply map_ext_in. intros k Hk. destruct (proj1 Hm [k]) as [E1 _]; [intros y [<-|[]]; now apply Hp|]. destruct (proj1 Hm' [k]) as [E2 _]; [intros y [<-|[]]; now apply Hp|].
      rewrite E1 in E2. cbn [map] in E2. injection E2 as E2. now rewrite E2. }
  apply code_elementwise.
  - destruct ks; [congruence|discriminate].
  - intros t Ht. apply in_map_iff in Ht. destruct Ht as [k [<- Hk]]. apply Hr in Hk. lra.
  - split; left; intros t Ht; apply in_map_iff in Ht; destruct Ht as [k [<- Hk]]; apply Hr in Hk; lra.
Qed.
Lemma water_regime c ks : has (c_med c) (eps_spec e_Water) (mu_val None) -> c_L c = 1 -> ks <> [] -> (forall k, In k ks -> 1 <= k <= 15) -> trans_at c ks.
Proof.
  intros Em EL Hne Hk. apply (trans_regime c (eps_spec e_Water) (mu_val None)).
  - exact Em.
  - exact Hne.
  - intros k H. apply Hk in H. lra.
  - intros k H. apply Hk in H. rewrite EL, Rmult_1_r. destruct (water_bounds k) as [B1 B2]; [lra|].
    assert (S1 : 1 <= sqrt (eps_spec e_Water k)) by (rewrite <- sqrt_1; apply sqrt_le_1_alt; exact B1).
    assert (S2 : sqrt (eps_spec e_Water k) <= 5) by (replace 5 with (sqrt (5 * 5)) by (apply sqrt_square; lra); apply sqrt_le_1_alt; lra).
    set (n := sqrt _) in *. clearbody n. clear - H S1 S2. nra.
Qed.
