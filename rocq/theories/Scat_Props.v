(** * Properties C38, C39, C40, C42 *)
From Coq Require Import Reals.
From Coquelicot Require Import Coquelicot.
From Coq Require Import ZArith List Lia Lra Sorted.
From Verif Require Import Base Mat_Model Mat_Spec Mat_Proofs Bessel_Model Bessel_Spec Bessel_Proofs6 Scat_Model Scat_Spec Scat_Proofs Scat_Proofs2 Scat_Proofs4 Scat_Proofs5 Scat_Proofs6.
From Verif Require Misc_Model Misc_Proofs.
Import ListNotations.
Open Scope R_scope.

(** the hypothesis [has m e u] used below holds for every Lorentz material with physical oscillators, every
    one-oscillator Smith material *)
Theorem C38_materials :
  (forall e b, Forall physical e -> good_b b -> has (Lorentz e b) (eps_spec e) (mu_val b)) /\
  (forall o b, physical o -> good_b b -> has (Smith [o] b) (smith_spec o) (mu_val b)).
Proof. split; [exact has_lorentz|exact has_smith]. Qed.
Print Assumptions C38_materials.

(** ** C38: scattering.py, fresnel and fresnelPEC *)
Theorem C38_fresnel_pointwise :
  forall m1 m2 e1 u1 e2 u2 kperps kns, has m1 e1 u1 -> has m2 e2 u2 -> (forall k, In k kns -> 0 < k) ->
  exists rs, fresnel m1 m2 kperps kns = Val rs /\ length rs = length kns /\
    forall q, (q < length kns)%nat -> nth q rs (0, 0) = fresnel1 (e1 (nth q kns 0)) (u1 (nth q kns 0)) (e2 (nth q kns 0)) (u2 (nth q kns 0)) (nth q kperps 0) (nth q kns 0).
Proof.
  intros m1 m2 e1 u1 e2 u2 kperps kns [H1 [_ P1]] [H2 [_ _]] Hk. unfold fresnel. rewrite P1.
  destruct (H1 kns Hk) as [-> ->]. destruct (H2 kns Hk) as [-> ->]. cbn [obind]. eexists. split; [reflexivity|].
  split; [now rewrite map_length, seq_length|]. intros q Hq. rewrite (nth_map_in _ _ q (0, 0) 0%nat) by (now rewrite seq_length).
  rewrite seq_nth by assumption. cbn [Nat.add]. unfold at_. now rewrite !(nth_map_in _ kns q 0 0).
Qed.
Print Assumptions C38_fresnel_pointwise.
Theorem C38_bounded :
  forall eP uP eM uM q k, 0 < eP -> 0 < uP -> 0 < eM -> 0 < uM -> 0 <= q -> 0 < q + k ->
  Rabs (fst (fresnel1 eP uP eM uM q k)) < 1 /\ Rabs (snd (fresnel1 eP uP eM uM q k)) < 1.
Proof. exact fresnel_bounds. Qed.
Print Assumptions C38_bounded.
Theorem C38_antisymmetric :
  forall eP uP eM uM q k, 0 < eP -> 0 < uP -> 0 < eM -> 0 < uM -> 0 <= q -> 0 < q + k ->
  fst (fresnel1 eM uM eP uP q k) = - fst (fresnel1 eP uP eM uM q k) /\ snd (fresnel1 eM uM eP uP q k) = - snd (fresnel1 eP uP eM uM q k).
Proof. exact fresnel_antisym. Qed.
Print Assumptions C38_antisymmetric.
Theorem C38_equal_media : forall e u q k, fresnel1 e u e u q k = (0, 0).
Proof. exact fresnel_equal. Qed.
Print Assumptions C38_equal_media.
Theorem C38_denser :
  forall eP eM q k, 0 < eM < eP -> 0 <= q -> 0 < k -> fst (fresnel1 eP 1 eM 1 q k) < 0 < snd (fresnel1 eP 1 eM 1 q k).
Proof. exact fresnel_denser. Qed.
Print Assumptions C38_denser.
(** the formula written with the perpendicular wave numbers *)
Theorem C38_formula :
  forall eP uP eM uM q k, 0 < eP -> 0 < uP -> 0 < eM -> 0 < uM ->
  let kz e u := sqrt (q ^ 2 + e * u * k ^ 2) in
  fresnel1 eP uP eM uM q k = ((uP * kz eM uM - uM * kz eP uP) / (uP * kz eM uM + uM * kz eP uP),
                              (eP * kz eM uM - eM * kz eP uP) / (eP * kz eM uM + eM * kz eP uP)).
Proof.
  intros eP uP eM uM q k HeP HuP HeM HuM kz. unfold fresnel1.
  assert (A : forall e u, 0 < e -> 0 < u -> (k * sqrt (e * u)) ^ 2 = e * u * k ^ 2).
  { intros e u He Hu. rewrite Rpow_mult_distr. replace (sqrt (e * u) ^ 2) with (e * u); [ring|]. rewrite pow2_sqrt; [reflexivity|]. left. now apply Rmult_lt_0_compat. }
  rewrite !A by assumption. reflexivity.
Qed.
Print Assumptions C38_formula.
(** fresnelPEC and the limit of infinite permittivity *)
Theorem C38_perfect_conductor :
  (forall m2 kperps kns, fresnel PEC m2 kperps kns = Val [(-1, 1)]) /\
  forall uP eM uM q k, 0 < uP -> 0 < eM -> 0 < uM -> 0 <= q -> 0 < k ->
  is_lim (fun eP => fst (fresnel1 eP uP eM uM q k)) p_infty (-1) /\ is_lim (fun eP => snd (fresnel1 eP uP eM uM q k)) p_infty 1.
Proof. split; [reflexivity|exact fresnel_pec_limit]. Qed.
Print Assumptions C38_perfect_conductor.
Lemma gold_has : has (Lorentz e_Gold None) (eps_spec e_Gold) (mu_val None).
Proof. apply has_lorentz; [|exact I]. constructor; [|constructor]. unfold physical. cbn [o_wP o_wR o_g]. repeat split; lra. Qed.
Lemma vacuum_has : has (Lorentz [] None) (eps_spec []) (mu_val None).
Proof. apply has_lorentz; [constructor|exact I]. Qed.
Example C38_example : exists r, fresnel (Lorentz e_Gold None) (Lorentz [] None) [2; 0] [1; 3] = Val [fresnel1 (eps_spec e_Gold 1) 1 (eps_spec [] 1) 1 2 1; r].
Proof. destruct (C38_fresnel_pointwise _ _ _ _ _ _ [2; 0] [1; 3] gold_has vacuum_has) as [rs [E [L H]]].
  { intros k [<-|[<-|[]]]; lra. }
  destruct rs as [|a [|b [|]]]; try discriminate. exists b. rewrite E. assert (H0 := H 0%nat ltac:(cbn; lia)). cbn [nth mu_val] in H0. now rewrite H0.
Qed.

(** ** C39: scattering.py, mie and mie_internal, with the Bessel functions the code computes *)
Theorem C39_mie_defined :
  forall ks l0 lmax r, (forall k, In k ks -> 0 < k) -> ks <> [] -> (l0 <= lmax)%nat -> 0 < r ->
  forall m1 m2 e1 u1 e2 u2, has m1 e1 u1 -> has m2 e2 u2 ->
  StronglySorted Rle (xs (refr e1 u1) r ks) \/ one_sided (xs (refr e1 u1) r ks) ->
  exists c, mie mie_bessels ks l0 (Z.of_nat lmax) r m1 m2 = Val c /\
    forall j q, (j < lmax - l0)%nat -> (q < length ks)%nat ->
    let k := nth q ks 0 in let s := sgn (l0 + 1 + j) * PI * 0.5 in
    exists di de ke, 0 < di /\ ke < 0 /\ 0 < u2 k * di - u1 k * ke /\ 0 < e2 k * di - e1 k * ke /\
      te_at c j q = (u2 k * di - u1 k * de) / (u2 k * di - u1 k * ke) * s /\
      tm_at c j q = (e2 k * di - e1 k * de) / (e2 k * di - e1 k * ke) * s.
Proof. exact mie_defined. Qed.
Print Assumptions C39_mie_defined.
Theorem C39_mie_matched :
  forall ks l0 lmax r, (forall k, In k ks -> 0 < k) -> ks <> [] -> (l0 <= lmax)%nat -> 0 < r ->
  forall m1 m2 e u, has m1 e u -> has m2 e u ->
  exists c, mie mie_bessels ks l0 (Z.of_nat lmax) r m1 m2 = Val c /\
    forall j q, (j < lmax - l0)%nat -> (q < length ks)%nat -> te_at c j q = 0 /\ tm_at c j q = 0.
Proof. exact mie_matched. Qed.
Print Assumptions C39_mie_matched.
Theorem C39_mie_internal_defined :
  forall ks l0 lmax r, (forall k, In k ks -> 0 < k) -> ks <> [] -> (l0 <= lmax)%nat -> 0 < r ->
  forall m1 m2 e1 u1 e2 u2, has m1 e1 u1 -> has m2 e2 u2 ->
  StronglySorted Rle (xs (refr e1 u1) r ks) \/ one_sided (xs (refr e1 u1) r ks) ->
  exists c, mie_internal mie_bessels ks l0 (Z.of_nat lmax) r m1 m2 = Val c /\
    forall j q, (j < lmax - l0)%nat -> (q < length ks)%nat ->
    let k := nth q ks 0 in let s := sgn (l0 + 1 + j) * 2 / PI in
    exists di ki ke, 0 < di /\ ki < 0 /\ ke < 0 /\ 0 < u2 k * di - u1 k * ke /\ 0 < e2 k * di - e1 k * ke /\
      te_at c j q = (u2 k * ki - u1 k * ke) / (u2 k * di - u1 k * ke) * s /\
      tm_at c j q = (e2 k * ki - e1 k * ke) / (e2 k * di - e1 k * ke) * s.
Proof. exact mie_internal_defined. Qed.
Print Assumptions C39_mie_internal_defined.
Theorem C39_mie_internal_matched :
  forall ks l0 lmax r, (forall k, In k ks -> 0 < k) -> ks <> [] -> (l0 <= lmax)%nat -> 0 < r ->
  forall m1 m2 e u, has m1 e u -> has m2 e u ->
  exists c, mie_internal mie_bessels ks l0 (Z.of_nat lmax) r m1 m2 = Val c /\
    forall j q, (j < lmax - l0)%nat -> (q < length ks)%nat -> te_at c j q = 0 /\ tm_at c j q = 0.
Proof. exact mie_internal_matched. Qed.
Print Assumptions C39_mie_internal_matched.
Example C39_example : exists c, mie mie_bessels [1/2; 1] 0 3 2 (Lorentz e_Gold None) (Lorentz e_Gold None) = Val c /\ te_at c 2 1 = 0.
Proof.
  destruct (C39_mie_matched [1/2; 1] 0 3 2) with (m1 := Lorentz e_Gold None) (m2 := Lorentz e_Gold None) (e := eps_spec e_Gold) (u := mu_val None) as [c [E H]];
    try exact gold_has; try discriminate; try lia; try lra.
  - intros k [<-|[<-|[]]]; lra.
  - exists c. split; [exact E|]. apply H; cbn; lia.
Qed.
Example C39_example_sorted : StronglySorted Rle (xs (refr (eps_spec []) (mu_val None)) 2 [1/2; 1]).
Proof.
  assert (N : forall k, refr (eps_spec []) (mu_val None) k = 1).
  { intros k. unfold refr, eps_spec, mu_val. cbn [map fold_right]. replace ((1 + 0) * 1) with 1 by ring. apply sqrt_1. }
  unfold xs. cbn [map]. rewrite !N. repeat constructor; lra.
Qed.

(** ** C40: with exact Bessel functions the coefficients are the unique solution of the boundary value problem *)
Theorem C40_mie :
  forall ks l0 lmax r m1 m2 e1 u1 e2 u2, (forall k, In k ks -> 0 < k) -> (Z.of_nat l0 <= lmax)%Z -> 0 < r -> has m1 e1 u1 -> has m2 e2 u2 ->
  exists c, mie exact_bessels ks l0 lmax r m1 m2 = Val c /\
    forall j q a, (j < Z.to_nat (lmax - Z.of_nat l0))%nat -> (q < length ks)%nat ->
    let k := nth q ks 0 in let n1 := refr e1 u1 k in let n2 := refr e2 u2 k in
    ((exists b, matching_ext (l0 + 1 + j) (u1 k) (u2 k) n1 n2 k r a b) <-> a = TE c j q) /\
    ((exists b, matching_ext (l0 + 1 + j) (e1 k) (e2 k) n1 n2 k r a b) <-> a = TM c j q).
Proof.
  intros ks l0 lmax r m1 m2 e1 u1 e2 u2 Hks Hl Hr H1 H2.
  destruct (mie_exact ks l0 lmax Hks Hl r m1 m2 e1 u1 e2 u2 Hr H1 H2) as [c [E C]]. exists c. split; [exact E|].
  intros j q a Hj Hq. cbv zeta. assert (Hk : 0 < nth q ks 0) by (apply Hks, nth_In; exact Hq).
  destruct (C j q Hj Hq) as [-> ->]. destruct H1 as [_ [H1 _]]. destruct H2 as [_ [H2 _]]. destruct (H1 _ Hk). destruct (H2 _ Hk).
  replace (l0 + 1 + j)%nat with (S (l0 + j)) by lia. split; apply ext_unique; try assumption; now apply refr_pos.
Qed.
Print Assumptions C40_mie.
Theorem C40_mie_internal :
  forall ks l0 lmax r m1 m2 e1 u1 e2 u2, (forall k, In k ks -> 0 < k) -> (Z.of_nat l0 <= lmax)%Z -> 0 < r -> has m1 e1 u1 -> has m2 e2 u2 ->
  exists c, mie_internal exact_bessels ks l0 lmax r m1 m2 = Val c /\
    forall j q a, (j < Z.to_nat (lmax - Z.of_nat l0))%nat -> (q < length ks)%nat ->
    let k := nth q ks 0 in let n1 := refr e1 u1 k in let n2 := refr e2 u2 k in
    ((exists b, matching_int (l0 + 1 + j) (u1 k) (u2 k) n1 n2 k r a b) <-> a = TE c j q) /\
    ((exists b, matching_int (l0 + 1 + j) (e1 k) (e2 k) n1 n2 k r a b) <-> a = TM c j q).
Proof.
  intros ks l0 lmax r m1 m2 e1 u1 e2 u2 Hks Hl Hr H1 H2.
  destruct (mie_int_exact ks l0 lmax Hks Hl r m1 m2 e1 u1 e2 u2 Hr H1 H2) as [c [E C]]. exists c. split; [exact E|].
  intros j q a Hj Hq. cbv zeta. assert (Hk : 0 < nth q ks 0) by (apply Hks, nth_In; exact Hq).
  destruct (C j q Hj Hq) as [-> ->]. destruct H1 as [_ [H1 _]]. destruct H2 as [_ [H2 _]]. destruct (H1 _ Hk). destruct (H2 _ Hk).
  replace (l0 + 1 + j)%nat with (S (l0 + j)) by lia. split; apply int_unique; try assumption; now apply refr_pos.
Qed.
Print Assumptions C40_mie_internal.
Theorem C40_perfect_conductor :
  forall ks l0 lmax r m e u, (forall k, In k ks -> 0 < k) -> (Z.of_nat l0 <= lmax)%Z -> 0 < r -> has m e u ->
  (exists c, mie exact_bessels ks l0 lmax r PEC m = Val c /\
    forall j q a, (j < Z.to_nat (lmax - Z.of_nat l0))%nat -> (q < length ks)%nat ->
    let k := nth q ks 0 in (pec_ext_TE (l0 + 1 + j) (refr e u k) k r a <-> a = TE c j q) /\ (pec_ext_TM (l0 + 1 + j) (refr e u k) k r a <-> a = TM c j q)) /\
  (exists c, mie_internal exact_bessels ks l0 lmax r m PEC = Val c /\
    forall j q a, (j < Z.to_nat (lmax - Z.of_nat l0))%nat -> (q < length ks)%nat ->
    let k := nth q ks 0 in (pec_int_TE (l0 + 1 + j) (refr e u k) k r a <-> a = TE c j q) /\ (pec_int_TM (l0 + 1 + j) (refr e u k) k r a <-> a = TM c j q)).
Proof.
  intros ks l0 lmax r m e u Hks Hl Hr H. split.
  - destruct (mie_pec_exact ks l0 lmax Hks Hl r m e u Hr H) as [c [E C]]. exists c. split; [exact E|].
    intros j q a Hj Hq. cbv zeta. assert (Hk : 0 < nth q ks 0) by (apply Hks, nth_In; exact Hq).
    destruct (C j q Hj Hq) as [-> ->]. destruct H as [_ [H _]]. destruct (H _ Hk).
    replace (l0 + 1 + j)%nat with (S (l0 + j)) by lia. apply pec_ext_unique; try assumption; now apply refr_pos.
  - destruct (mie_pec_int_exact ks l0 lmax Hks Hl r m e u Hr H) as [c [E C]]. exists c. split; [exact E|].
    intros j q a Hj Hq. cbv zeta. assert (Hk : 0 < nth q ks 0) by (apply Hks, nth_In; exact Hq).
    destruct (C j q Hj Hq) as [-> ->]. destruct H as [_ [H _]]. destruct (H _ Hk).
    replace (l0 + 1 + j)%nat with (S (l0 + j)) by lia. apply pec_int_unique; try assumption; now apply refr_pos.
Qed.
Print Assumptions C40_perfect_conductor.
(** not vacuous: a gold sphere in vacuum; the coefficient is the amplitude for which some interior field matches *)
Example C40_example : exists c b, mie exact_bessels [1] 0 2 3 (Lorentz e_Gold None) (Lorentz [] None) = Val c /\
  matching_ext 2 (eps_spec e_Gold 1) (eps_spec [] 1) (refr (eps_spec e_Gold) (mu_val None) 1) (refr (eps_spec []) (mu_val None) 1) 1 3 (TM c 1 0) b.
Proof.
  destruct (C40_mie [1] 0 2 3 _ _ _ _ _ _ ltac:(intros k [<-|[]]; lra) ltac:(lia) ltac:(lra) gold_has vacuum_has) as [c [E H]].
  destruct (H 1%nat 0%nat (TM c 1 0) ltac:(cbn; lia) ltac:(cbn; lia)) as [_ [_ T]]. destruct (T eq_refl) as [b B]. exists c, b. split; [exact E|exact B].
Qed.

(** ** C42: scattering.py, mie_coated; stratified_sphere_scattering.py *)
(** coating of the medium's material; any inner coefficients *)
Theorem C42_coating_of_medium :
  forall ks l0 lmax ra, (forall k, In k ks -> 0 < k) -> ks <> [] -> (l0 <= lmax)%nat -> 0 < ra ->
  forall ri m1 m2 e u inner, has m2 e u -> mie mie_bessels ks l0 (Z.of_nat lmax) ri m1 m2 = Val inner ->
  exists c, mie_coated mie_bessels ks l0 (Z.of_nat lmax) ri ra m1 m2 m2 = Val c /\
    forall j q, (j < lmax - l0)%nat -> (q < length ks)%nat -> TE c j q = TE inner j q /\ TM c j q = TM inner j q.
Proof.
  intros ks l0 lmax ra Hks Hne Hl Hra ri m1 m2 e u inner H E.
  destruct (coat_medium_actual ks l0 lmax ra Hks Hne Hl Hra m2 e u inner H) as [c [Ec Hc]].
  exists c. split; [|exact Hc]. unfold mie_coated. rewrite E. exact Ec.
Qed.
Print Assumptions C42_coating_of_medium.
Theorem C42_coating_of_core :
  forall ks l0 lmax ri ra m1 m3 e1 u1 e3 u3, (forall k, In k ks -> 0 < k) -> ks <> [] -> (l0 <= lmax)%nat -> 0 < ri -> 0 < ra ->
  has m1 e1 u1 -> has m3 e3 u3 -> StronglySorted Rle (xs (refr e1 u1) ra ks) \/ one_sided (xs (refr e1 u1) ra ks) ->
  exists c c', mie_coated mie_bessels ks l0 (Z.of_nat lmax) ri ra m1 m1 m3 = Val c /\ mie mie_bessels ks l0 (Z.of_nat lmax) ra m1 m3 = Val c' /\
    forall j q, (j < lmax - l0)%nat -> (q < length ks)%nat -> te_at c j q = te_at c' j q /\ tm_at c j q = tm_at c' j q /\ scale_at c j q = scale_at c' j q.
Proof. exact coat_core_actual. Qed.
Print Assumptions C42_coating_of_core.
(** further shells of the outermost material; any Bessel functions *)
Theorem C42_outer_shells :
  forall bessels ks l0 lmax mat m0 m1 ms r0 rs m r, length rs = length ms -> last (m1 :: ms) 0%nat = m ->
  strat bessels ks l0 lmax mat ((m0 :: m1 :: ms) ++ [m]) ((r0 :: rs) ++ [r]) = strat bessels ks l0 lmax mat (m0 :: m1 :: ms) (r0 :: rs).
Proof.
  intros bessels ks l0 lmax mat m0 m1 ms r0 rs m r Hlen Hm. unfold strat, Misc_Model.mie_strat.
  rewrite app_length. cbn [length]. rewrite Nat.add_1_r. cbn [app]. cbn [Misc_Model.mie_stratified].
  replace (last (m0 :: m1 :: ms ++ [m]) 0%nat) with m by (change (m0 :: m1 :: ms ++ [m]) with ((m0 :: m1 :: ms) ++ [m]); now rewrite last_last).
  change (m0 :: m1 :: ms ++ [m]) with ((m0 :: m1 :: ms) ++ [m]). change (r0 :: rs ++ [r]) with ((r0 :: rs) ++ [r]). rewrite !removelast_last.
  change (last (m0 :: m1 :: ms) 0%nat) with (last (m1 :: ms) 0%nat). rewrite Hm, Nat.eqb_refl.
  replace (Nat.leb 3 (length ((m0 :: m1 :: ms) ++ [m]))) with true by (symmetry; apply Nat.leb_le; rewrite app_length; cbn; lia).
  reflexivity.
Qed.
Print Assumptions C42_outer_shells.
(** the stratified result solves the matching problem of all its shells, with exact Bessel functions *)
Theorem C42_stratified_matching :
  forall ks l0 lmax, (forall k, In k ks -> 0 < k) -> (Z.of_nat l0 <= lmax)%Z ->
  forall mat ef uf m0 m1 r0 rs ms, length rs = length ms -> (forall m, In m (m0 :: m1 :: ms) -> has (mat m) (ef m) (uf m)) ->
  0 < r0 -> Sorted Rle (r0 :: rs) ->
  exists c, strat exact_bessels ks l0 lmax mat (m0 :: m1 :: ms) (r0 :: rs) = Ok (Val c) /\
    forall j q a, (j < Z.to_nat (lmax - Z.of_nat l0))%nat -> (q < length ks)%nat ->
    let k := nth q ks 0 in
    ((exists b, strat_match (S (l0 + j)) k (uf m0 k) (refr_of ef uf m0 k) b 0 (lte ef uf k (r0 :: rs) (m1 :: ms)) a) <-> a = TE c j q) /\
    ((exists b, strat_match (S (l0 + j)) k (ef m0 k) (refr_of ef uf m0 k) b 0 (ltm ef uf k (r0 :: rs) (m1 :: ms)) a) <-> a = TM c j q).
Proof. exact strat_solves. Qed.
Print Assumptions C42_stratified_matching.
(** perfectly conducting core *)
Theorem C42_stratified_matching_pec_core :
  forall ks l0 lmax, (forall k, In k ks -> 0 < k) -> (Z.of_nat l0 <= lmax)%Z ->
  forall mat ef uf m0 m1 r0 rs ms, length rs = length ms -> mat m0 = PEC -> (forall m, In m (m1 :: ms) -> has (mat m) (ef m) (uf m)) ->
  0 < r0 -> Sorted Rle (r0 :: rs) -> rs = [] \/ (exists r1 rs', rs = r1 :: rs' /\ r0 < r1) ->
  exists c, strat exact_bessels ks l0 lmax mat (m0 :: m1 :: ms) (r0 :: rs) = Ok (Val c) /\
    forall j q a, (j < Z.to_nat (lmax - Z.of_nat l0))%nat -> (q < length ks)%nat ->
    let k := nth q ks 0 in let L := S (l0 + j) in let n := refr_of ef uf m1 k in
    ((exists c0 d, c0 <> 0 /\ c0 * sph_i L (n * k * r0) + d * sph_h L (n * k * r0) = 0 /\
        strat_match L k (uf m1 k) n c0 d (lte ef uf k rs ms) a) <-> a = TE c j q) /\
    ((exists c0 d, c0 <> 0 /\ Derive (fun s => s * (c0 * sph_i L (n * k * s) + d * sph_h L (n * k * s))) r0 = 0 /\
        strat_match L k (ef m1 k) n c0 d (ltm ef uf k rs ms) a) <-> a = TM c j q).
Proof. exact strat_pec_solves. Qed.
Print Assumptions C42_stratified_matching_pec_core.
(** not vacuous: gold core, one shell of vacuum, medium gold *)
Definition ex_mat (m : nat) : material := if Nat.eqb m 0 then Lorentz e_Gold None else Lorentz [] None.
Example C42_example : exists c, strat exact_bessels [1] 0 2 ex_mat [0; 1; 0; 1]%nat [1; 2; 3] = Ok (Val c) /\
  exists b, strat_match 2 1 1 (refr (eps_spec e_Gold) (mu_val None) 1) b 0
    (lte (fun m => if Nat.eqb m 0 then eps_spec e_Gold else eps_spec []) (fun _ => mu_val None) 1 [1; 2; 3] [1; 0; 1]%nat) (TE c 1 0).
Proof.
  destruct (C42_stratified_matching [1] 0 2 ltac:(intros k [<-|[]]; lra) ltac:(lia) ex_mat (fun m => if Nat.eqb m 0 then eps_spec e_Gold else eps_spec []) (fun _ => mu_val None) 0 1 1 [2; 3] [0; 1]%nat) as [c [E H]].
  - reflexivity.
  - intros m [<-|[<-|[<-|[<-|[]]]]]; first [exact gold_has|exact vacuum_has].
  - lra.
  - repeat constructor; lra.
  - exists c. split; [exact E|]. destruct (H 1%nat 0%nat (TE c 1 0) ltac:(cbn; lia) ltac:(cbn; lia)) as [[_ T] _]. destruct (T eq_refl) as [b B]. exists b. exact B.
Qed.
