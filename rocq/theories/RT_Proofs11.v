(** * Nothing but ratios of lengths matters if no material has a scale of its own *)
From Coq Require Import Reals.
From Coq Require Import Bool ZArith List Lia Lra.
From Verif Require Import Base Mat_Model Misc_Model Mat_Spec Help_Proofs Bessel_Model Scat_Model Scat_Spec Trans_Model Trans_Spec Lin_Model RT_Model RT_Spec RT_Spec2.
Import ListNotations.
Open Scope R_scope.

Section Scale.
  Context (f : R) (Hf : 0 < f) (ks : list R) (Hks : forall k, In k ks -> 0 < k).
  Let ks' := map (fun k => k / f) ks.
  Lemma kr_scale r : map (fun k => k * (f * r)) ks' = map (fun k => k * r) ks.
  Proof. unfold ks'. rewrite map_map. apply map_ext. intros k. field. lra. Qed.
  Lemma ks_pos k : In k ks' -> 0 < k.
  Proof. unfold ks'. intros H. apply in_map_iff in H. destruct H as [k0 [<- H]]. apply Rdiv_lt_0_compat; [now apply Hks|assumption]. Qed.
  Lemma len : length ks' = length ks.
  Proof. apply map_length. Qed.
  Lemma fins_const l : fins (map (fun _ : R => Fin 1) l) = Val (map (fun _ => 1) l).
  Proof. induction l as [|a l IH]; [reflexivity|]. cbn [map fins]. now rewrite IH. Qed.
  Lemma flat_same m : dispersionless m -> eps_of m ks' = eps_of m ks /\ mu_of m ks' = mu_of m ks.
  Proof.
    intros [->|[Hp [e [u H]]]].
    - split; [reflexivity|]. unfold mu_of. cbn [mu_x mu_pec of_res obind]. rewrite !fins_const. unfold ks'. now rewrite map_map.
    - destruct (H ks Hks) as [-> ->]. destruct (H ks' ks_pos) as [-> ->]. unfold ks'. rewrite !map_map. split; reflexivity.
  Qed.
  Lemma mie_scale mieb l0 lmax r m1 m2 : dispersionless m1 -> dispersionless m2 -> mie mieb ks' l0 lmax (f * r) m1 m2 = mie mieb ks l0 lmax r m1 m2.
  Proof.
    intros H1 H2. destruct (flat_same m1 H1) as [E1 U1]. destruct (flat_same m2 H2) as [E2 U2]. unfold mie, miePEC, mie_lossy.
    rewrite E1, U1, E2, U2, kr_scale, len. reflexivity.
  Qed.
  Lemma mie_int_scale mieb l0 lmax r m1 m2 : dispersionless m1 -> dispersionless m2 -> mie_internal mieb ks' l0 lmax (f * r) m1 m2 = mie_internal mieb ks l0 lmax r m1 m2.
  Proof.
    intros H1 H2. destruct (flat_same m1 H1) as [E1 U1]. destruct (flat_same m2 H2) as [E2 U2]. unfold mie_internal, miePEC_internal, mie_internal_lossy.
    rewrite E1, U1, E2, U2, kr_scale, len. reflexivity.
  Qed.
  Lemma coat_scale mieb l0 lmax r m1 m2 x : dispersionless m1 -> dispersionless m2 -> coat mieb ks' l0 lmax (f * r) m1 m2 x = coat mieb ks l0 lmax r m1 m2 x.
  Proof.
    intros H1 H2. destruct (flat_same m1 H1) as [E1 U1]. destruct (flat_same m2 H2) as [E2 U2]. unfold coat.
    rewrite E1, U1, E2, U2, kr_scale, len. reflexivity.
  Qed.
  Lemma removelast_map {A B} (g : A -> B) l : removelast (map g l) = map g (removelast l).
  Proof. induction l as [|a [|b l] IH]; [reflexivity|reflexivity|]. cbn [map removelast] in *. now rewrite IH. Qed.
  Lemma in_removelast {A} (a : A) l : In a (removelast l) -> In a l.
  Proof. induction l as [|b [|c l] IH]; intros H; [exact H|destruct H|]. cbn [removelast] in H. destruct H as [->|H]; [now left|right; now apply IH]. Qed.
  Lemma strat_scale mieb l0 lmax mat mats rs : (forall i, In i mats -> dispersionless (mat i)) -> strat mieb ks' l0 lmax mat mats (map (Rmult f) rs) = strat mieb ks l0 lmax mat mats rs.
  Proof.
    intros H. unfold strat, mie_strat.
    set (g' := fun m0 m1 r => Ok (mie mieb ks' l0 lmax r (mat m0) (mat m1))). set (g := fun m0 m1 r => Ok (mie mieb ks l0 lmax r (mat m0) (mat m1))).
    set (h' := fun ri ra m2 m3 inner => Ok (let! c := inner in coat mieb ks' l0 lmax ra (mat m2) (mat m3) c)). set (h := fun ri ra m2 m3 inner => Ok (let! c := inner in coat mieb ks l0 lmax ra (mat m2) (mat m3) c)).
    assert (loop : forall l ms r0 r0' x, (forall i, In i ms -> dispersionless (mat i)) -> coat_loop h' r0' (map (Rmult f) l) ms x = coat_loop h r0 l ms x).
    { induction l as [|a l IH]; intros [|m2 [|m3 ms]] r0 r0' x Hm; try reflexivity. cbn [map coat_loop].
      assert (E : h' r0' (f * a) m2 m3 x = h r0 a m2 m3 x).
      { unfold h, h'. destruct x as [x| |]; [|reflexivity|reflexivity]. cbn [obind]. rewrite coat_scale; [reflexivity| |]; apply Hm; [now left|right; now left]. }
      rewrite E. destruct (h r0 a m2 m3 x) as [y|]; [|reflexivity]. cbn [bind]. apply IH. intros i Hi. apply Hm. now right. }
    generalize (length mats). intros n. revert mats rs H. induction n as [|n IH]; intros mats rs H; [reflexivity|].
    destruct mats as [|m0 [|m1 ms]]; [reflexivity|reflexivity|]. destruct rs as [|r0 rs]; [reflexivity|].
    cbn [map mie_stratified]. assert (E : g' m0 m1 (f * r0) = g m0 m1 r0) by (unfold g, g'; rewrite mie_scale; [reflexivity| |]; apply H; [now left|right; now left]).
    rewrite E. destruct (g m0 m1 r0) as [inner|]; [|reflexivity]. destruct (_ && _)%bool.
    - change (f * r0 :: map (Rmult f) rs) with (map (Rmult f) (r0 :: rs)). rewrite removelast_map. apply IH. intros i Hi. apply H. now apply in_removelast.
    - cbn [snd tl]. rewrite (loop _ _ r0); [reflexivity|]. intros i Hi. apply H. now right.
  Qed.
  Lemma vmap2_scale L e : vmap2 (fun k e => k * (f * L) * sqrt e) ks' e = vmap2 (fun k e => k * L * sqrt e) ks e.
  Proof.
    unfold ks', vmap2. clear Hks ks'. revert e. induction ks as [|k r IH]; intros [|a e]; cbn [map combine fst snd]; try reflexivity. rewrite IH. f_equal. field. lra.
  Qed.
  Lemma arg_scale L med : dispersionless med -> trans_arg (f * L) med ks' = trans_arg L med ks.
  Proof.
    intros H. destruct (flat_same med H) as [E _]. unfold trans_arg. rewrite E. destruct (eps_of med ks) as [e| |]; cbn [obind]; [|reflexivity|reflexivity]. now rewrite vmap2_scale.
  Qed.
  Lemma no_zero l : (forall k, In k l -> 0 < k) -> existsb (fun k => Reqb k 0) l = false.
  Proof. intros H. induction l as [|k l IH]; [reflexivity|]. cbn. destruct (Reqb_spec k 0) as [->|_]; [generalize (H 0 (or_introl eq_refl)); lra|]. apply IH. intros; apply H; now right. Qed.
  Lemma omap_ext {A B} (g h : A -> out B) l : (forall a, g a = h a) -> omap g l = omap h l.
  Proof. intros H. induction l as [|a l IH]; cbn; [reflexivity|]. now rewrite H, IH. Qed.
  Lemma trans_ab_dyn t l : t_k t = l -> (forall k, In k l -> 0 < k) ->
    trans_ab t = let! v := omap (fun a => omap (fun b => get_vl1l2 t a b) (orders (t_lmin t) (t_lssmax t))) (orders (t_lmin t) (t_lmax t)) in Val (Dynamic v).
  Proof.
    intros E H. unfold trans_ab. rewrite E. destruct l as [|k [|k2 l]]; try reflexivity. destruct (Reqb_spec k 0) as [->|_]; [generalize (H 0 (or_introl eq_refl)); lra|]. reflexivity.
  Qed.
  Lemma trans_scale transb c m : dispersionless (c_med c) -> trans transb (scale f c) m ks' = trans transb c m ks.
  Proof.
    intros H. unfold trans, translation_init. rewrite (no_zero ks Hks), (no_zero ks' ks_pos). cbn [c_lmax c_lssmax c_med c_L c_ext scale]. rewrite (arg_scale (c_L c) _ H).
    destruct (trans_arg (c_L c) (c_med c) ks) as [x| |] eqn:Ex; cbn [obind]; [|reflexivity|reflexivity].
    destruct (transb x _ _) as [b|]; cbn [of_res obind]; [|reflexivity].
    set (t' := Build_translation _ _ _ _ _ _ ks' _ _). set (t := Build_translation _ _ _ _ _ _ ks _ _).
    rewrite (trans_ab_dyn t ks eq_refl Hks), (trans_ab_dyn t' ks' eq_refl ks_pos).
    assert (G : forall a b, get_vl1l2 t' a b = get_vl1l2 t a b).
    { intros a b0. unfold get_vl1l2, t, t'. cbn [t_m t_L t_medium t_k t_ext]. rewrite (arg_scale (c_L c) _ H). reflexivity. }
    cbn [t_lmin t_lmax t_lssmax t t']. rewrite (omap_ext _ (fun a => omap (fun b => get_vl1l2 t a b) (orders (Z.to_nat (Z.max 1 m)) (c_lssmax c)))); [reflexivity|].
    intros a. now apply omap_ext.
  Qed.
  Context (c : config) (H1 : made_of c (c_1 c) dispersionless) (H2 : made_of c (c_2 c) dispersionless) (Hm : dispersionless (c_med c)).
  Lemma elements_scale mieb transb m : elements mieb transb (scale f c) m ks' = elements mieb transb c m ks.
  Proof.
    unfold elements. rewrite trans_scale by assumption.
    assert (EA : mieA mieb (scale f c) ks' = mieA mieb c ks).
    { unfold mieA, scale, made_of in *. cbn. destruct (c_1 c) as [m1 r|ms rs]; cbn [scale_sphere]; [now rewrite mie_scale|now rewrite strat_scale]. }
    assert (EB : mieB mieb (scale f c) ks' = mieB mieb c ks).
    { unfold mieB, scale, made_of in *. cbn. destruct (c_2 c) as [m1 r|ms rs]; cbn [scale_sphere]; [now rewrite mie_scale, mie_int_scale|now rewrite strat_scale]. }
    rewrite EA, EB. reflexivity.
  Qed.
  Lemma rt_lndet_scale mieb transb fuel conv m : rt_lndet mieb transb (scale f c) fuel conv m ks' = rt_lndet mieb transb c fuel conv m ks.
  Proof. unfold rt_lndet, rt_matrix, rt_blocks. rewrite elements_scale, len. reflexivity. Qed.
End Scale.

(** ** zero frequency *)
Section Static.
  Context (f : R) (Hf : 0 < f) (c : config) (ra rb : R) (E1 : c_1 c = Solid PEC ra) (E2 : c_2 c = Solid PEC rb) (HL : 0 < c_L c) (Hra : 0 < ra) (Hrb : 0 < rb).
  Lemma k0_pec_indep m2 n r r' : mie_k0 PEC m2 0 n r = mie_k0 PEC m2 0 n r'.
  Proof. reflexivity. Qed.
  Lemma k0_pec_int_indep m1 n r r' : mie_internal_k0 m1 PEC 0 n r = mie_internal_k0 m1 PEC 0 n r'.
  Proof. reflexivity. Qed.
  Lemma ratio_scale a b : 0 < b -> f * a / (f * b) = a / b.
  Proof. intros. field. lra. Qed.
  Lemma elements_k0_scale transb m : elements_k0 transb (scale f c) m = let! (A, B, V, (a, b)) := elements_k0 transb c m in Val (A, B, V, (f * a, f * b)).
  Proof.
    unfold elements_k0. cbn [c_1 c_2 c_lmax c_lssmax c_ext c_med c_L scale]. rewrite E1, E2. cbn [scale_sphere].
    rewrite (k0_pec_indep _ _ (f * ra) ra). destruct (mie_k0 PEC _ _ _ _) as [A| |]; cbn [obind]; [|reflexivity|reflexivity].
    rewrite (k0_pec_indep _ _ (f * rb) rb), (k0_pec_int_indep _ _ (f * rb) rb).
    destruct (if c_ext c then _ else _) as [B| |]; cbn [obind]; [|reflexivity|reflexivity].
    assert (R0 : Reqb 0 0 = true) by (destruct (Reqb_spec 0 0); congruence). unfold translation_init. cbn [existsb]. rewrite R0. cbn [orb obind]. unfold trans_ab. cbn [t_k t_ext t_m t_lmin t_lssmax t_lmax]. rewrite R0. cbn [obind]. reflexivity.
  Qed.
  Lemma elements_k0_radii transb m A B V r : elements_k0 transb c m = Val (A, B, V, r) -> r = (ra, rb).
  Proof.
    unfold elements_k0. rewrite E1, E2. destruct (mie_k0 PEC _ _ _ _) as [A0| |]; cbn [obind]; try discriminate.
    destruct (if c_ext c then _ else _) as [B0| |]; cbn [obind]; try discriminate. destruct (translation_init _ _ _ _ _ _ _ _ _) as [t| |]; cbn [obind]; try discriminate.
    destruct (trans_ab t) as [[]| |]; cbn [obind]; try discriminate. intros H. now inversion H.
  Qed.
  Lemma k0_scale transb m : blockmatrices_k0 transb (scale f c) m = blockmatrices_k0 transb c m.
  Proof.
    unfold blockmatrices_k0. cbn [c_ext scale]. destruct (c_ext c).
    - unfold blockmatrices_k0_ext. rewrite elements_k0_scale. destruct (elements_k0 transb c m) as [[[[A B] V] [a b]]| |] eqn:E; cbn [obind]; [|reflexivity|reflexivity].
      apply elements_k0_radii in E. injection E as -> ->. cbn [c_L scale]. rewrite !ratio_scale by assumption. reflexivity.
    - unfold blockmatrices_k0_int. rewrite elements_k0_scale. destruct (elements_k0 transb c m) as [[[[A B] V] [a b]]| |] eqn:E; cbn [obind]; [|reflexivity|reflexivity].
      apply elements_k0_radii in E. injection E as -> ->. cbn [c_L scale]. rewrite !ratio_scale by assumption. reflexivity.
  Qed.
  Lemma single_scale transb fuel conv m : single_m_k0 transb (scale f c) fuel conv m = single_m_k0 transb c fuel conv m.
  Proof. unfold single_m_k0. now rewrite k0_scale. Qed.
End Static.
