(** * Improper integrals dominated by those of perfect reflectors *)
From Coq Require Import Reals.
From Coquelicot Require Import Coquelicot.
From Coq Require Import ZArith List Lia Lra Psatz.
From Verif Require Import Base Scat_Model Scat_Spec PFA_Model PFA_Spec PFA_Proofs PFA_Proofs2 Plate_Spec Zeta_Proofs Plate_Proofs.
Import ListNotations.
Open Scope R_scope.

Definition integral (g : R -> R) (a v : R) : Prop := is_RInt_gen g (at_point a) (Rbar_locally p_infty) v.
(** the improper integral is the limit of the integrals *)
Lemma integral_lim (g : R -> R) (a v : R) : integral g a v -> is_lim (fun b => RInt g a b) p_infty v.
Proof.
  intros H P HP. destruct (H P HP) as [A B HA [M HB] HAB]. exists M. intros b Hb. destruct (HAB a b HA (HB b Hb)) as [y [Hy Py]]. cbn in Hy. now rewrite (is_RInt_unique _ _ _ _ Hy).
Qed.
Lemma lim_integral (g : R -> R) (a v : R) : (forall b, a < b -> ex_RInt g a b) -> is_lim (fun b => RInt g a b) p_infty v -> integral g a v.
Proof.
  intros Hex H P HP. destruct (H P HP) as [M HM]. exists (fun x => x = a) (fun b => a < b /\ M < b); [reflexivity|exists (Rmax a M); intros x Hx; pose proof (Rmax_l a M); pose proof (Rmax_r a M); lra|].
  intros x b -> [Hb Hb']. exists (RInt g a b). split; [cbn; apply (RInt_correct (V := R_CompleteNormedModule)), Hex, Hb|]. now apply HM.
Qed.
Lemma integral_part (g : R -> R) (a v : R) : integral g a v -> exists M, forall b, M < b -> ex_RInt g a b.
Proof. intros H. destruct (H (fun _ => True)) as [A B HA [M HB] HAB]; [exists (mkposreal 1 Rlt_0_1); trivial|]. exists M. intros b Hb. destruct (HAB a b HA (HB b Hb)) as [y [Hy _]]. now exists y. Qed.
Lemma integral_le (g h : R -> R) (a v w : R) : (forall x, a <= x -> g x <= h x) -> integral g a v -> integral h a w -> v <= w.
Proof.
  intros H Hg Hh. destruct (integral_part g a v Hg) as [M1 E1]. destruct (integral_part h a w Hh) as [M2 E2]. apply (is_lim_le_loc (fun b => RInt g a b) (fun b => RInt h a b) p_infty v w); [|now apply integral_lim|now apply integral_lim].
  exists (Rmax a (Rmax M1 M2)). intros b Hb. pose proof (Rmax_l a (Rmax M1 M2)). pose proof (Rmax_r a (Rmax M1 M2)). pose proof (Rmax_l M1 M2). pose proof (Rmax_r M1 M2). apply RInt_le; [lra|apply E1; lra|apply E2; lra|]. intros x Hx. apply H. lra.
Qed.
Lemma integral_zero a : integral (fun _ => 0) a 0.
Proof.
  apply lim_integral; [intros; apply ex_RInt_const|]. apply is_lim_ext with (fun _ => 0); [|apply is_lim_const]. intros b. rewrite RInt_const. unfold scal; cbn; unfold mult; cbn. ring.
Qed.
Lemma integral_opp (g : R -> R) (a v : R) : integral g a v -> integral (fun x => - g x) a (- v).
Proof. intros H. apply (is_RInt_gen_opp (V := R_NormedModule) g v H). Qed.
Lemma integral_plus (g h : R -> R) (a v w : R) : integral g a v -> integral h a w -> integral (fun x => g x + h x) a (v + w).
Proof. intros H K. apply (is_RInt_gen_plus (V := R_NormedModule) g h v w H K). Qed.
Lemma diff_of (x y z : R) : x + y = z -> z - x = y.
Proof. lra. Qed.
Lemma near_diff (w x y e : R) : Rabs (x - w) < e / 2 -> Rabs (y - w) < e / 2 -> y - x < e.
Proof. intros A B. apply Rabs_def2 in A. apply Rabs_def2 in B. lra. Qed.
(** a continuous function dominated by an integrable one is integrable *)
Lemma dominated (g h : R -> R) (a w : R) : (forall x, a <= x -> continuous g x) -> (forall x, a <= x -> Rabs (g x) <= h x) -> (forall b, a < b -> ex_RInt h a b) -> integral h a w -> exists v, integral g a v /\ Rabs v <= w.
Proof.
  intros Cg D Eh Hh. assert (Eg : forall x y, a <= x -> x <= y -> ex_RInt g x y) by (intros x y Hx Hy; apply (ex_RInt_continuous (V := R_CompleteNormedModule)); rewrite Rmin_left, Rmax_right by lra; intros z Hz; apply Cg; lra).
  assert (Eh' : forall x y, a <= x -> x < y -> ex_RInt h x y) by (intros x y Hx Hy; destruct (Req_dec a x) as [<-|Hn]; [now apply Eh|]; apply (ex_RInt_Chasles_2 (V := R_CompleteNormedModule) h a x y); [lra|apply Eh; lra]).
  assert (Lh := integral_lim _ _ _ Hh). assert (X : exists v : R, filterlim (fun b => RInt g a b) (Rbar_locally p_infty) (locally v)).
  { apply (filterlim_locally_cauchy (U := R_CompleteSpace)). intros eps. destruct (Lh (fun y => Rabs (y - w) < eps / 2)) as [M HM]; [exists (mkposreal (eps / 2) (is_pos_div_2 eps)); intros y Hy; exact Hy|].
    exists (fun b => Rmax a M < b). split; [now exists (Rmax a M)|]. assert (Y : forall b b', Rmax a M < b -> b < b' -> Rabs (RInt g a b' - RInt g a b) < eps).
    { intros b b' Hb Hb'. pose proof (Rmax_l a M). pose proof (Rmax_r a M). assert (CG : RInt g a b + RInt g b b' = RInt g a b') by exact (RInt_Chasles (V := R_CompleteNormedModule) g a b b' (Eg a b ltac:(lra) ltac:(lra)) (Eg b b' ltac:(lra) ltac:(lra))). assert (CH : RInt h a b + RInt h b b' = RInt h a b') by exact (RInt_Chasles (V := R_CompleteNormedModule) h a b b' (Eh' a b ltac:(lra) ltac:(lra)) (Eh' b b' ltac:(lra) ltac:(lra))).
      rewrite (diff_of _ _ _ CG). apply Rle_lt_trans with (RInt h b b').
      - apply Rle_trans with (RInt (fun x => Rabs (g x)) b b'); [apply abs_RInt_le; [lra|apply Eg; lra]|]. apply RInt_le; [lra|apply ex_RInt_norm, Eg; lra|apply Eh'; lra|]. intros x Hx. apply D. lra.
      - assert (A := HM b ltac:(lra)). assert (B := HM b' ltac:(lra)). cbv beta in A, B. rewrite <- (diff_of _ _ _ CH). apply (near_diff w); [exact A|exact B]. }
    intros b b' Hb Hb'. change (Rabs (RInt g a b' + - RInt g a b) < eps). destruct (Rtotal_order b b') as [Lt|[<-|Gt]].
    - now apply (Y b b').
    - rewrite Rplus_opp_r, Rabs_R0. apply cond_pos.
    - apply (Rle_lt_trans _ _ _ (Req_le _ _ (Rabs_minus_sym (RInt g a b') (RInt g a b)))). now apply (Y b' b). }
  destruct X as [v Hv]. assert (I : integral g a v) by (apply lim_integral; [intros b Hb; apply Eg; lra|exact Hv]). exists v. split; [exact I|].
  apply Rabs_le. split.
  - apply Ropp_le_cancel. rewrite Ropp_involutive. apply (integral_le (fun x => - g x) h a); [intros x Hx; specialize (D x Hx); apply Rabs_le_between in D; lra|now apply integral_opp|exact Hh].
  - apply (integral_le g h a); [intros x Hx; specialize (D x Hx); apply Rabs_le_between in D; lra|exact I|exact Hh].
Qed.
Lemma below_of (x y z m : R) : x <= 0 -> z <= 0 -> y <= m -> x + (y + z) <= m.
Proof. lra. Qed.
(** strict inequality *)
Lemma integral_neg (g : R -> R) (a v c : R) : (forall x, a <= x -> continuous g x) -> (forall x, a <= x -> g x <= 0) -> integral g a v -> a < c -> g c < 0 -> v < 0.
Proof.
  intros Cg N I Hc Hn. assert (Eg : forall x y, a <= x -> x <= y -> ex_RInt g x y) by (intros x y Hx Hy; apply (ex_RInt_continuous (V := R_CompleteNormedModule)); rewrite Rmin_left, Rmax_right by lra; intros z Hz; apply Cg; lra).
  destruct (Cg c ltac:(lra) (fun y => y < g c / 2)) as [d Hd]; [exists (mkposreal (- g c / 2) ltac:(lra)); intros y Hy; unfold ball in Hy; cbn in Hy; unfold AbsRing_ball, minus, plus, opp, abs in Hy; cbn in Hy; apply Rabs_def2 in Hy; lra|].
  assert (D := cond_pos d). set (c1 := c + d / 2) in *. assert (B : RInt g c c1 <= g c / 2 * (d / 2)).
  { replace (g c / 2 * (d / 2)) with (RInt (fun _ => g c / 2) c c1) by (rewrite RInt_const; unfold scal; cbn; unfold mult; cbn; unfold c1; ring). apply RInt_le; [unfold c1; lra|apply Eg; unfold c1; lra|apply ex_RInt_const|]. intros x Hx. left. apply Hd. unfold ball; cbn. unfold AbsRing_ball, minus, plus, opp, abs; cbn. apply Rabs_def1; unfold c1 in Hx; lra. }
  assert (NP : forall x y, a <= x -> x <= y -> RInt g x y <= 0). { intros x y Hx Hy. replace 0 with (RInt (fun _ => 0) x y) by (rewrite RInt_const; unfold scal; cbn; unfold mult; cbn; ring). apply RInt_le; [lra|now apply Eg|apply ex_RInt_const|]. intros z Hz. apply N. lra. }
  assert (U : v <= g c / 2 * (d / 2)); [|assert (g c / 2 * (d / 2) < 0) by nra; lra].
  apply (is_lim_le_loc (fun b => RInt g a b) (fun _ => g c / 2 * (d / 2)) p_infty v (g c / 2 * (d / 2))); [|now apply integral_lim|apply is_lim_const]. exists c1. intros b Hb.
  assert (C1 : RInt g a c + RInt g c b = RInt g a b) by exact (RInt_Chasles (V := R_CompleteNormedModule) g a c b (Eg a c ltac:(lra) ltac:(lra)) (Eg c b ltac:(lra) ltac:(unfold c1 in Hb; lra))). assert (C2 : RInt g c c1 + RInt g c1 b = RInt g c b) by exact (RInt_Chasles (V := R_CompleteNormedModule) g c c1 b (Eg c c1 ltac:(lra) ltac:(unfold c1; lra)) (Eg c1 b ltac:(unfold c1; lra) ltac:(lra))).
  assert (X := NP a c ltac:(lra) ltac:(lra)). assert (Y := NP c1 b ltac:(unfold c1; lra) ltac:(lra)). rewrite <- C1, <- C2. exact (below_of _ _ _ _ X Y B).
Qed.

(** ** logarithms of round trips *)
Lemma ln_dominated x y : Rabs x <= y -> y < 1 -> Rabs (ln (1 - x)) <= - ln (1 - y).
Proof.
  intros H Hy. apply Rabs_le_between in H. apply Rabs_le. split.
  - rewrite Ropp_involutive. apply ln_le; lra.
  - rewrite <- ln_Rinv by lra. apply ln_le; [lra|]. apply Rmult_le_reg_r with (1 - y); [lra|]. rewrite Rinv_l by lra. nra.
Qed.
Section Slab.
Context (A K : R -> R) (c L : R) (HL : 0 < L) (Hc : 0 < c).
Context (cA : forall q, continuity_pt A q) (bA : forall q, Rabs (A q) <= 1) (HK : forall q, K q = sqrt (q ^ 2 + c ^ 2)).
Definition slab (q : R) : R := q / (2 * PI) * ln (1 - A q * exp (-2 * K q * L)).
Lemma root_pos q : 0 < sqrt (q ^ 2 + c ^ 2).
Proof. apply sqrt_lt_R0. assert (0 < c ^ 2) by now apply pow_lt. pose proof (pow2_ge_0 q). lra. Qed.
Lemma slab_cont q : continuous slab q.
Proof.
  apply (lnf_cont A K (fun q => q / (2 * PI))); try assumption.
  - intros x. apply continuity_pt_ext with (fun q => sqrt (q ^ 2 + c ^ 2)); [intros t; symmetry; apply HK|]. assert (C2 : 0 < c ^ 2) by now apply pow_lt. apply ex_derive_cont. exists (x / sqrt (x ^ 2 + c ^ 2)). now apply root_derive.
  - intros x. apply continuity_pt_mult; [apply derivable_continuous_pt, derivable_pt_id|apply continuity_pt_const; now intros ? ?].
  - intros x. rewrite HK. apply root_pos.
Qed.
Definition dom (q : R) : R := / (2 * PI) * - (q * ln (1 - exp (- (2 * L * sqrt (q ^ 2 + c ^ 2))))).
Lemma dom_integral : integral dom 0 (mirror_term L c / (2 * PI)).
Proof.
  assert (I := frequency_integral L HL c Hc). apply integral_opp in I. rewrite Ropp_involutive in I. replace (mirror_term L c / (2 * PI)) with (/ (2 * PI) * mirror_term L c) by (unfold Rdiv; ring). apply (is_RInt_gen_scal (V := R_NormedModule) _ (/ (2 * PI)) _ I).
Qed.
Lemma slab_dom q : 0 <= q -> Rabs (slab q) <= dom q.
Proof.
  intros Hq. pose proof PI_RGT_0. unfold slab, dom. rewrite Rabs_mult, (Rabs_pos_eq (q / (2 * PI))) by (apply Rdiv_le_0_compat; lra). replace (/ (2 * PI) * - (q * ln (1 - exp (- (2 * L * sqrt (q ^ 2 + c ^ 2)))))) with (q / (2 * PI) * - ln (1 - exp (- (2 * L * sqrt (q ^ 2 + c ^ 2))))) by (unfold Rdiv; ring).
  apply Rmult_le_compat_l; [apply Rdiv_le_0_compat; lra|]. assert (P := root_pos q). destruct (z_range L HL _ P) as [Z0 Z1]. rewrite HK. replace (-2 * sqrt (q ^ 2 + c ^ 2) * L) with (- (2 * L * sqrt (q ^ 2 + c ^ 2))) by ring. apply ln_dominated; [|assumption].
  rewrite Rabs_mult, (Rabs_pos_eq (exp _)) by lra. specialize (bA q). pose proof (Rabs_pos (A q)). nra.
Qed.
Lemma slab_integral : exists v, integral slab 0 v /\ Rabs v <= mirror_term L c / (2 * PI).
Proof.
  apply (dominated slab dom); [intros; apply slab_cont|exact slab_dom| |exact dom_integral]. intros b Hb. apply (ex_RInt_continuous (V := R_CompleteNormedModule)). intros q _. unfold dom. apply (continuous_scal_r (K := R_AbsRing) (V := R_NormedModule) (/ (2 * PI))). apply (continuous_opp (V := R_NormedModule)). apply log_continuous; [assumption|now apply pow_lt].
Qed.
End Slab.
