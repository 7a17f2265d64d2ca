(** * Integrals over the wave vector *)
From Coq Require Import Reals.
From Coquelicot Require Import Coquelicot.
From Coq Require Import Bool ZArith List Lia Lra Psatz.
From Verif Require Import Base Mat_Model Mat_Spec Bessel_Model Scat_Model Scat_Spec Scat_Proofs Scat_Proofs2 PFA_Model PFA_Spec PFA_Proofs.
Import ListNotations.
Open Scope R_scope.

Section Int.
Context (A K w : R -> R).
Context (cA : forall q, continuity_pt A q) (cK : forall q, continuity_pt K q) (cw : forall q, continuity_pt w q)
        (bA : forall q, Rabs (A q) <= 1) (pK : forall q, 0 < K q).
Let x L q := A q * exp (-2 * K q * L).
Definition lnf (L q : R) : R := w q * ln (1 - A q * exp (-2 * K q * L)).
Definition prf (L q : R) : R := w q * (- K q * (A q * exp (-2 * K q * L)) / (1 - A q * exp (-2 * K q * L))).

Lemma x_small L q : 0 < L -> 0 < 1 - x L q.
Proof.
  intros HL. assert (E : -2 * K q * L < 0) by (specialize (pK q); nra). assert (B := loop_small (A q) 1 _ (bA q) ltac:(rewrite Rabs_R1; lra) E).
  rewrite Rmult_1_r in B. apply Rabs_def2 in B. unfold x. lra.
Qed.
Lemma lnf_derive L q : 0 < L -> is_derive (fun L => lnf L q) L (-2 * prf L q).
Proof.
  intros HL. assert (P := x_small L q HL). unfold x in P. unfold lnf, prf. auto_derive; [exact P|]. field. lra.
Qed.
Lemma x_cont2 L q : continuity_2d_pt x L q.
Proof.
  unfold x. apply continuity_2d_pt_mult.
  - apply (continuity_1d_2d_pt_comp A (fun _ v => v)); [apply cA|apply continuity_2d_pt_id2].
  - apply (continuity_1d_2d_pt_comp exp (fun u v => -2 * K v * u)); [apply derivable_continuous_pt, derivable_pt_exp|].
    apply continuity_2d_pt_mult; [apply continuity_2d_pt_mult; [apply continuity_2d_pt_const|]|apply continuity_2d_pt_id1].
    apply (continuity_1d_2d_pt_comp K (fun _ v => v)); [apply cK|apply continuity_2d_pt_id2].
Qed.
Lemma prf_cont2 L q : 0 < L -> continuity_2d_pt prf L q.
Proof.
  intros HL. unfold prf. apply continuity_2d_pt_mult.
  { apply (continuity_1d_2d_pt_comp w (fun _ v => v)); [apply cw|apply continuity_2d_pt_id2]. }
  unfold Rdiv. apply continuity_2d_pt_mult; [apply continuity_2d_pt_mult|].
  - apply continuity_2d_pt_opp. apply (continuity_1d_2d_pt_comp K (fun _ v => v)); [apply cK|apply continuity_2d_pt_id2].
  - apply x_cont2.
  - apply continuity_2d_pt_inv; [|assert (P := x_small L q HL); unfold x in P; lra]. apply continuity_2d_pt_minus; [apply continuity_2d_pt_const|apply x_cont2].
Qed.
Lemma cont_1d f q : continuity_pt f q -> continuous f q.
Proof. intros H. now apply continuity_pt_filterlim. Qed.
Lemma lnf_cont L q : 0 < L -> continuous (lnf L) q.
Proof.
  intros HL. apply cont_1d. unfold lnf. apply continuity_pt_mult; [apply cw|].
  apply (continuity_pt_comp (fun q => 1 - A q * exp (-2 * K q * L)) ln).
  - apply continuity_pt_minus; [apply continuity_pt_const; now intros ? ?|]. apply continuity_pt_mult; [apply cA|].
    apply (continuity_pt_comp (fun q => -2 * K q * L) exp); [|apply derivable_continuous_pt, derivable_pt_exp].
    apply continuity_pt_mult; [|apply continuity_pt_const; now intros ? ?]. apply continuity_pt_mult; [apply continuity_pt_const; now intros ? ?|apply cK].
  - apply derivable_continuous_pt. exists (/ (1 - A q * exp (-2 * K q * L))). apply derivable_pt_lim_ln. assert (P := x_small L q HL). unfold x in P. exact P.
Qed.
Lemma prf_cont L q : 0 < L -> continuous (prf L) q.
Proof.
  intros HL. apply cont_1d. apply continuity_pt_filterlim. intros P [eps HP]. destruct (prf_cont2 L q HL eps) as [delta Hd].
  exists delta. intros y Hy. apply HP. change (Rabs (prf L y + - prf L q) < eps). apply Hd; [rewrite Rminus_eq_0, Rabs_R0; apply cond_pos|exact Hy].
Qed.
Lemma lnf_int L a b : 0 < L -> ex_RInt (lnf L) a b.
Proof. intros HL. apply (ex_RInt_continuous (V := R_CompleteNormedModule)). intros z _. now apply lnf_cont. Qed.
Lemma prf_int L a b : 0 < L -> ex_RInt (prf L) a b.
Proof. intros HL. apply (ex_RInt_continuous (V := R_CompleteNormedModule)). intros z _. now apply prf_cont. Qed.
Lemma near_pos L : 0 < L -> locally L (fun y => 0 < y).
Proof. intros H. exists (mkposreal L H). intros y Hy. change (Rabs (y + - L) < L) in Hy. apply Rabs_def2 in Hy. lra. Qed.
Lemma int_derive L a b : 0 < L -> is_derive (fun L => RInt (lnf L) a b) L (-2 * RInt (prf L) a b).
Proof.
  intros HL. assert (E : RInt (fun q => Derive (fun u => lnf u q) L) a b = -2 * RInt (prf L) a b).
  { rewrite (RInt_ext _ (fun q => scal (-2) (prf L q))); [|intros q _; apply is_derive_unique; now apply lnf_derive].
    exact (RInt_scal (prf L) a b (-2) (prf_int L a b HL)). }
  rewrite <- E. apply (is_derive_RInt_param (fun L q => lnf L q)).
  - generalize (near_pos L HL). apply filter_imp. intros y Hy t _. eexists. now apply lnf_derive.
  - intros t _. apply (continuity_2d_pt_ext_loc (fun u v => -2 * prf u v)).
    + exists (mkposreal L HL). intros u v Hu _. cbn in Hu. apply Rabs_def2 in Hu. symmetry. apply is_derive_unique. apply lnf_derive. lra.
    + apply continuity_2d_pt_mult; [apply continuity_2d_pt_const|now apply prf_cont2].
  - generalize (near_pos L HL). apply filter_imp. intros y Hy. now apply lnf_int.
Qed.
End Int.

(** ** continuity of the reflection coefficients *)
Lemma fresnel_abs eP uP eM uM q k : fresnel1 eP uP eM uM (Rabs q) k = fresnel1 eP uP eM uM q k.
Proof. unfold fresnel1. now rewrite pow2_abs. Qed.
Lemma plate_bound_all m md r q k : plate m md r -> 0 < k -> Rabs (fst (r q k)) <= 1 /\ Rabs (snd (r q k)) <= 1.
Proof.
  intros H Hk. assert (E : r q k = r (Rabs q) k).
  { destruct H as [[_ E]|[e [u [eM [uM [_ [_ E]]]]]]]; rewrite !E; [reflexivity|]. symmetry. apply fresnel_abs. }
  rewrite E. apply (plate_bound m md); [assumption|apply Rabs_pos|assumption].
Qed.
Lemma ex_derive_cont f (x : R) : ex_derive f x -> continuity_pt f x.
Proof. intros [d H]. apply derivable_continuous_pt. exists d. now apply is_derive_Reals. Qed.
Lemma fresnel_cont eP uP eM uM k : 0 < eP -> 0 < uP -> 0 < eM -> 0 < uM -> 0 < k ->
  (forall q, continuity_pt (fun q => fst (fresnel1 eP uP eM uM q k)) q) /\ (forall q, continuity_pt (fun q => snd (fresnel1 eP uP eM uM q k)) q).
Proof.
  intros H1 H2 H3 H4 Hk. assert (N : forall a b, 0 < a -> 0 < b -> 0 < (k * sqrt (a * b)) ^ 2).
  { intros a b Ha Hb. apply pow_lt. apply Rmult_lt_0_compat; [assumption|]. apply sqrt_lt_R0. now apply Rmult_lt_0_compat. }
  assert (S : forall a b q, 0 < a -> 0 < b -> 0 < q ^ 2 + (k * sqrt (a * b)) ^ 2) by (intros a b q Ha Hb; pose proof (N a b Ha Hb); pose proof (pow2_ge_0 q); lra).
  split; intros q; apply ex_derive_cont; unfold fresnel1; cbn [fst snd];
    set (cM := (k * sqrt (eM * uM)) ^ 2); set (cP := (k * sqrt (eP * uP)) ^ 2);
    assert (PM : 0 < q ^ 2 + cM) by (apply S; assumption); assert (PP : 0 < q ^ 2 + cP) by (apply S; assumption);
    assert (QM := sqrt_lt_R0 _ PM); assert (QP := sqrt_lt_R0 _ PP); auto_derive;
    (split; [exact PM|split; [exact PP|split; [exact PM|split; [exact PP|]]]] || idtac); try (split; [|exact I]).
  all: try (apply Rgt_not_eq; apply Rplus_lt_0_compat; apply Rmult_lt_0_compat; assumption).
Qed.
Lemma plate_cont m md r k : plate m md r -> 0 < k -> (forall q, continuity_pt (fun q => fst (r q k)) q) /\ (forall q, continuity_pt (fun q => snd (r q k)) q).
Proof.
  intros [[_ E]|[e [u [eM [uM [H1 [H2 E]]]]]]] Hk.
  - split; intros q; [apply (continuity_pt_ext (fun _ => -1))|apply (continuity_pt_ext (fun _ => 1))]; try (intros y; now rewrite E); apply continuity_pt_const; now intros ? ?.
  - destruct (has_pos m e u k H1 Hk). destruct (has_pos md eM uM k H2 Hk).
    destruct (fresnel_cont (e k) (u k) (eM k) (uM k) k) as [C1 C2]; try assumption.
    split; intros q; [eapply continuity_pt_ext; [|apply C1]|eapply continuity_pt_ext; [|apply C2]]; intros y; cbn beta; now rewrite E.
Qed.
Lemma kz_cont n2 k : 0 < n2 k -> 0 < k -> forall q, continuity_pt (fun q => kz n2 q k) q.
Proof.
  intros Hn Hk q. apply ex_derive_cont. unfold kz. assert (0 < n2 k * k ^ 2) by (apply Rmult_lt_0_compat; [assumption|now apply pow_lt]). pose proof (pow2_ge_0 q).
  set (c := n2 k * k ^ 2) in *. auto_derive. lra.
Qed.
