(** * Improper integrals that depend on a parameter; Riemann sums *)
From Coq Require Import Reals.
From Coquelicot Require Import Coquelicot.
From Coq Require Import ZArith List Lia Lra Psatz.
From Verif Require Import Base Slab_Proofs.
Open Scope R_scope.

Lemma near_lim (F : R -> R) (v : R) (eps : posreal) : is_lim F p_infty v -> exists M, forall b, M < b -> Rabs (F b - v) < eps.
Proof. intros H. destruct (H (fun y => Rabs (y - v) < eps)) as [M HM]; [exists eps; intros y Hy; exact Hy|]. exists M. exact HM. Qed.
Lemma cont_int (g : R -> R) a b : (forall x, a <= x -> continuous g x) -> a <= b -> ex_RInt g a b.
Proof. intros Cg Hb. apply (ex_RInt_continuous (V := R_CompleteNormedModule)). rewrite Rmin_left, Rmax_right by lra. intros z Hz. apply Cg; lra. Qed.
Lemma Chasles_R (g : R -> R) (a b c : R) : ex_RInt g a b -> ex_RInt g b c -> RInt g a c = RInt g a b + RInt g b c.
Proof. intros A B. symmetry. exact (RInt_Chasles (V := R_CompleteNormedModule) g a b c A B). Qed.
(** the rest of an integral *)
Lemma integral_from (g : R -> R) (a b v : R) : (forall x, a <= x -> continuous g x) -> a <= b -> integral g a v -> integral g b (v - RInt g a b).
Proof.
  intros Cg Hb I. apply lim_integral; [intros c Hc; apply cont_int; [intros x Hx; apply Cg; lra|lra]|].
  apply (is_lim_ext_loc (fun c => RInt g a c - RInt g a b)).
  - exists b. intros c Hc. assert (E := Chasles_R g a b c (cont_int g a b Cg Hb) (cont_int g b c (fun x Hx => Cg x (Rle_trans _ _ _ Hb Hx)) (Rlt_le _ _ Hc))). lra.
  - apply (is_lim_minus' _ _ p_infty v (RInt g a b)); [now apply integral_lim|apply is_lim_const].
Qed.
Lemma rest_small (g h : R -> R) (a b v w : R) : (forall x, a <= x -> continuous g x) -> (forall x, a <= x -> continuous h x) -> (forall x, a <= x -> Rabs (g x) <= h x) -> a <= b -> integral g a v -> integral h a w -> Rabs (v - RInt g a b) <= w - RInt h a b.
Proof.
  intros Cg Ch D Hb Ig Ih. assert (G := integral_from g a b v Cg Hb Ig). assert (H := integral_from h a b w Ch Hb Ih). apply Rabs_le. split.
  - apply Ropp_le_cancel. rewrite Ropp_involutive. apply (integral_le (fun x => - g x) h b); [intros x Hx; specialize (D x ltac:(lra)); apply Rabs_le_between in D; lra|now apply integral_opp|exact H].
  - apply (integral_le g h b); [intros x Hx; specialize (D x ltac:(lra)); apply Rabs_le_between in D; lra|exact G|exact H].
Qed.
Lemma close_integrals (f g : R -> R) (a b e : R) : a <= b -> ex_RInt f a b -> ex_RInt g a b -> (forall x, a <= x <= b -> Rabs (f x - g x) <= e) -> Rabs (RInt f a b - RInt g a b) <= (b - a) * e.
Proof.
  intros Hab Ef Eg D. assert (M : RInt f a b - RInt g a b = RInt (fun x => f x - g x) a b) by (symmetry; exact (RInt_minus (V := R_CompleteNormedModule) f g a b Ef Eg)). rewrite M.
  assert (Em : ex_RInt (fun x => f x - g x) a b) by exact (ex_RInt_minus (V := R_NormedModule) f g a b Ef Eg). apply Rle_trans with (RInt (fun x => Rabs (f x - g x)) a b); [apply abs_RInt_le; assumption|].
  replace ((b - a) * e) with (RInt (fun _ => e) a b) by (rewrite RInt_const; reflexivity). apply RInt_le; [assumption|apply ex_RInt_norm, Em|apply ex_RInt_const|]. intros x Hx. apply D. lra.
Qed.
(** an improper integral is a continuous function of a parameter if the integrands are dominated by one integrable function *)
Lemma param_continuous (F : R -> R -> R) (J h : R -> R) (k0 d0 w : R) : 0 < d0 -> (forall q k, 0 <= q -> Rabs (k - k0) < d0 -> continuity_2d_pt F q k) -> (forall q, 0 <= q -> continuous h q) ->
  (forall q k, 0 <= q -> Rabs (k - k0) < d0 -> Rabs (F q k) <= h q) -> integral h 0 w -> (forall k, Rabs (k - k0) < d0 -> integral (fun q => F q k) 0 (J k)) -> continuous J k0.
Proof.
  intros Hd CF Ch D Ih IJ. assert (K0 : Rabs (k0 - k0) < d0) by (rewrite Rminus_eq_0, Rabs_R0; assumption).
  assert (C1 : forall k, Rabs (k - k0) < d0 -> forall q, 0 <= q -> continuous (fun q => F q k) q).
  { intros k Hk q Hq. apply continuity_pt_filterlim. intros eps Heps. destruct (CF q k Hq Hk (mkposreal eps Heps)) as [d Hdd]. exists d. split; [apply cond_pos|]. intros y [_ Hy]. apply Hdd; [exact Hy|rewrite Rminus_eq_0, Rabs_R0; apply cond_pos]. }
  intros P [eps HP]. destruct (near_lim _ w (pos_div_2 (pos_div_2 eps)) (integral_lim _ _ _ Ih)) as [M HM]. set (B := Rmax 0 M + 1). assert (B0 : 0 < B) by (unfold B; pose proof (Rmax_l 0 M); lra). assert (BM : M < B) by (unfold B; pose proof (Rmax_r 0 M); lra).
  assert (RS : forall k, Rabs (k - k0) < d0 -> Rabs (J k - RInt (fun q => F q k) 0 B) < eps / 4).
  { intros k Hk. assert (X := rest_small (fun q => F q k) h 0 B (J k) w (C1 k Hk) Ch (fun q Hq => D q k Hq Hk) ltac:(lra) (IJ k Hk) Ih). assert (HM' : Rabs (RInt h 0 B - w) < eps / 2 / 2) by exact (HM B BM). apply Rabs_def2 in HM'. apply Rle_lt_trans with (1 := X). lra. }
  assert (E4 : 0 < eps / 4 / B) by (apply Rdiv_lt_0_compat; [pose proof (cond_pos eps); lra|assumption]). destruct (uniform_continuity_2d_1d F 0 B k0 (fun q Hq => CF q k0 (proj1 Hq) K0) (mkposreal _ E4)) as [d U]. cbn [pos] in U.
  assert (Dm : 0 < Rmin d d0) by (apply Rmin_pos; [apply cond_pos|assumption]). exists (mkposreal _ Dm). intros k Hk. apply HP. change (Rabs (J k - J k0) < eps). change (Rabs (k - k0) < Rmin d d0) in Hk. pose proof (Rmin_l d d0). pose proof (Rmin_r d d0). assert (Hk' : Rabs (k - k0) < d0) by lra. assert (Hkd : Rabs (k - k0) < d) by lra.
  assert (Q : Rabs (RInt (fun q => F q k) 0 B - RInt (fun q => F q k0) 0 B) <= (B - 0) * (eps / 4 / B)).
  { apply close_integrals; [lra|apply cont_int; [exact (C1 k Hk')|lra]|apply cont_int; [exact (C1 k0 K0)|lra]|]. intros q Hq. left. apply Rabs_def2 in Hkd. pose proof (cond_pos d). apply U; try lra. rewrite Rminus_eq_0, Rabs_R0. apply cond_pos. }
  assert (X1 := RS k Hk'). assert (X2 := RS k0 K0). replace ((B - 0) * (eps / 4 / B)) with (eps / 4) in Q by (field; lra). apply Rabs_def2 in X1. apply Rabs_def2 in X2. apply Rabs_le_between in Q. pose proof (cond_pos eps). apply Rabs_def1; lra.
Qed.

(** Riemann sums of a continuous function *)
Lemma riemann_sum (G : R -> R) (b : R) : 0 < b -> (forall x, continuous G x) -> forall eps, 0 < eps -> exists d, 0 < d /\ forall T n, 0 < T < d -> INR n * T <= b < (INR n + 1) * T ->
  Rabs (T * sum_f_R0 (fun i => if Nat.eqb i 0 then 0 else G (INR i * T)) n - RInt G 0 b) <= eps.
Proof.
  intros Hb CG eps He. assert (C0 : forall x, 0 <= x <= b -> continuity_pt G x) by (intros x _; apply continuity_pt_filterlim, CG).
  destruct (continuity_ab_maj (fun x => Rabs (G x)) 0 b (Rlt_le _ _ Hb)) as [xm [HM _]]; [intros c Hc; apply (continuity_pt_comp G Rabs); [now apply C0|apply Rcontinuity_abs]|]. cbv beta in HM. set (M := Rabs (G xm)) in *. assert (M0 : 0 <= M) by apply Rabs_pos.
  assert (E2 : 0 < eps / (2 * b)) by (apply Rdiv_lt_0_compat; lra). destruct (Heine G (fun x => 0 <= x <= b) (compact_P3 0 b) C0 (mkposreal _ E2)) as [d Hd]. cbn [pos] in Hd.
  assert (D1 : 0 < eps / (2 * (M + 1))) by (apply Rdiv_lt_0_compat; lra). exists (Rmin d (eps / (2 * (M + 1)))). split; [apply Rmin_pos; [apply cond_pos|assumption]|]. intros T n [HT Hd'] [Hn Hn']. pose proof (Rmin_l d (eps / (2 * (M + 1)))). pose proof (Rmin_r d (eps / (2 * (M + 1)))).
  assert (EI : forall x y, x <= y -> ex_RInt G x y) by (intros x y Hxy; apply cont_int; [intros; apply CG|assumption]).
  assert (S : forall m, INR m * T <= b -> Rabs (T * sum_f_R0 (fun i => if Nat.eqb i 0 then 0 else G (INR i * T)) m - RInt G 0 (INR m * T)) <= INR m * T * (eps / (2 * b))).
  { induction m as [|m IH]; intros Hm.
    - cbn [sum_f_R0 Nat.eqb INR]. rewrite Rmult_0_l, RInt_point. change (Rabs (T * 0 - 0) <= 0 * (eps / (2 * b))). rewrite Rmult_0_r, Rminus_0_r, Rabs_R0. lra.
    - rewrite S_INR in Hm. assert (P := pos_INR m). assert (PT : 0 <= INR m * T) by (apply Rmult_le_pos; lra). specialize (IH ltac:(lra)). rewrite tech5. cbn [Nat.eqb]. rewrite S_INR. rewrite (Chasles_R G 0 (INR m * T) ((INR m + 1) * T)) by (apply EI; lra).
      assert (Q : Rabs (RInt (fun _ => G ((INR m + 1) * T)) (INR m * T) ((INR m + 1) * T) - RInt G (INR m * T) ((INR m + 1) * T)) <= ((INR m + 1) * T - INR m * T) * (eps / (2 * b))).
      { apply close_integrals; [lra|apply ex_RInt_const|apply EI; lra|]. intros x Hx. left. apply Hd; [lra|lra|]. rewrite Rabs_pos_eq by lra. lra. }
      rewrite RInt_const in Q. change (scal ((INR m + 1) * T - INR m * T) (G ((INR m + 1) * T))) with (((INR m + 1) * T - INR m * T) * G ((INR m + 1) * T)) in Q. replace ((INR m + 1) * T - INR m * T) with T in Q by ring.
      apply Rabs_le_between in IH. apply Rabs_le_between in Q. replace ((INR m + 1) * T * (eps / (2 * b))) with (INR m * T * (eps / (2 * b)) + T * (eps / (2 * b))) by ring. rewrite Rmult_plus_distr_l. apply Rabs_le. lra. }
  specialize (S n Hn). assert (PT : 0 <= INR n * T) by (apply Rmult_le_pos; [apply pos_INR|lra]). rewrite (Chasles_R G 0 (INR n * T) b) by (apply EI; lra).
  assert (Q : Rabs (RInt G (INR n * T) b) <= T * M).
  { apply Rle_trans with ((b - INR n * T) * M); [|apply Rmult_le_compat_r; lra]. apply Rle_trans with (RInt (fun x => Rabs (G x)) (INR n * T) b); [apply abs_RInt_le; [lra|apply EI; lra]|]. replace ((b - INR n * T) * M) with (RInt (fun _ => M) (INR n * T) b) by (rewrite RInt_const; reflexivity).
    apply RInt_le; [lra|apply ex_RInt_norm, EI; lra|apply ex_RInt_const|]. intros x Hx. apply HM. lra. }
  assert (B1 : INR n * T * (eps / (2 * b)) <= eps / 2) by (apply Rle_trans with (b * (eps / (2 * b))); [apply Rmult_le_compat_r; lra|right; field; lra]).
  assert (B2 : T * M <= eps / 2). { apply Rle_trans with (eps / (2 * (M + 1)) * (M + 1)); [apply Rmult_le_compat; lra|right; field; lra]. }
  apply Rabs_le_between in S. apply Rabs_le_between in Q. apply Rabs_le. lra.
Qed.

(** functions bounded near zero: the sum starts near zero, the integral at [a] *)
Definition upto (a x : R) : R := (x + a + Rabs (x - a)) / 2.
Lemma upto_ge a x : a <= x -> upto a x = x.
Proof. intros H. unfold upto. rewrite Rabs_pos_eq by lra. lra. Qed.
Lemma upto_le a x : x <= a -> upto a x = a.
Proof. intros H. unfold upto. rewrite Rabs_left1 by lra. lra. Qed.
Lemma upto_min a x : a <= upto a x.
Proof. destruct (Rle_dec a x); [rewrite upto_ge by assumption; lra|rewrite upto_le by lra; lra]. Qed.
Lemma upto_cont a x : continuous (upto a) x.
Proof.
  apply continuity_pt_filterlim. unfold upto, Rdiv. apply (continuity_pt_mult (fun x => x + a + Rabs (x - a)) (fun _ => / 2)); [|apply continuity_pt_const; now intros ? ?]. apply (continuity_pt_plus (fun x => x + a) (fun x => Rabs (x - a))).
  - apply (continuity_pt_plus (fun x => x) (fun _ => a)); [apply continuity_pt_id|apply continuity_pt_const; now intros ? ?].
  - apply (continuity_pt_comp (fun x => x - a) Rabs); [|apply Rcontinuity_abs]. apply (continuity_pt_minus (fun x => x) (fun _ => a)); [apply continuity_pt_id|apply continuity_pt_const; now intros ? ?].
Qed.
Lemma sum_limit (g : R -> R) (a b M : R) : 0 < a <= b -> (forall x, 0 < x -> continuous g x) -> (forall x, 0 < x -> Rabs (g x) <= M) -> forall eps, 0 < eps -> exists d, 0 < d /\ forall T n, 0 < T < d -> INR n * T <= b < (INR n + 1) * T ->
  Rabs (T * sum_f_R0 (fun i => if Nat.eqb i 0 then 0 else g (INR i * T)) n - RInt g a b) <= 3 * a * M + eps.
Proof.
  intros [Ha Hab] Cg B eps He. set (G := fun x => g (upto a x)). assert (M0 : 0 <= M) by (apply Rle_trans with (1 := Rabs_pos (g 1)); apply B; lra).
  assert (CG : forall x, continuous G x) by (intros x; apply (continuous_comp (upto a) g); [apply upto_cont|apply Cg; pose proof (upto_min a x); lra]). assert (BG : forall x, Rabs (G x) <= M) by (intros x; apply B; pose proof (upto_min a x); lra).
  destruct (riemann_sum G b ltac:(lra) CG eps He) as [d [Hd RS]]. exists d. split; [exact Hd|]. intros T n HT Hn. specialize (RS T n HT Hn).
  assert (EI : forall x y, x <= y -> ex_RInt G x y) by (intros x y Hxy; apply cont_int; [intros; apply CG|assumption]). rewrite (Chasles_R G 0 a b) in RS by (apply EI; lra).
  rewrite (RInt_ext G g a b) in RS by (rewrite Rmin_left, Rmax_right by lra; intros x Hx; unfold G; rewrite upto_ge by lra; reflexivity).
  assert (Q : Rabs (RInt G 0 a) <= a * M).
  { apply Rle_trans with (RInt (fun x => Rabs (G x)) 0 a); [apply abs_RInt_le; [lra|apply EI; lra]|]. replace (a * M) with (RInt (fun _ => M) 0 a) by (rewrite RInt_const, Rminus_0_r; reflexivity). apply RInt_le; [lra|apply ex_RInt_norm, EI; lra|apply ex_RInt_const|]. intros x _. apply BG. }
  assert (D : forall m, Rabs (T * sum_f_R0 (fun i => if Nat.eqb i 0 then 0 else g (INR i * T)) m - T * sum_f_R0 (fun i => if Nat.eqb i 0 then 0 else G (INR i * T)) m) <= 2 * M * Rmin (INR m * T) a).
  { induction m as [|m IH].
    - cbn [sum_f_R0 Nat.eqb INR]. rewrite Rmult_0_l, Rminus_eq_0, Rabs_R0, Rmin_left by lra. lra.
    - rewrite !tech5. cbn [Nat.eqb]. assert (P := pos_INR m). assert (K : 0 < INR (S m) * T) by (apply Rmult_lt_0_compat; [apply lt_0_INR; lia|lra]). assert (EK : INR (S m) * T = INR m * T + T) by (rewrite S_INR; ring). destruct (Rle_dec a (INR (S m) * T)) as [Ge|Lt].
      + assert (EG : G (INR (S m) * T) = g (INR (S m) * T)) by (unfold G; now rewrite upto_ge). rewrite EG. rewrite <- Rmult_minus_distr_l. rewrite <- Rmult_minus_distr_l in IH. match goal with |- Rabs (T * (?x + ?y - (?z + ?y))) <= _ => replace (x + y - (z + y)) with (x - z) by ring end. apply Rle_trans with (1 := IH). apply Rmult_le_compat_l; [lra|]. rewrite (Rmin_right (INR (S m) * T)) by assumption. apply Rmin_r.
      + rewrite Rmin_left by lra. rewrite Rmin_left in IH by lra. assert (X1 := B _ K). assert (X2 := BG (INR (S m) * T)). apply Rabs_le_between in IH. apply Rabs_le_between in X1. apply Rabs_le_between in X2. rewrite EK in *. apply Rabs_le. nra. }
  specialize (D n). assert (D' : 2 * M * Rmin (INR n * T) a <= 2 * M * a) by (apply Rmult_le_compat_l; [lra|apply Rmin_r]). apply Rabs_le_between in RS. apply Rabs_le_between in Q. apply Rabs_le_between in D. apply Rabs_le. lra.
Qed.
