(** * Low-frequency limits, continued: the Bessel functions of the code *)
From Coq Require Import Reals.
From Coquelicot Require Import Coquelicot.
From Coq Require Import Bool ZArith List Lia Lra.
From Verif Require Import Base Mat_Model Mat_Spec Help_Spec Help_Proofs Bessel_Model Bessel_Spec Bessel_Proofs Bessel_Proofs2 Bessel_Proofs3 Bessel_Proofs4 Bessel_Proofs6
  Gaunt_Model Gaunt_Proofs Scat_Model Scat_Spec Scat_Proofs Scat_Proofs2 Scat_Proofs7 Scat_Proofs8 Scat_Proofs9 Trans_Model Trans_Spec Trans_Proofs Trans_Proofs3.
Import ListNotations.
Open Scope R_scope.

(** one wavenumber *)
Lemma coefficient_val bes lmax lssmax m med L ext l1 l2 k e u c : has med e u -> 0 < k -> (l1 <= lmax)%nat -> (l2 <= lssmax)%nat ->
  let x := k * L * sqrt (e k) in
  bes [x] (AnInt (Z.of_nat (lmax + lssmax + 1))) ext = Ok (map (fun l => [c l]) (seq 0 (lmax + lssmax + 2))) ->
  exists g, gaunt (Z.of_nat l1) (Z.of_nat l2) m = Def g /\ length g = (Nat.min l1 l2 + 1)%nat /\
    let s p := exp (c p) in
    coefficient v_EEab bes lmax lssmax m med L ext l1 l2 k = closed (EE_ab ext m l1 l2) s g l1 l2 /\
    coefficient v_EEba bes lmax lssmax m med L ext l1 l2 k = closed (EE_ba ext m l1 l2) s g l1 l2 /\
    coefficient v_EMab bes lmax lssmax m med L ext l1 l2 k = closed (EM_ab ext m l1 l2 x) s g l1 l2 /\
    coefficient v_EMba bes lmax lssmax m med L ext l1 l2 k = closed (EM_ba ext m l1 l2 x) s g l1 l2.
Proof.
  intros Hh Hk H1 H2 x Hb. assert (Ha : trans_arg L med [k] = Val [x]). { rewrite (arg_val med e u L [k] Hh); [reflexivity|]. intros ? [<-|[]]. exact Hk. }
  assert (Ei := init_nonzero bes lmax lssmax m med L [k] ext _ _ (fun y Hy => ltac:(destruct Hy as [<-|[]]; lra)) Ha Hb).
  set (t := Build_translation _ _ _ _ _ _ _ _ _) in Ei.
  destruct (get_values t (fun l => [c l]) (lmax + lssmax + 2) [x] l1 l2 eq_refl ltac:(lia) Ha (fun _ _ => eq_refl)) as [g [v [Eg [Lg [Ev [_ [_ [_ [_ [_ Q]]]]]]]]]].
  exists g. split; [exact Eg|]. split; [exact Lg|]. specialize (Q 0%nat ltac:(cbn; lia)). cbv zeta in Q. unfold at_ in Q. cbn [nth t_ext t_m t] in Q.
  unfold coefficient. rewrite Ei, Ev. exact Q.
Qed.

(** the columns computed by the code for one argument *)
Lemma code_ext x n : 0 < x -> trans_bessels [x] (AnInt (Z.of_nat n)) true = Ok (map (fun l => [ln (sph_k l x)]) (seq 0 (n + 1))).
Proof. intros Hx. rewrite Nat.add_1_r. refine (lnknu_spec [x] n _). intros t [<-|[]]. exact Hx. Qed.
Definition ci (l : nat) (x : R) : R :=
  match l with O => i0sm x | 1%nat => i1sm x | _ => ln_i_from_ratio l (cfrac x (S l) 80) x end.
Lemma code_int x n : 0 < x < 1e-3 -> trans_bessels [x] (AnInt (Z.of_nat n)) false = Ok (map (fun l => [ci l x]) (seq 0 (n + 1))).
Proof.
  intros Hx. unfold trans_bessels. rewrite lniknu_spec; [|discriminate|intros t [<-|[]]; lra]. cbn [bind fst]. f_equal. unfold lni_all.
  assert (N : nmax [x] = 80%nat). { unfold nmax. cbn [last]. destruct (Rltb_spec 100 x); [lra|reflexivity]. }
  rewrite i01_small by (intros t [<-|[]]; lra). cbn [fst snd map].
  destruct n as [|n]; [reflexivity|]. destruct n as [|n]; [reflexivity|].
  rewrite (firstn_all2 (n := S (S (S n)))) by (cbn [length]; rewrite map_length, seq_length; lia).
  replace (S (S n) - 1)%nat with (S n) by lia. replace (S (S n) + 1)%nat with (S (S (S n))) by lia.
  change (seq 0 (S (S (S n)))) with (0%nat :: 1%nat :: seq 2 (S n)). rewrite !map_cons. do 2 f_equal.
  apply map_ext_in. intros l Hl. apply in_seq in Hl. destruct l as [|[|l]]; try lia. unfold lni_col. cbn [map]. rewrite N. reflexivity.
Qed.

Lemma lim0_exp_small (f : R -> R) : lim0 f 0 -> lim0 (fun x => exp (f x)) 1.
Proof.
  intros H. rewrite <- exp_0. apply (lim0_comp exp); [apply derivable_continuous_pt, derivable_pt_exp|exact H].
Qed.
Lemma lim0_code_i p : lim0 (fun x => exp (ci p x) / x ^ p) (/ odd_fact p).
Proof.
  destruct p as [|[|p]].
  - apply (lim0_ext (fun x => exp (i0sm x))). { intros x _. cbn [ci pow]. field. }
    apply lim0_eq with 1; [cbn; field|]. apply lim0_exp_small. unfold i0sm. apply lim0_eq with (0 ^ 2 / 6 - 0 ^ 4 / 180); [field|].
    apply lim0_minus; (apply lim0_mult; [apply lim0_pow, lim0_id|apply lim0_const]).
  - apply (lim0_ext (fun x => / 3 * exp (0.1 * x ^ 2))).
    { intros x Hx. cbn [ci]. unfold i1sm. rewrite !exp_plus, exp_Ropp, !exp_ln by lra. field. lra. }
    apply lim0_eq with (/ 3 * 1); [cbn; field|]. apply lim0_mult; [apply lim0_const|]. apply lim0_exp_small.
    apply lim0_eq with (0.1 * 0 ^ 2); [ring|]. apply lim0_mult; [apply lim0_const|apply lim0_pow, lim0_id].
  - set (l := S (S p)). assert (PP := PI_RGT_0).
    assert (PF : forall x, 0 < x -> 0 < cfrac x (S l) 80) by (intros x Hx; now apply cfrac_pos).
    assert (Q : lim0 (fun x => / cfrac x (S l) 80) 0).
    { apply (lim0_squeeze (fun _ => 0) _ (fun x => x)); [|apply lim0_const|apply lim0_id]. intros x Hx.
      assert (B : 1 / x <= cfrac x (S l) 80).
      { rewrite cfrac_SS. assert (0 < 1 / cfrac x (S (S l)) 79) by (apply Rdiv_lt_0_compat; [lra|apply cfrac_pos; lra]).
        apply Rle_trans with (A x (S l)); [|lra]. unfold A, Rdiv. apply Rmult_le_compat_r; [left; apply Rinv_0_lt_compat; lra|].
        generalize (pos_INR (S l)). lra. }
      split; [left; apply Rinv_0_lt_compat, PF; lra|]. replace x with (/ (1 / x)) at 2 by (field; lra).
      apply Rinv_le_contravar; [apply Rdiv_lt_0_compat; lra|exact B]. }
    apply (lim0_ext (fun x => PI / 2 / (sph_k (S l) x * x ^ (S l + 1) + sph_k l x * x ^ (l + 1) * x * / cfrac x (S l) 80))).
    { intros x Hx. cbn [ci l]. fold l. unfold ln_i_from_ratio. assert (P1 := sph_k_pos l x Hx). assert (P2 := sph_k_pos (S l) x Hx). assert (F := PF x Hx).
      assert (0 < sph_k l x / cfrac x (S l) 80) by (apply Rdiv_lt_0_compat; assumption).
      assert (X2 := pow_lt x 2 Hx). assert (XL := pow_lt x l Hx).
      rewrite exp_ln by (repeat apply Rdiv_lt_0_compat; lra).
      replace (S l + 1)%nat with (l + 2)%nat by lia. rewrite !pow_add, pow_1.
      assert (D : 0 < sph_k (S l) x * cfrac x (S l) 80 + sph_k l x) by (apply Rplus_lt_0_compat; [now apply Rmult_lt_0_compat|assumption]).
      set (X := x ^ l) in *. field. repeat split; try lra.
      replace (sph_k (S l) x * (X * x ^ 2) * cfrac x (S l) 80 + sph_k l x * (X * x) * x) with ((X * x ^ 2) * (sph_k (S l) x * cfrac x (S l) 80 + sph_k l x)) by ring.
      apply Rgt_not_eq. apply Rmult_lt_0_compat; [apply Rmult_lt_0_compat; assumption|exact D]. }
    apply lim0_eq with (PI / 2 / (PI / 2 * odd_dfact (S l) + PI / 2 * odd_dfact l * 0 * 0)).
    { rewrite odd_fact_dfact. assert (O := odd_dfact_pos l). cbn [odd_dfact]. fold odd_dfact. generalize (pos_INR l). intros HL. rewrite S_INR. set (D := odd_dfact l) in *.
      replace (PI / 2 * ((2 * (INR l + 1) - 1) * D) + PI / 2 * D * 0 * 0) with (PI / 2 * ((2 * INR l + 1) * D)) by ring. field. repeat split; lra. }
    assert (O := odd_dfact_pos (S l)). apply lim0_div.
    + assert (0 < PI / 2 * odd_dfact (S l)) by (apply Rmult_lt_0_compat; lra). lra.
    + apply lim0_const.
    + apply lim0_plus; [apply lim0_k|]. apply lim0_mult; [|exact Q]. apply lim0_mult; [apply lim0_k|apply lim0_id].
Qed.

(** media without undamped free charges *)
Lemma to0_insulator m e b L : insulator m e b -> 0 < L -> to0 (fun k => k * L * sqrt (eps_spec e k)).
Proof.
  intros Hi HL. destruct (insulator_flags m e b Hi) as [_ [_ [_ [_ [_ [P _]]]]]]. destruct Hi as [_ [HP [H _]]].
  assert (T : to0 (fun k => refr (eps_spec e) (fun _ => 1) k * k * L)).
  { apply to0_arg; [assumption|intros k Hk; split; [apply (P k Hk)|lra]|]. apply lim0_eq with (0 ^ 2 * eps_spec e 0 * 1); [ring|].
    apply lim0_mult; [|apply lim0_const]. apply lim0_mult; [apply lim0_pow, lim0_id|apply lim0_eps; intros o Ho; now apply H]. }
  destruct T as [T1 T2]. assert (E : forall k, refr (eps_spec e) (fun _ => 1) k * k * L = k * L * sqrt (eps_spec e k)) by (intros k; unfold refr; rewrite Rmult_1_r; ring).
  split; [intros k Hk; rewrite <- E; now apply T1|]. now apply (lim0_ext (fun k => refr (eps_spec e) (fun _ => 1) k * k * L)).
Qed.
Lemma to0_drude m e b L : drude m e b -> 0 < L -> to0 (fun k => k * L * sqrt (eps_spec e k)).
Proof.
  intros Hi HL. destruct (drude_flags m e b Hi) as [_ [_ [_ [_ [_ [P _]]]]]]. destruct Hi as [_ [HP [_ [H _]]]].
  assert (T : to0 (fun k => refr (eps_spec e) (fun _ => 1) k * k * L)).
  { apply to0_arg; [assumption|intros k Hk; split; [apply (P k Hk)|lra]|]. apply lim0_eq with (0 * 1); [ring|].
    apply lim0_mult; [|apply lim0_const]. apply lim0_k2eps_damped; [assumption|].
    intros o Ho. destruct (Req_dec (o_wP o) 0); [now left|right]. destruct (Req_dec (o_wR o) 0); [right|now left]. now apply H. }
  destruct T as [T1 T2]. assert (E : forall k, refr (eps_spec e) (fun _ => 1) k * k * L = k * L * sqrt (eps_spec e k)) by (intros k; unfold refr; rewrite Rmult_1_r; ring).
  split; [intros k Hk; rewrite <- E; now apply T1|]. now apply (lim0_ext (fun k => refr (eps_spec e) (fun _ => 1) k * k * L)).
Qed.

Section Limits.
Context (med : material) (e u : R -> R) (L : R) (lmax lssmax l1 l2 : nat) (m : Z).
Context (Hh : has med e u) (Hx : to0 (fun k => k * L * sqrt (e k))) (H1 : (1 <= l1 <= lmax)%nat) (H2 : (1 <= l2 <= lssmax)%nat)
        (Hm : (Z.abs m <= Z.of_nat (Nat.min l1 l2))%Z).
Let x k := k * L * sqrt (e k).
Let Vx pick k := coefficient pick trans_bessels lmax lssmax m med L true l1 l2 k.
Let Vi pick k := coefficient pick trans_bessels lmax lssmax m med L false l1 l2 k.

Lemma ext_vals : exists g, gaunt (Z.of_nat l1) (Z.of_nat l2) m = Def g /\ forall k, 0 < k ->
  let s p := sph_k p (x k) in
  Vx v_EEab k = closed (EE_ab true m l1 l2) s g l1 l2 /\ Vx v_EEba k = closed (EE_ba true m l1 l2) s g l1 l2 /\
  Vx v_EMab k = closed (EM_ab true m l1 l2 (x k)) s g l1 l2 /\ Vx v_EMba k = closed (EM_ba true m l1 l2 (x k)) s g l1 l2.
Proof.
  destruct (gaunt_ok l1 l2 m Hm) as [g [a [Eg _]]]. exists g. split; [exact Eg|]. intros k Hk s.
  assert (X : 0 < x k) by exact (proj1 Hx k Hk).
  destruct (coefficient_val trans_bessels lmax lssmax m med L true l1 l2 k e u (fun l => ln (sph_k l (x k))) Hh Hk (proj2 H1) (proj2 H2)) as [g' [Eg' [_ Q]]].
  { fold (x k). replace (lmax + lssmax + 2)%nat with (lmax + lssmax + 1 + 1)%nat by lia. now apply code_ext. }
  rewrite Eg in Eg'. injection Eg' as <-. cbv zeta in Q. fold (x k) in Q.
  assert (E : forall F, closed F (fun p => exp (ln (sph_k p (x k)))) g l1 l2 = closed F s g l1 l2).
  { intros F. unfold closed. apply sum_eq. intros i _. rewrite exp_ln by now apply sph_k_pos. reflexivity. }
  rewrite !E in Q. exact Q.
Qed.
Lemma ext_limits :
  limit0 (fun k => x k ^ (l1 + l2 + 1) * Vx v_EEab k) (static_value (trans_k0_ext m l1 l2)) /\
  limit0 (fun k => x k ^ (l1 + l2 + 1) * Vx v_EEba k) ((-1) ^ (l1 + l2) * static_value (trans_k0_ext m l1 l2)) /\
  limit0 (fun k => x k ^ (l1 + l2 + 1) * Vx v_EMab k) 0 /\ limit0 (fun k => x k ^ (l1 + l2 + 1) * Vx v_EMba k) 0.
Proof.
  destruct ext_vals as [g [Eg Q]]. cbv zeta in Q.
  assert (A : lim0 (fun k => x k ^ (l1 + l2 + 1) * closed (EE_ab true m l1 l2) (fun p => sph_k p (x k)) g l1 l2) (static_value (trans_k0_ext m l1 l2))).
  { rewrite <- (ext_static m l1 l2 g) by (lia || assumption).
    apply (lim0_sub (fun y => y ^ (l1 + l2 + 1) * closed (EE_ab true m l1 l2) (fun p => sph_k p y) g l1 l2) x); [exact Hx|].
    apply (ext_closed_limit _ sph_k); [apply scales_EE|intros; apply lim0_k]. }
  assert (B : lim0 (fun k => x k ^ (l1 + l2 + 1) * closed (EM_ab true m l1 l2 (x k)) (fun p => sph_k p (x k)) g l1 l2) 0).
  { apply (lim0_ext (fun k => x k * (x k ^ (l1 + l2 + 1) * closed (EM_ab true m l1 l2 1) (fun p => sph_k p (x k)) g l1 l2))).
    { intros k _. rewrite (closed_EM _ _ _ _ (x k)). ring. }
    eapply lim0_eq; [|apply lim0_mult; [exact (proj2 Hx)|]].
    2:{ apply (lim0_sub (fun y => y ^ (l1 + l2 + 1) * closed (EM_ab true m l1 l2 1) (fun p => sph_k p y) g l1 l2) x); [exact Hx|].
        apply (ext_closed_limit _ sph_k); [apply scales_EM|intros; apply lim0_k]. }
    ring. }
  split; [|split; [|split]].
  - apply (lim0_ext (fun k => x k ^ (l1 + l2 + 1) * closed (EE_ab true m l1 l2) (fun p => sph_k p (x k)) g l1 l2)); [|exact A].
    intros k Hk. now rewrite (proj1 (Q k Hk)).
  - apply (lim0_ext (fun k => (-1) ^ (l1 + l2) * (x k ^ (l1 + l2 + 1) * closed (EE_ab true m l1 l2) (fun p => sph_k p (x k)) g l1 l2))).
    { intros k Hk. destruct (Q k Hk) as [_ [-> _]]. rewrite closed_ba. ring. }
    apply lim0_mult; [apply lim0_const|exact A].
  - apply (lim0_ext (fun k => x k ^ (l1 + l2 + 1) * closed (EM_ab true m l1 l2 (x k)) (fun p => sph_k p (x k)) g l1 l2)); [|exact B].
    intros k Hk. now destruct (Q k Hk) as [_ [_ [-> _]]].
  - apply (lim0_ext (fun k => - (-1) ^ (l1 + l2) * (x k ^ (l1 + l2 + 1) * closed (EM_ab true m l1 l2 (x k)) (fun p => sph_k p (x k)) g l1 l2))).
    { intros k Hk. destruct (Q k Hk) as [_ [_ [_ ->]]]. rewrite closed_EMba. ring. }
    apply lim0_eq with (- (-1) ^ (l1 + l2) * 0); [ring|]. apply lim0_mult; [apply lim0_const|exact B].
Qed.

Lemma int_vals : exists g, gaunt (Z.of_nat l1) (Z.of_nat l2) m = Def g /\ forall k, 0 < k -> x k < 1e-3 ->
  let s p := exp (ci p (x k)) in
  Vi v_EEab k = closed (EE_ab false m l1 l2) s g l1 l2 /\ Vi v_EEba k = closed (EE_ba false m l1 l2) s g l1 l2 /\
  Vi v_EMab k = closed (EM_ab false m l1 l2 (x k)) s g l1 l2 /\ Vi v_EMba k = closed (EM_ba false m l1 l2 (x k)) s g l1 l2.
Proof.
  destruct (gaunt_ok l1 l2 m Hm) as [g [a [Eg _]]]. exists g. split; [exact Eg|]. intros k Hk Hs s.
  assert (X : 0 < x k) by exact (proj1 Hx k Hk).
  destruct (coefficient_val trans_bessels lmax lssmax m med L false l1 l2 k e u (fun l => ci l (x k)) Hh Hk (proj2 H1) (proj2 H2)) as [g' [Eg' [_ Q]]].
  { fold (x k). replace (lmax + lssmax + 2)%nat with (lmax + lssmax + 1 + 1)%nat by lia. apply code_int. split; assumption. }
  rewrite Eg in Eg'. injection Eg' as <-. exact Q.
Qed.
Lemma lim0_ext_small f g v : (forall k, 0 < k -> x k < 1e-3 -> f k = g k) -> lim0 f v -> lim0 g v.
Proof.
  intros E H. apply (filterlim_ext_loc f); [|exact H]. destruct Hx as [_ H0].
  assert (S : at_right 0 (fun k => x k < 1e-3)).
  { apply (H0 (fun y => y < 1e-3)). exists (mkposreal 1e-3 ltac:(lra)). intros y B. change (Rabs (y + - 0) < 1e-3) in B. apply Rabs_def2 in B. lra. }
  generalize (filter_and _ _ S at_right_pos). apply filter_imp. intros k [A B]. now apply E.
Qed.
Lemma int_limits : let d := (Nat.max l1 l2 - Nat.min l1 l2)%nat in
  limit0 (fun k => Vi v_EEab k / x k ^ d) ((-1) ^ d * static_value (trans_k0_int m l1 l2)) /\
  limit0 (fun k => Vi v_EEba k / x k ^ d) (static_value (trans_k0_int m l1 l2)) /\
  limit0 (fun k => Vi v_EMab k / x k ^ d) 0 /\ limit0 (fun k => Vi v_EMba k / x k ^ d) 0.
Proof.
  intros d. destruct int_vals as [g [Eg Q]]. cbv zeta in Q.
  assert (A : lim0 (fun k => closed (EE_ab false m l1 l2) (fun p => exp (ci p (x k))) g l1 l2 / x k ^ d) ((-1) ^ d * static_value (trans_k0_int m l1 l2))).
  { unfold d. rewrite <- (int_static m l1 l2 g) by (lia || assumption).
    apply (lim0_sub (fun y => closed (EE_ab false m l1 l2) (fun p => exp (ci p y)) g l1 l2 / y ^ d) x); [exact Hx|].
    apply (int_closed_limit _ (fun p y => exp (ci p y))); [apply scales_EE|intros; apply lim0_code_i]. }
  assert (B : lim0 (fun k => closed (EM_ab false m l1 l2 (x k)) (fun p => exp (ci p (x k))) g l1 l2 / x k ^ d) 0).
  { apply (lim0_ext (fun k => x k * (closed (EM_ab false m l1 l2 1) (fun p => exp (ci p (x k))) g l1 l2 / x k ^ d))).
    { intros k _. rewrite (closed_EM _ _ _ _ (x k)). unfold Rdiv. ring. }
    eapply lim0_eq; [|apply lim0_mult; [exact (proj2 Hx)|]].
    2:{ apply (lim0_sub (fun y => closed (EM_ab false m l1 l2 1) (fun p => exp (ci p y)) g l1 l2 / y ^ d) x); [exact Hx|].
        apply (int_closed_limit _ (fun p y => exp (ci p y))); [apply scales_EM|intros; apply lim0_code_i]. }
    ring. }
  assert (PD : (-1) ^ (l1 + l2) = (-1) ^ d).
  { replace (l1 + l2)%nat with (d + 2 * Nat.min l1 l2)%nat by (unfold d; lia). rewrite pow_add, pow_m1_even. ring. }
  assert (P2 : (-1) ^ d * (-1) ^ d = 1) by (rewrite <- pow_add; replace (d + d)%nat with (2 * d)%nat by lia; apply pow_m1_even).
  split; [|split; [|split]].
  - apply (lim0_ext_small (fun k => closed (EE_ab false m l1 l2) (fun p => exp (ci p (x k))) g l1 l2 / x k ^ d)); [|exact A].
    intros k Hk Hs. now rewrite (proj1 (Q k Hk Hs)).
  - apply (lim0_ext_small (fun k => (-1) ^ d * (closed (EE_ab false m l1 l2) (fun p => exp (ci p (x k))) g l1 l2 / x k ^ d))).
    { intros k Hk Hs. destruct (Q k Hk Hs) as [_ [-> _]]. rewrite closed_ba, PD. unfold Rdiv. ring. }
    apply lim0_eq with ((-1) ^ d * ((-1) ^ d * static_value (trans_k0_int m l1 l2))); [rewrite <- Rmult_assoc, P2; ring|].
    apply lim0_mult; [apply lim0_const|exact A].
  - apply (lim0_ext_small (fun k => closed (EM_ab false m l1 l2 (x k)) (fun p => exp (ci p (x k))) g l1 l2 / x k ^ d)); [|exact B].
    intros k Hk Hs. now destruct (Q k Hk Hs) as [_ [_ [-> _]]].
  - apply (lim0_ext_small (fun k => - (-1) ^ (l1 + l2) * (closed (EM_ab false m l1 l2 (x k)) (fun p => exp (ci p (x k))) g l1 l2 / x k ^ d))).
    { intros k Hk Hs. destruct (Q k Hk Hs) as [_ [_ [_ ->]]]. rewrite closed_EMba. unfold Rdiv. ring. }
    apply lim0_eq with (- (-1) ^ (l1 + l2) * 0); [ring|]. apply lim0_mult; [apply lim0_const|exact B].
Qed.
End Limits.
