(** * Calculus for the expansion of -ln det(1 - A) *)
From Coq Require Import Reals.
From Coquelicot Require Import Coquelicot.
From Coq Require Import List Lia Lra.
Import ListNotations.
Open Scope R_scope.

Definition smooth (f : R -> R) : Prop := forall x, ex_derive f x.
Lemma smooth_const a : smooth (fun _ => a).
Proof. intros x. apply ex_derive_const. Qed.
Lemma smooth_id : smooth (fun x => x).
Proof. intros x. apply ex_derive_id. Qed.
Lemma smooth_plus f g : smooth f -> smooth g -> smooth (fun x => f x + g x).
Proof. intros Hf Hg x. apply (ex_derive_plus f g x (Hf x) (Hg x)). Qed.
Lemma smooth_mult f g : smooth f -> smooth g -> smooth (fun x => f x * g x).
Proof. intros Hf Hg x. apply ex_derive_mult; auto. Qed.
Lemma smooth_ext f g : (forall x, f x = g x) -> smooth f -> smooth g.
Proof. intros H Hf x. apply (ex_derive_ext f g x H (Hf x)). Qed.

Lemma right_nonneg u d eps : 0 < eps -> u 0 = 0 -> (forall h, 0 <= h < eps -> 0 <= u h) -> is_derive u 0 d -> 0 <= d.
Proof.
  intros He H0 Hu Hd. apply is_derive_Reals in Hd. destruct (Rle_lt_dec 0 d) as [|Hn]; [assumption|exfalso].
  destruct (Hd (- d / 2)) as [delta Hdelta]; [lra|]. set (h := Rmin eps delta / 2).
  assert (Hp := cond_pos delta). assert (0 < Rmin eps delta) by (apply Rmin_pos; lra).
  assert (h < eps) by (unfold h; generalize (Rmin_l eps delta); lra). assert (h < delta) by (unfold h; generalize (Rmin_r eps delta); lra).
  assert (Hh : 0 < h) by (unfold h; lra).
  assert (B := Hdelta h ltac:(lra) ltac:(rewrite Rabs_pos_eq; lra)). rewrite Rplus_0_l, H0, Rminus_0_r in B.
  assert (Hq : 0 <= u h / h). { apply Rmult_le_pos; [apply Hu; lra|]. left. now apply Rinv_0_lt_compat. }
  rewrite Rabs_pos_eq in B by lra. lra.
Qed.

Lemma right_deriv (p : R -> R) (x tau eps : R) : 0 < eps -> ex_derive p x ->
  (forall h, 0 <= h < eps -> p x * (1 - h * tau) <= p (x + h) <= p x * exp (- (h * tau))) -> is_derive p x (- (p x * tau)).
Proof.
  intros He Hx Hs. assert (Hd := Derive_correct p x Hx). set (d := Derive p x) in *. clearbody d.
  assert (Hc : is_derive (fun h => p (x + h)) 0 d).
  { assert (H : is_derive (fun h => p (x + h)) 0 (scal 1 d)).
    { apply (is_derive_comp p (fun h => x + h) 0 d 1); [rewrite Rplus_0_r; exact Hd|]. auto_derive; [exact I|ring]. }
    replace d with (scal 1 d) by apply (@scal_one R_Ring R_ModuleSpace). exact H. }
  assert (A1 : 0 <= d - - (p x * tau)).
  { apply (right_nonneg (fun h => p (x + h) - p x * (1 - h * tau)) _ eps He).
    - rewrite Rplus_0_r. ring.
    - intros h Hh. generalize (Hs h Hh). lra.
    - apply (is_derive_minus (fun h => p (x + h)) (fun h => p x * (1 - h * tau)) 0 d (- (p x * tau)) Hc). auto_derive; [exact I|ring]. }
  assert (A2 : 0 <= - (p x * tau) - d).
  { apply (right_nonneg (fun h => p x * exp (- (h * tau)) - p (x + h)) _ eps He).
    - rewrite Rplus_0_r, Rmult_0_l, Ropp_0, exp_0. ring.
    - intros h Hh. generalize (Hs h Hh). lra.
    - apply (is_derive_minus (fun h => p x * exp (- (h * tau))) (fun h => p (x + h)) 0 (- (p x * tau)) d); [|exact Hc].
      auto_derive; [exact I|]. rewrite Rmult_0_l, Ropp_0, exp_0. ring. }
  replace (- (p x * tau)) with d by lra. exact Hd.
Qed.

Fixpoint po (a : nat -> R) (N : nat) (x : R) : R := match N with O => 0 | S n => po a n x + a n * x ^ n end.
Fixpoint Po (a : nat -> R) (N : nat) (x : R) : R := match N with O => 0 | S n => Po a n x + a n * (x ^ S n / INR (S n)) end.
Lemma mono_deriv k x : is_derive (fun x => x ^ S k / INR (S k)) x (x ^ k).
Proof.
  assert (Hn : INR (S k) <> 0) by (apply not_0_INR; lia).
  auto_derive; [exact I|]. change (Nat.pred (S k)) with k. field. exact Hn.
Qed.
Lemma Po_deriv a N x : is_derive (Po a N) x (po a N x).
Proof.
  induction N as [|n IH]; [apply (is_derive_const 0)|]. cbn [Po po].
  apply (is_derive_plus (Po a n) (fun x => a n * (x ^ S n / INR (S n)))); [exact IH|].
  apply (is_derive_scal (fun x => x ^ S n / INR (S n)) x (a n) (x ^ n)), mono_deriv.
Qed.
Lemma Po_0 a N : Po a N 0 = 0.
Proof. induction N as [|n IH]; [reflexivity|]. cbn [Po pow]. rewrite IH. unfold Rdiv. ring. Qed.

(** a function with logarithmic derivative between [po a N] and [po a N + c x^N] *)
Lemma log_bounds p tau a N c : smooth p -> p 0 = 1 -> (forall x, 0 <= x <= 1 -> 0 < p x) ->
  (forall x, 0 <= x <= 1 -> exists eps, 0 < eps /\ forall h, 0 <= h < eps -> p x * (1 - h * tau x) <= p (x + h) <= p x * exp (- (h * tau x))) ->
  (forall x, 0 <= x <= 1 -> po a N x <= tau x <= po a N x + c * x ^ N) ->
  Po a N 1 <= - ln (p 1) <= Po a N 1 + c / INR (S N).
Proof.
  intros Hp H0 Hpos Hs Ht.
  assert (Hd : forall x, 0 <= x <= 1 -> is_derive (fun x => - ln (p x)) x (tau x)).
  { intros x Hx. destruct (Hs x Hx) as [eps [He B]]. assert (D := right_deriv p x (tau x) eps He (Hp x) B).
    assert (P := Hpos x Hx). replace (tau x) with (- (- (p x * tau x) * / p x)) by (field; lra).
    apply (is_derive_opp (fun x => ln (p x))). apply (is_derive_comp ln p x (/ p x) (- (p x * tau x)) (is_derive_ln _ P) D). }
  assert (Hc : forall f df, (forall x, 0 <= x <= 1 -> is_derive f x (df x)) -> exists y, 0 <= y <= 1 /\ f 1 - f 0 = df y).
  { intros f df H. destruct (MVT_gen f 0 1 df) as [y [Hy E]].
    - intros x Hx. rewrite Rmin_left, Rmax_right in Hx by lra. apply H. lra.
    - intros x Hx. rewrite Rmin_left, Rmax_right in Hx by lra. apply continuity_pt_filterlim. apply (ex_derive_continuous f x). eexists. apply H. lra.
    - rewrite Rmin_left, Rmax_right in Hy by lra. exists y. split; [exact Hy|]. rewrite E. ring. }
  assert (L0 : ln (p 0) = 0) by (rewrite H0; apply ln_1).
  split.
  - destruct (Hc (fun x => - ln (p x) - Po a N x) (fun x => tau x - po a N x)) as [y [Hy E]].
    + intros x Hx. apply (is_derive_minus (fun x => - ln (p x)) (Po a N)); [now apply Hd|apply Po_deriv].
    + rewrite Po_0, L0 in E. generalize (Ht y Hy). lra.
  - destruct (Hc (fun x => - ln (p x) - Po a N x - c * (x ^ S N / INR (S N))) (fun x => tau x - po a N x - c * x ^ N)) as [y [Hy E]].
    + intros x Hx. apply (is_derive_minus (fun x => - ln (p x) - Po a N x) (fun x => c * (x ^ S N / INR (S N)))).
      * apply (is_derive_minus (fun x => - ln (p x)) (Po a N)); [now apply Hd|apply Po_deriv].
      * apply (is_derive_scal (fun x => x ^ S N / INR (S N)) x c (x ^ N)), mono_deriv.
    + rewrite Po_0, L0, pow1, pow_ne_zero in E by lia. generalize (Ht y Hy). unfold Rdiv in *. lra.
Qed.
