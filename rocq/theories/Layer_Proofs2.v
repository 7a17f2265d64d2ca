(** * Concentric shells: signs and comparison of the scattered amplitude *)
From Coq Require Import Reals.
From Coquelicot Require Import Coquelicot.
From Coq Require Import Bool ZArith List Lia Lra Sorted.
From Verif Require Import Base Help_Proofs Bessel_Model Bessel_Spec Bessel_Proofs Bessel_Proofs2 Scat_Model Scat_Spec Scat_Proofs Scat_Proofs2 Scat_Proofs3 Scat_Proofs11 Layer_Proofs.
Import ListNotations.
Open Scope R_scope.

Section Chain.
  Context (l : nat) (k : R) (Hk : 0 < k).
  Notation f n := (fs l (n * k)).
  Notation t n := (ft l (n * k)).
  Notation match_ := (strat_match (S l) k).
  Lemma fsN ka c d s : fs l ka (- c) (- d) s = - fs l ka c d s.
  Proof. unfold fs. ring. Qed.
  Lemma ftN ka c d s : ft l ka (- c) (- d) s = - ft l ka c d s.
  Proof. unfold ft. ring. Qed.
  Lemma nk_pos n : 0 < n -> 0 < n * k.
  Proof. intros. now apply Rmult_lt_0_compat. Qed.
  Lemma ftE n c d r : 0 < n -> 0 < r -> Derive (fun s => s * (c * sph_i (S l) (n * k * s) + d * sph_h (S l) (n * k * s))) r = t n c d r.
  Proof. intros Hn Hr. apply is_derive_unique. exact (fs_derive l (n * k) c d r (nk_pos n Hn) Hr). Qed.
  Lemma step p n c d r p' n' rest a : 0 < r -> 0 < n -> 0 < n' -> match_ p n c d ((r, p', n') :: rest) a ->
    exists c' d', f n c d r = f n' c' d' r /\ t n c d r / p = t n' c' d' r / p' /\ match_ p' n' c' d' rest a.
  Proof.
    intros Hr Hn Hn' [c' [d' [A [B M]]]]. exists c', d'. cbv zeta beta in A, B. rewrite !ftE in B by assumption. unfold fs. rewrite A. auto.
  Qed.
  (** interfaces at increasing radii, positive parameters *)
  Fixpoint fine (s0 : R) (ls : list (R * R * R)) : Prop :=
    match ls with [] => True | (r, p, n) :: rest => s0 <= r /\ 0 < p /\ 0 < n /\ fine r rest end.
  Lemma scale_nonneg p p' x y : 0 < p -> 0 < p' -> x / p = y / p' -> 0 <= x -> 0 <= y.
  Proof.
    intros Hp Hp' E Hx. replace y with (y / p' * p') by (field; lra). rewrite <- E. apply Rmult_le_pos; [|lra].
    unfold Rdiv. apply Rmult_le_pos; [lra|]. left. now apply Rinv_0_lt_compat.
  Qed.
  (** a unit wave comes in: the field and its slope are not both non-positive anywhere *)
  Lemma not_negative ls : forall s0 p n c d a, 0 < s0 -> 0 < p -> 0 < n -> fine s0 ls -> match_ p n c d ls a ->
    0 <= f n (- c) (- d) s0 -> 0 <= t n (- c) (- d) s0 -> False.
  Proof.
    induction ls as [|[[r p'] n'] rest IH]; intros s0 p n c d a H0 Hp Hn F M A B.
    - destruct M as [-> ->]. assert (X := amp_nonneg l (n * k) _ _ s0 (nk_pos n Hn) H0 A B). lra.
    - destruct F as [Hr [Hp' [Hn' F]]]. assert (Pr : 0 < r) by lra. destruct (step _ _ _ _ _ _ _ _ _ Pr Hn Hn' M) as [c' [d' [E1 [E2 M']]]].
      destruct (grow l (n * k) _ _ s0 r (nk_pos n Hn) H0 Hr A B) as [A' B'].
      apply (IH r p' n' c' d' a Pr Hp' Hn' F M').
      + rewrite fsN in *. now rewrite <- E1.
      + rewrite ftN in *. apply (scale_nonneg p p' (- t n c d r) (- t n' c' d' r) Hp Hp'); [|exact B']. unfold Rdiv in *. lra.
  Qed.
  (** the field at the outermost interface *)
  Fixpoint outer (s0 : R) (ls : list (R * R * R)) : R := match ls with [] => s0 | (r, _, _) :: rest => outer r rest end.
  Fixpoint pout (p : R) (ls : list (R * R * R)) : R := match ls with [] => p | (_, p', _) :: rest => pout p' rest end.
  Fixpoint nout (n : R) (ls : list (R * R * R)) : R := match ls with [] => n | (_, _, n') :: rest => nout n' rest end.
  Lemma outer_pos ls : forall s0, 0 < s0 -> fine s0 ls -> 0 < outer s0 ls.
  Proof. induction ls as [|[[r p] n] rest IH]; intros s0 H F; [exact H|]. destruct F as [F1 [_ [_ F2]]]. apply IH; [lra|exact F2]. Qed.
  Lemma nout_pos ls : forall s0 n, 0 < n -> fine s0 ls -> 0 < nout n ls.
  Proof. induction ls as [|[[r p'] n'] rest IH]; intros s0 n H F; [exact H|]. destruct F as [_ [_ [F1 F2]]]. exact (IH r n' F1 F2). Qed.
  Lemma pout_pos ls : forall s0 p, 0 < p -> fine s0 ls -> 0 < pout p ls.
  Proof. induction ls as [|[[r p'] n'] rest IH]; intros s0 p H F; [exact H|]. destruct F as [_ [F1 [_ F2]]]. exact (IH r p' F1 F2). Qed.
  Lemma end_state ls : forall s0 p n c d a, 0 < s0 -> 0 < p -> 0 < n -> fine s0 ls -> match_ p n c d ls a -> 0 <= f n c d s0 -> 0 <= t n c d s0 ->
    0 <= f (nout n ls) 1 a (outer s0 ls) /\ 0 <= t (nout n ls) 1 a (outer s0 ls).
  Proof.
    induction ls as [|[[r p'] n'] rest IH]; intros s0 p n c d a H0 Hp Hn F M A B.
    - destruct M as [-> ->]. split; assumption.
    - destruct F as [Hr [Hp' [Hn' F]]]. assert (Pr : 0 < r) by lra. destruct (step _ _ _ _ _ _ _ _ _ Pr Hn Hn' M) as [c' [d' [E1 [E2 M']]]].
      destruct (grow l (n * k) _ _ s0 r (nk_pos n Hn) H0 Hr A B) as [A' B'].
      apply (IH r p' n' c' d' a Pr Hp' Hn' F M'); [now rewrite <- E1|]. exact (scale_nonneg p p' _ _ Hp Hp' E2 B').
  Qed.
  (** ** two chains with the same radii and the same outer medium *)
  Fixpoint cmp (s0 p1 n1 p2 n2 : R) (ls1 ls2 : list (R * R * R)) : Prop :=
    0 < p1 <= p2 /\ 0 < n1 /\ 0 < n2 /\ n2 ^ 2 / p2 <= n1 ^ 2 / p1 /\
    match ls1, ls2 with
    | [], [] => p1 = p2 /\ n1 = n2
    | (r, p1', n1') :: t1, (r', p2', n2') :: t2 => r = r' /\ s0 <= r /\ cmp r p1' n1' p2' n2' t1 t2
    | _, _ => False
    end.
  Lemma cmp_head s0 p1 n1 p2 n2 ls1 ls2 : cmp s0 p1 n1 p2 n2 ls1 ls2 -> 0 < p1 <= p2 /\ 0 < n1 /\ 0 < n2 /\ n2 ^ 2 / p2 <= n1 ^ 2 / p1.
  Proof. destruct ls1; intros [A [B [C [D _]]]]; auto. Qed.
  Lemma cmp_fine ls1 : forall ls2 s0 p1 n1 p2 n2, cmp s0 p1 n1 p2 n2 ls1 ls2 -> fine s0 ls1 /\ fine s0 ls2.
  Proof.
    induction ls1 as [|[[r p1'] n1'] t1 IH]; intros [|[[r' p2'] n2'] t2] s0 p1 n1 p2 n2 [_ [_ [_ [_ H]]]]; try easy.
    destruct H as [<- [H1 H2]]. assert (Q := cmp_head _ _ _ _ _ _ _ H2). destruct (IH _ _ _ _ _ _ H2). cbn [fine]. repeat split; try tauto; lra.
  Qed.
  Lemma sq_scale p1 n1 p2 n2 : n2 ^ 2 / p2 <= n1 ^ 2 / p1 -> (n2 * k) ^ 2 / p2 <= (n1 * k) ^ 2 / p1.
  Proof.
    intros H. replace ((n2 * k) ^ 2 / p2) with (k ^ 2 * (n2 ^ 2 / p2)) by (unfold Rdiv; ring). replace ((n1 * k) ^ 2 / p1) with (k ^ 2 * (n1 ^ 2 / p1)) by (unfold Rdiv; ring).
    apply Rmult_le_compat_l; [|exact H]. left. now apply pow_lt.
  Qed.
  Lemma chain_compare ls1 : forall ls2 s0 p1 n1 c1 d1 p2 n2 c2 d2 a1 a2, 0 < s0 -> cmp s0 p1 n1 p2 n2 ls1 ls2 ->
    match_ p1 n1 c1 d1 ls1 a1 -> match_ p2 n2 c2 d2 ls2 a2 ->
    0 <= f n1 c1 d1 s0 -> 0 <= t n1 c1 d1 s0 -> 0 <= f n2 c2 d2 s0 -> 0 <= t n2 c2 d2 s0 ->
    0 <= ww l p1 (n1 * k) c1 d1 p2 (n2 * k) c2 d2 s0 -> 0 <= (-1) ^ S l * (a1 - a2).
  Proof.
    induction ls1 as [|[[r p1'] n1'] t1 IH]; intros [|[[r' p2'] n2'] t2] s0 p1 n1 c1 d1 p2 n2 c2 d2 a1 a2 H0 [Hp [Hn1 [Hn2 [Hq H]]]] M1 M2 A1 A2 A3 A4 W; try easy.
    - destruct H as [<- <-]. destruct M1 as [-> ->]. destruct M2 as [-> ->]. apply (end_compare l p1 (n1 * k) a1 a2 s0); [lra|now apply nk_pos|exact H0|exact W].
    - destruct H as [<- [H1 H2]]. assert (Pr : 0 < r) by lra. destruct (cmp_head _ _ _ _ _ _ _ H2) as [Hp' [Hn1' [Hn2' Hq']]].
      destruct (step _ _ _ _ _ _ _ _ _ Pr Hn1 Hn1' M1) as [c1' [d1' [E1 [E2 M1']]]].
      destruct (step _ _ _ _ _ _ _ _ _ Pr Hn2 Hn2' M2) as [c2' [d2' [E3 [E4 M2']]]].
      destruct (grow l (n1 * k) _ _ s0 r (nk_pos n1 Hn1) H0 H1 A1 A2) as [B1 B2]. destruct (grow l (n2 * k) _ _ s0 r (nk_pos n2 Hn2) H0 H1 A3 A4) as [B3 B4].
      assert (W' := compare l p1 (n1 * k) c1 d1 p2 (n2 * k) c2 d2 s0 r (nk_pos n1 Hn1) (nk_pos n2 Hn2) Hp (sq_scale _ _ _ _ Hq) H0 H1 A1 A2 A3 A4 W).
      assert (P1 : 0 < p1) by lra. assert (P2 : 0 < p2) by lra. assert (P1' : 0 < p1') by lra. assert (P2' : 0 < p2') by lra.
      apply (IH t2 r p1' n1' c1' d1' p2' n2' c2' d2' a1 a2 Pr H2 M1' M2').
      + now rewrite <- E1.
      + exact (scale_nonneg p1 p1' _ _ P1 P1' E2 B2).
      + now rewrite <- E3.
      + exact (scale_nonneg p2 p2' _ _ P2 P2' E4 B4).
      + unfold ww in *. now rewrite <- E1, <- E2, <- E3, <- E4.
  Qed.

  (** ** regular cores *)
  Lemma core_pos ls s0 p n b a : 0 < s0 -> 0 < p -> 0 < n -> fine s0 ls -> match_ p n b 0 ls a -> 0 < b.
  Proof.
    intros H0 Hp Hn F M. destruct (Rlt_or_le 0 b) as [H|H]; [exact H|]. exfalso.
    destruct (regular_state l (n * k) (- b) s0 (nk_pos n Hn) H0 ltac:(lra)) as [A B].
    apply (not_negative ls s0 p n b 0 a H0 Hp Hn F M); now rewrite Ropp_0.
  Qed.
  Lemma core_state ls s0 p n b a : 0 < s0 -> 0 < p -> 0 < n -> fine s0 ls -> match_ p n b 0 ls a -> 0 <= f n b 0 s0 /\ 0 <= t n b 0 s0.
  Proof. intros H0 Hp Hn F M. apply regular_state; [now apply nk_pos|exact H0|]. left. exact (core_pos _ _ _ _ _ _ H0 Hp Hn F M). Qed.
  Lemma cores_compare ls1 ls2 s0 p1 n1 b1 p2 n2 b2 a1 a2 : 0 < s0 -> cmp s0 p1 n1 p2 n2 ls1 ls2 -> match_ p1 n1 b1 0 ls1 a1 -> match_ p2 n2 b2 0 ls2 a2 ->
    0 <= (-1) ^ S l * (a1 - a2).
  Proof.
    intros H0 H M1 M2. destruct (cmp_fine _ _ _ _ _ _ _ H) as [F1 F2]. destruct (cmp_head _ _ _ _ _ _ _ H) as [Hp [Hn1 [Hn2 Hq]]].
    assert (P1 : 0 < p1) by lra. assert (P2 : 0 < p2) by lra.
    destruct (core_state _ _ _ _ _ _ H0 P1 Hn1 F1 M1) as [A1 A2]. destruct (core_state _ _ _ _ _ _ H0 P2 Hn2 F2 M2) as [A3 A4].
    apply (chain_compare ls1 ls2 s0 p1 n1 b1 0 p2 n2 b2 0 a1 a2 H0 H M1 M2 A1 A2 A3 A4).
    apply (regular_compare l); [now apply nk_pos|now apply nk_pos|exact Hp|now apply sq_scale|exact H0| |].
    - left. exact (core_pos _ _ _ _ _ _ H0 P1 Hn1 F1 M1).
    - left. exact (core_pos _ _ _ _ _ _ H0 P2 Hn2 F2 M2).
  Qed.
  (** the next medium *)
  Lemma next_state s0 p n r p' n' rest c d a : 0 < s0 -> 0 < p -> 0 < n -> fine s0 ((r, p', n') :: rest) -> match_ p n c d ((r, p', n') :: rest) a -> 0 <= f n c d s0 -> 0 <= t n c d s0 ->
    exists c' d', match_ p' n' c' d' rest a /\ 0 <= f n' c' d' r /\ 0 <= t n' c' d' r.
  Proof.
    intros H0 Hp Hn [Hr [Hp' [Hn' F]]] M A B. assert (Pr : 0 < r) by lra. destruct (step _ _ _ _ _ _ _ _ _ Pr Hn Hn' M) as [c' [d' [E1 [E2 M']]]].
    destruct (grow l (n * k) _ _ s0 r (nk_pos n Hn) H0 Hr A B) as [A' B']. exists c', d'. split; [exact M'|]. split; [now rewrite <- E1|]. exact (scale_nonneg p p' _ _ Hp Hp' E2 B').
  Qed.
  (** ** perfectly reflecting cores: the field (TE) or its slope (TM) vanishes at the core *)
  Lemma zero_field ls s0 p n c d a : 0 < s0 -> 0 < p -> 0 < n -> fine s0 ls -> match_ p n c d ls a -> f n c d s0 = 0 -> 0 < t n c d s0.
  Proof.
    intros H0 Hp Hn F M E. destruct (Rlt_or_le 0 (t n c d s0)) as [H|H]; [exact H|]. exfalso.
    apply (not_negative ls s0 p n c d a H0 Hp Hn F M); [rewrite fsN|rewrite ftN]; lra.
  Qed.
  Lemma zero_slope ls s0 p n c d a : 0 < s0 -> 0 < p -> 0 < n -> fine s0 ls -> match_ p n c d ls a -> t n c d s0 = 0 -> 0 < f n c d s0.
  Proof.
    intros H0 Hp Hn F M E. destruct (Rlt_or_le 0 (f n c d s0)) as [H|H]; [exact H|]. exfalso.
    apply (not_negative ls s0 p n c d a H0 Hp Hn F M); [rewrite fsN|rewrite ftN]; lra.
  Qed.
  Lemma div_nonneg x p : 0 < p -> 0 <= x -> 0 <= x / p.
  Proof. intros. unfold Rdiv. apply Rmult_le_pos; [assumption|]. left. now apply Rinv_0_lt_compat. Qed.
  (** the first chain starts with a vanishing field; the second with a non-negative state *)
  Lemma field_compare ls1 ls2 s0 p1 n1 c1 d1 p2 n2 c2 d2 a1 a2 : 0 < s0 -> cmp s0 p1 n1 p2 n2 ls1 ls2 -> match_ p1 n1 c1 d1 ls1 a1 -> match_ p2 n2 c2 d2 ls2 a2 ->
    f n1 c1 d1 s0 = 0 -> 0 <= f n2 c2 d2 s0 -> 0 <= t n2 c2 d2 s0 -> 0 <= (-1) ^ S l * (a1 - a2).
  Proof.
    intros H0 H M1 M2 E A3 A4. destruct (cmp_fine _ _ _ _ _ _ _ H) as [F1 F2]. destruct (cmp_head _ _ _ _ _ _ _ H) as [Hp [Hn1 [Hn2 Hq]]].
    assert (P1 : 0 < p1) by lra. assert (T := zero_field _ _ _ _ _ _ _ H0 P1 Hn1 F1 M1 E).
    apply (chain_compare ls1 ls2 s0 p1 n1 c1 d1 p2 n2 c2 d2 a1 a2 H0 H M1 M2); [lra|lra|exact A3|exact A4|].
    unfold ww. rewrite E, Rmult_0_r, Rminus_0_r. apply Rmult_le_pos; [|exact A3]. apply div_nonneg; lra.
  Qed.
  (** the second chain starts with a vanishing slope *)
  Lemma slope_compare ls1 ls2 s0 p1 n1 c1 d1 p2 n2 c2 d2 a1 a2 : 0 < s0 -> cmp s0 p1 n1 p2 n2 ls1 ls2 -> match_ p1 n1 c1 d1 ls1 a1 -> match_ p2 n2 c2 d2 ls2 a2 ->
    t n2 c2 d2 s0 = 0 -> 0 <= f n1 c1 d1 s0 -> 0 <= t n1 c1 d1 s0 -> 0 <= (-1) ^ S l * (a1 - a2).
  Proof.
    intros H0 H M1 M2 E A3 A4. destruct (cmp_fine _ _ _ _ _ _ _ H) as [F1 F2]. destruct (cmp_head _ _ _ _ _ _ _ H) as [Hp [Hn1 [Hn2 Hq]]].
    assert (P2 : 0 < p2) by lra. assert (T := zero_slope _ _ _ _ _ _ _ H0 P2 Hn2 F2 M2 E).
    apply (chain_compare ls1 ls2 s0 p1 n1 c1 d1 p2 n2 c2 d2 a1 a2 H0 H M1 M2); [exact A3|exact A4|lra|lra|].
    unfold ww. rewrite E. unfold Rdiv at 2. rewrite Rmult_0_l, Rmult_0_l, Rminus_0_r. apply Rmult_le_pos; [|lra]. apply div_nonneg; lra.
  Qed.
  (** ** shells of the outer medium only: nothing is scattered *)
  Lemma medium_chain p n ls : match_ p n 1 0 (map (fun x : R * R * R => (fst (fst x), p, n)) ls) 0.
  Proof. induction ls as [|[[r p'] n'] rest IH]; [now split|]. exists 1, 0. now repeat split. Qed.
End Chain.
