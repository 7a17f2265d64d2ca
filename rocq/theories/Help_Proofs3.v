(** * Proofs about num_derivative(interpolate=True): whole function, exactness, limit of fine grids *)
From Coquelicot Require Import Coquelicot.
From Coq Require Import Bool Reals List ZArith Lia Lra Psatz Sorting.Sorted.
From Verif Require Import Base Help_Model Help_Spec Help_Proofs Misc_Model Scat_Model Help_Model2 Help_Spec2 Help_Proofs2.
Import ListNotations.
Open Scope R_scope.

Lemma every_aux_nth {A} (d : A) k : (1 <= k)%nat -> forall l s i,
  nth i (every_aux k s l) d = nth (s + i * k) l d.
Proof.
  intros Hk. induction l as [|a l IH]; intros s i; cbn [every_aux].
  - destruct i, (s + _)%nat; reflexivity.
  - destruct s as [|s]; [|cbn [Nat.add nth]; apply IH].
    destruct i as [|i]; [reflexivity|]. cbn [nth]. rewrite IH.
    replace (0 + S i * k)%nat with (S (k - 1 + i * k)) by (cbn; lia). reflexivity.
Qed.
Lemma every_nth {A} (d : A) k l i : (1 <= k)%nat -> nth i (every k l) d = nth (i * k) l d.
Proof. intros Hk. unfold every. rewrite every_aux_nth by assumption. reflexivity. Qed.
Lemma every_aux_length {A} k : (1 <= k)%nat -> forall q (l : list A) s, length l = (s + q * k + 1)%nat -> length (every_aux k s l) = S q.
Proof.
  intros Hk q l. revert q. induction l as [|a l IH]; intros q s Hl; cbn [length] in Hl; [lia|]. cbn [every_aux].
  destruct s as [|s]; [|apply IH; lia].
  destruct q as [|q].
  - assert (l = []) as -> by (destruct l; [reflexivity|cbn in Hl; lia]). reflexivity.
  - cbn [length]. f_equal. apply IH. cbn in Hl. lia.
Qed.

(** the differences as described in C33 *)
Lemma differences_spec f h : 0 < h -> (3 <= length f)%nat ->
  exists fp, differences f h = Ok fp /\ length fp = length f /\
    forall i, (i < length f)%nat ->
      nth i fp 0 =
        if Nat.eqb i 0 then (nth 1 f 0 - nth 0 f 0) / h
        else if Nat.eqb i (length f - 1) then (nth i f 0 - nth (i - 1) f 0) / h
        else if Nat.eqb i 1 || Nat.eqb i (length f - 2) then st2 f h i
        else st5 f h i.
Proof.
  intros Hh Hf. destruct (num_derivative_spec f [0; h] 0 h [] eq_refl Hh Hf) as (fp & E & L & N).
  rewrite num_derivative_differences in E by assumption. rewrite Rminus_0_r in *. eauto.
Qed.

Lemma arr_min_le a : forall r, (forall v, In v (a :: r) -> fold_left Rmin r a <= v) /\ In (fold_left Rmin r a) (a :: r).
Proof.
  intros r. revert a. induction r as [|b r IH]; intros a; cbn [fold_left].
  - split; [intros v [->|[]]; lra|now left].
  - destruct (IH (Rmin a b)) as [H1 H2]. split.
    + intros v Hv. assert (Hm : fold_left Rmin r (Rmin a b) <= Rmin a b) by (apply H1; now left).
      pose proof (Rmin_l a b). pose proof (Rmin_r a b).
      destruct Hv as [<-|[<-|Hv]]; [lra|lra|apply H1; now right].
    + destruct H2 as [H2|H2]; [|right; now right]. rewrite <- H2.
      unfold Rmin. destruct (Rle_dec a b); [now left|right; now left].
Qed.
Lemma arr_min_spec l : l <> [] -> is_min (arr_min l) l.
Proof. destruct l as [|a r]; [congruence|]. intros _. destruct (arr_min_le a r). now split. Qed.
Lemma is_min_unique m m' l : is_min m l -> is_min m' l -> m = m'.
Proof. intros [I1 L1] [I2 L2]. specialize (L1 m' I2). specialize (L2 m I1). lra. Qed.

Lemma sign_pos v : 0 < v -> sign v = 1.
Proof. intros H. unfold sign. destruct (Rltb_spec 0 v); [reflexivity|lra]. Qed.
Lemma sign_neg v : v < 0 -> sign v = -1.
Proof. intros H. unfold sign. destruct (Rltb_spec 0 v); [lra|]. destruct (Rltb_spec v 0); [reflexivity|lra]. Qed.
Lemma sign_zero : sign 0 = 0.
Proof. unfold sign. destruct (Rltb_spec 0 0); [lra|reflexivity]. Qed.

Lemma map_ext_nth (F G : R -> R) (l : list R) : (forall v, In v l -> F v = G v) -> map F l = map G l.
Proof. apply map_ext_in. Qed.

Lemma interpolated_nonempty f x M : f <> [] -> interpolated f x M =
  let xnew := linspace (nth 0 x 0) (last x 0) ((length x - 1) * M) in
  let s := sign (nth 0 f 0) in
  if forallb (fun v => Reqb s (sign v)) f then
    let! l := log_interp x (map Rabs f) xnew in Val (map (fun v => s * exp v) l)
  else let! l := log_interp x (map (fun v => v + Rabs (arr_min f) + 1) f) xnew in Val (map exp l).
Proof. destruct f; [congruence|reflexivity]. Qed.

Section Whole.
  Context (x0 h : R) (x0pos : 0 < x0) (hpos : 0 < h) (M : nat) (Mpos : (1 <= M)%nat).

  (** what is computed, for values v on the refined grid *)
  Lemma ip_from_interpolated f n v : (2 <= n)%nat -> (3 <= (n - 1) * M + 1)%nat ->
    length v = ((n - 1) * M + 1)%nat -> interpolated f (nodes x0 h n) M = Val v ->
    exists fp vp, num_derivative_ip f (nodes x0 h n) M = Val fp /\ length fp = n /\
      num_derivative v (nodes x0 (h / INR M) ((n - 1) * M + 1)) = Ok vp /\ length vp = length v /\
      forall i, (i < n)%nat -> nth i fp 0 = nth (i * M) vp 0.
  Proof.
    intros Hn H3 Lv Ev. assert (HM : 0 < INR M) by (apply lt_0_INR; lia).
    assert (Hd : 0 < h / INR M) by (apply Rdiv_lt_0_compat; assumption).
    destruct (differences_spec v (h / INR M) Hd ltac:(lia)) as (vp & Ep & Lp & _).
    exists (every M vp), vp.
    destruct (nodes_form x0 h n Hn) as [rest Hg]. destruct (nodes_form x0 (h / INR M) ((n - 1) * M + 1) ltac:(lia)) as [rest' Hg'].
    split.
    - unfold num_derivative_ip. rewrite Ev. rewrite Hg. cbn [get nth_error of_res obind].
      destruct (Rltb_spec 0 (x0 + h - x0)); [|lra]. cbn [negb].
      replace (x0 + h - x0) with h by ring. rewrite Ep. reflexivity.
    - split; [|split; [|split]].
      + unfold every. rewrite (every_aux_length M Mpos (n - 1)); [lia|]. lia.
      + rewrite Hg', num_derivative_differences by lra. replace (x0 + h / INR M - x0) with (h / INR M) by ring. exact Ep.
      + exact Lp.
      + intros i Hi. now apply every_nth.
  Qed.

  Lemma interpolated_one_sign f n : length f = n -> (2 <= n)%nat -> one_sign f ->
    exists v, interpolated f (nodes x0 h n) M = Val v /\ length v = ((n - 1) * M + 1)%nat /\
      refined (map Rabs f) x0 h M (map Rabs v) /\ forall k, nth k v 0 = sign (nth 0 f 0) * Rabs (nth k v 0).
  Proof.
    intros Hl Hn Hs. destruct f as [|f0 f']; [cbn in Hl; lia|]. set (f := f0 :: f') in *.
    assert (Hsg : forall v, In v f -> sign v = sign f0 /\ v <> 0 /\ (sign f0 = 1 \/ sign f0 = -1)).
    { assert (I0 : In f0 f) by now left. intros v Hv. destruct Hs as [Hs|Hs].
      - rewrite !sign_pos by auto. specialize (Hs v Hv). split; [reflexivity|split; [lra|now left]].
      - rewrite !sign_neg by auto. specialize (Hs v Hv). split; [reflexivity|split; [lra|now right]]. }
    destruct (log_interp_refined x0 h x0pos hpos M Mpos (map Rabs f) n) as (l & El & Rl).
    { now rewrite map_length. } { assumption. }
    { intros v Hv. apply in_map_iff in Hv. destruct Hv as (w & <- & Hw). apply Rabs_pos_lt, (Hsg w Hw). }
    set (s := sign f0) in *.
    assert (S1 : s = 1 \/ s = -1) by (apply (Hsg f0); now left).
    exists (map (fun v => s * exp v) l).
    assert (Ab : map Rabs (map (fun v => s * exp v) l) = map exp l).
    { rewrite map_map. apply map_ext. intros a. rewrite Rabs_mult, (Rabs_pos_eq (exp a)) by (left; apply exp_pos).
      destruct S1 as [->| ->]; [rewrite Rabs_R1|rewrite (Rabs_left (-1)) by lra]; ring. }
    split; [|split; [|split]].
    - rewrite interpolated_nonempty by discriminate. change (sign (nth 0 f 0)) with s. cbv zeta.
      assert (forallb (fun v => Reqb s (sign v)) f = true) as ->.
      { apply forallb_forall. intros v Hv. destruct (Reqb_spec s (sign v)) as [|N]; [reflexivity|]. exfalso. apply N. symmetry. now apply Hsg. }
      rewrite nodes_length. rewrite El. reflexivity.
    - destruct Rl as [Ll _]. rewrite map_length in *. rewrite map_length in Ll. rewrite Hl in Ll. exact Ll.
    - rewrite Ab. exact Rl.
    - intros k. change (nth 0 f 0) with f0. fold s.
      destruct (Nat.lt_ge_cases k (length l)) as [Hk|Hk].
      + rewrite (nth_indep _ 0 (s * exp 0)) by (rewrite map_length; lia). rewrite (map_nth (fun v => s * exp v)).
        rewrite Rabs_mult, (Rabs_pos_eq (exp _)) by (left; apply exp_pos).
        destruct S1 as [->| ->]; [rewrite Rabs_R1|rewrite (Rabs_left (-1)) by lra]; ring.
      + rewrite nth_overflow by (rewrite map_length; lia). rewrite Rabs_R0. ring.
  Qed.

  Lemma interpolated_mixed f n m : length f = n -> (2 <= n)%nat -> mixed f -> is_min m f ->
    exists v, interpolated f (nodes x0 h n) M = Val v /\ length v = ((n - 1) * M + 1)%nat /\
      refined (map (fun y => y + Rabs m + 1) f) x0 h M v.
  Proof.
    intros Hl Hn Hm Hmin. destruct f as [|f0 f']; [cbn in Hl; lia|]. set (f := f0 :: f') in *.
    assert (Em : arr_min f = m) by (apply (is_min_unique _ _ f); [apply arr_min_spec; discriminate|assumption]).
    destruct (log_interp_refined x0 h x0pos hpos M Mpos (map (fun y => y + Rabs m + 1) f) n) as (l & El & Rl).
    { now rewrite map_length. } { assumption. }
    { intros v Hv. apply in_map_iff in Hv. destruct Hv as (w & <- & Hw). destruct Hmin as [_ Hmin]. specialize (Hmin w Hw).
      pose proof (Rle_abs (- m)). rewrite Rabs_Ropp in *. lra. }
    exists (map exp l). split; [|split].
    - rewrite interpolated_nonempty by discriminate. change (sign (nth 0 f 0)) with (sign f0). cbv zeta.
      assert (forallb (fun v => Reqb (sign f0) (sign v)) f = false) as ->.
      { destruct (forallb _ f) eqn:E; [|reflexivity]. exfalso. rewrite forallb_forall in E.
        destruct Hm as (a & b & Ia & Ib & H).
        pose proof (E a Ia) as Ea. pose proof (E b Ib) as Eb.
        destruct (Reqb_spec (sign f0) (sign a)) as [E1|]; [|discriminate]. destruct (Reqb_spec (sign f0) (sign b)) as [E2|]; [|discriminate].
        rewrite E1 in E2. unfold sign in E2.
        destruct (Rltb_spec 0 a), (Rltb_spec a 0), (Rltb_spec 0 b), (Rltb_spec b 0); lra. }
      rewrite nodes_length, Em. rewrite El. reflexivity.
    - destruct Rl as [Ll _]. rewrite !map_length in Ll. rewrite map_length. rewrite Hl in Ll. exact Ll.
    - exact Rl.
  Qed.
End Whole.

(** ** Power laws *)
Lemma power_law_ends x a y b : 0 < x -> x < y -> 0 < a -> 0 < b -> power_law x a y b x = a /\ power_law x a y b y = b.
Proof.
  intros Hx Hy Ha Hb. unfold power_law, exponent, Rpower.
  assert (D : 0 < ln y - ln x) by (pose proof (ln_increasing x y Hx Hy); lra). split.
  - replace (x / x) with 1 by (field; lra). rewrite ln_1, Rmult_0_r, exp_0. ring.
  - unfold Rdiv at 2. rewrite ln_mult, ln_Rinv by (try lra; apply Rinv_0_lt_compat; lra).
    replace ((ln b - ln a) / (ln y - ln x) * (ln y + - ln x)) with (ln b - ln a) by (field; lra).
    unfold Rminus. rewrite exp_plus, exp_Ropp, !exp_ln by lra. field. lra.
Qed.

(** data that follow one power law are refined by that power law *)
Lemma power_law_self c p x y t : 0 < c -> 0 < x -> x < y -> 0 < t ->
  power_law x (c * Rpower x p) y (c * Rpower y p) t = c * Rpower t p.
Proof.
  intros Hc Hx Hy Ht. unfold power_law, exponent.
  assert (D : 0 < ln y - ln x) by (pose proof (ln_increasing x y Hx Hy); lra).
  rewrite !ln_mult by (try assumption; apply exp_pos). unfold Rpower. rewrite !ln_exp.
  unfold Rdiv at 2. rewrite ln_mult, ln_Rinv by (try lra; apply Rinv_0_lt_compat; lra).
  replace ((ln c + p * ln y - (ln c + p * ln x)) / (ln y - ln x)) with p by (field; lra).
  rewrite Rmult_assoc, <- exp_plus. do 2 f_equal. ring.
Qed.

Lemma power_law_derive x a y b t : 0 < x -> 0 < t ->
  is_derive (power_law x a y b) t (power_law x a y b t / t * exponent x a y b).
Proof.
  intros Hx Ht. unfold power_law, Rpower. assert (0 < t / x) by (apply Rdiv_lt_0_compat; assumption).
  auto_derive; [assumption|]. unfold Rdiv. field. lra.
Qed.

(** ** Limit of fine grids *)
Lemma quotient_limit (F : R -> R) t l c h : c <> 0 -> 0 < h -> is_derive F t l ->
  is_lim_seq (fun M => (F (t + c * (h / INR M)) - F t) / (h / INR M)) (c * l).
Proof.
  intros Hc Hh HF. apply is_derive_Reals in HF.
  apply is_lim_seq_spec. intros eps.
  assert (Ac : 0 < Rabs c) by now apply Rabs_pos_lt.
  assert (Ee : 0 < eps / Rabs c) by (apply Rdiv_lt_0_compat; [apply cond_pos|assumption]).
  destruct (HF _ Ee) as [d Hd].
  assert (Dp : 0 < d / (Rabs c * h)) by (apply Rdiv_lt_0_compat; [apply cond_pos|apply Rmult_lt_0_compat; assumption]).
  destruct (archimed_cor1 _ Dp) as (N & HN & Npos).
  exists N. intros M HM. assert (NM : INR N <= INR M) by now apply le_INR.
  assert (P : 0 < INR N) by now apply lt_0_INR.
  set (s := h / INR M). assert (Sp : 0 < s) by (apply Rdiv_lt_0_compat; lra).
  assert (Sm : Rabs (c * s) < d).
  { rewrite Rabs_mult, (Rabs_pos_eq s) by lra. unfold s.
    assert (/ INR M <= / INR N) by (apply Rinv_le_contravar; assumption).
    assert (Q : / INR M * (Rabs c * h) < d).
    { apply Rle_lt_trans with (/ INR N * (Rabs c * h)).
      - apply Rmult_le_compat_r; [apply Rmult_le_pos; lra|assumption].
      - apply Rlt_le_trans with (d / (Rabs c * h) * (Rabs c * h)).
        + apply Rmult_lt_compat_r; [apply Rmult_lt_0_compat; lra|assumption].
        + right. field. split; lra. }
    unfold Rdiv. lra. }
  specialize (Hd (c * s) ltac:(apply Rmult_integral_contrapositive_currified; lra) Sm).
  replace ((F (t + c * s) - F t) / s - c * l) with (c * ((F (t + c * s) - F t) / (c * s) - l)) by (field; lra).
  rewrite Rabs_mult. replace (pos eps) with (Rabs c * (eps / Rabs c)) by (field; lra).
  now apply Rmult_lt_compat_l.
Qed.

(** the five-point formula at a kink gives the mean of both slopes *)
Lemma kink_limit (P Q : R -> R) t a b h : 0 < h -> is_derive P t a -> is_derive Q t b -> P t = Q t ->
  is_lim_seq (fun M => let s := h / INR M in
     (- Q (t + 2 * s) + 8 * Q (t + 1 * s) - 8 * P (t + -1 * s) + P (t + -2 * s)) / (12 * s)) ((a + b) / 2).
Proof.
  intros Hh HP HQ E.
  pose proof (quotient_limit Q t b 2 h ltac:(lra) Hh HQ) as L1.
  pose proof (quotient_limit Q t b 1 h ltac:(lra) Hh HQ) as L2.
  pose proof (quotient_limit P t a (-1) h ltac:(lra) Hh HP) as L3.
  pose proof (quotient_limit P t a (-2) h ltac:(lra) Hh HP) as L4.
  apply (is_lim_seq_scal_l _ (-1/12)) in L1. apply (is_lim_seq_scal_l _ (8/12)) in L2.
  apply (is_lim_seq_scal_l _ (-8/12)) in L3. apply (is_lim_seq_scal_l _ (1/12)) in L4.
  pose proof (is_lim_seq_plus' _ _ _ _ (is_lim_seq_plus' _ _ _ _ L1 L2) (is_lim_seq_plus' _ _ _ _ L3 L4)) as L.
  refine (is_lim_seq_ext_loc _ _ _ _ (is_lim_seq_ext_loc _ _ _ _ (eq_rect _ (fun z => is_lim_seq _ (Finite z)) L _ _))).
  - exists 0%nat. intros; reflexivity.
  - exists 1%nat. intros M HM. assert (0 < INR M) by (apply lt_0_INR; lia). cbv zeta.
    assert (0 < h / INR M) by (apply Rdiv_lt_0_compat; lra). set (s := h / INR M) in *. rewrite E. field. lra.
  - field.
Qed.

Lemma scal_lim (u : nat -> R) c l l' : l' = c * l -> is_lim_seq u (Finite l) -> is_lim_seq (fun k => c * u k) (Finite l').
Proof. intros ->. intros H. exact (is_lim_seq_scal_l u c (Finite l) H). Qed.

Section Limit.
  Context (x0 h : R) (x0pos : 0 < x0) (hpos : 0 < h) (g : list R) (s : R).
  Context (gpos : forall v, In v g -> 0 < v) (n : nat) (gn : length g = n) (n2 : (2 <= n)%nat).
  Let x (j : nat) := x0 + INR j * h.
  Let seg i := power_law (x i) (nth i g 0) (x (S i)) (nth (S i) g 0).
  Definition refined_derivative (M i : nat) (r : R) : Prop :=
    exists v w vp, refined g x0 h M w /\ (forall k, nth k v 0 = s * nth k w 0) /\ length v = ((n - 1) * M + 1)%nat /\
      num_derivative v (nodes x0 (h / INR M) ((n - 1) * M + 1)) = Ok vp /\ r = nth (i * M) vp 0.

  Let g_pos i : (i < n)%nat -> 0 < nth i g 0.
  Proof. intros H. apply gpos, nth_In. lia. Qed.
  Let xp j : 0 < x j.
  Proof. apply (x_pos x0 h x0pos hpos). Qed.
  Let xl i : x i < x (S i).
  Proof. apply (x_lt x0 h hpos). lia. Qed.

  Let refined_stencil M i r : (2 <= M)%nat -> (i < n)%nat -> refined_derivative M i r ->
    let d := h / INR M in
    r = if Nat.eqb i 0 then s * ((seg 0 (x 0 + 1 * d) - seg 0 (x 0)) / d)
        else if Nat.eqb i (n - 1) then - s * ((seg (i - 1)%nat (x i + -1 * d) - seg (i - 1)%nat (x i)) / d)
        else s * ((- seg i (x i + 2 * d) + 8 * seg i (x i + 1 * d) - 8 * seg (i - 1)%nat (x i + -1 * d) + seg (i - 1)%nat (x i + -2 * d)) / (12 * d)).
  Proof.
    intros HM Hi (v & w & vp & [Lw Rw] & Sv & Lv & Ev & Er). cbv zeta.
    assert (MP : 0 < INR M) by (apply lt_0_INR; lia).
    assert (Dp : 0 < h / INR M) by (apply Rdiv_lt_0_compat; assumption). set (d := h / INR M) in *.
    destruct (nodes_form x0 d ((n - 1) * M + 1) ltac:(nia)) as [rest Hg].
    destruct (num_derivative_spec v _ x0 (x0 + d) rest Hg ltac:(lra) ltac:(nia)) as (vp' & Ev' & Lvp & Nv).
    assert (vp' = vp) by congruence. subst vp'.
    replace (x0 + d - x0) with d in Nv by ring. rewrite Er, Nv by (rewrite Lv; nia). clear Nv Er.
    rewrite gn in Rw. rewrite Lv.
    assert (V : forall i j, (S i < n)%nat -> (j <= M)%nat -> nth (i * M + j) v 0 = s * seg i (x i + INR j * d)).
    { intros i' j' H1 H2. rewrite Sv. f_equal. apply (Rw i' j' H1 H2). }
    assert (V' : forall i j, (1 <= i < n)%nat -> (j <= M)%nat -> nth (i * M - j) v 0 = s * seg (i - 1)%nat (x i - INR j * d)).
    { intros i' j' H1 H2. replace (i' * M - j')%nat with ((i' - 1) * M + (M - j'))%nat by nia.
      rewrite V by lia. do 2 f_equal. rewrite minus_INR by lia. unfold x. rewrite minus_INR by lia. cbn [INR]. unfold d. field. lra. }
    assert (V0 : forall i, (S i < n)%nat -> nth (i * M) v 0 = s * seg i (x i)).
    { intros i' H1. replace (i' * M)%nat with (i' * M + 0)%nat by lia. rewrite V by lia. do 2 f_equal. cbn [INR]. ring. }
    assert (V0' : forall i, (1 <= i < n)%nat -> nth (i * M) v 0 = s * seg (i - 1)%nat (x i)).
    { intros i' H1. replace (i' * M)%nat with (i' * M - 0)%nat by lia. rewrite V' by lia. do 2 f_equal. cbn [INR]. ring. }
    destruct (Nat.eqb_spec i 0) as [->|H0].
    { cbn [Nat.mul Nat.eqb]. pose proof (V0 0%nat ltac:(lia)) as A. pose proof (V 0%nat 1%nat ltac:(lia) ltac:(lia)) as B.
      cbn [Nat.mul Nat.add INR] in A, B. rewrite A, B. field. lra. }
    destruct (Nat.eqb_spec (i * M) 0) as [E|_]; [nia|].
    destruct (Nat.eqb_spec i (n - 1)) as [->|H1].
    { destruct (Nat.eqb_spec ((n - 1) * M) ((n - 1) * M + 1 - 1)) as [_|N]; [|lia].
      rewrite V0', V' by lia. cbn [INR]. replace (x (n - 1) - 1 * d) with (x (n - 1) + -1 * d) by ring. field. lra. }
    destruct (Nat.eqb_spec (i * M) ((n - 1) * M + 1 - 1)) as [E|_]; [exfalso; nia|].
    destruct (Nat.eqb_spec (i * M) 1) as [E|_]; [exfalso; nia|].
    destruct (Nat.eqb_spec (i * M) ((n - 1) * M + 1 - 2)) as [E|_].
    { exfalso. assert (i <= n - 2)%nat by lia. nia. }
    cbn [orb]. unfold st5. rewrite !V, !V' by lia. cbn [INR].
    replace (x i + (1 + 1) * d) with (x i + 2 * d) by ring. replace (x i - (1 + 1) * d) with (x i + -2 * d) by ring.
    replace (x i - 1 * d) with (x i + -1 * d) by ring. field. lra.
  Qed.

  Lemma refined_limit i r : (i < n)%nat -> (forall M, (2 <= M)%nat -> refined_derivative M i (r M)) ->
    is_lim_seq r (s * (if Nat.eqb i 0 then slope_right g x0 h 0
                       else if Nat.eqb i (n - 1) then slope_left g x0 h (n - 1)
                       else (slope_left g x0 h i + slope_right g x0 h i) / 2)).
  Proof.
    intros Hi Hr.
    assert (SR : forall i, (S i < n)%nat -> is_derive (seg i) (x i) (slope_right g x0 h i)).
    { intros k Hk. evar_last; [apply power_law_derive; apply xp|]. unfold slope_right. fold (x k) (x (S k)).
      rewrite (proj1 (power_law_ends _ _ _ _ (xp k) (xl k) (g_pos k ltac:(lia)) (g_pos (S k) Hk))).
      rewrite !Rabs_pos_eq by (left; apply g_pos; lia). reflexivity. }
    assert (SL : forall i, (1 <= i < n)%nat -> is_derive (seg (i - 1)%nat) (x i) (slope_left g x0 h i)).
    { intros k Hk. destruct k as [|k]; [lia|]. replace (S k - 1)%nat with k by lia.
      evar_last; [apply power_law_derive; apply xp|]. unfold slope_left. replace (S k - 1)%nat with k by lia. fold (x k) (x (S k)).
      rewrite (proj2 (power_law_ends _ _ _ _ (xp k) (xl k) (g_pos k ltac:(lia)) (g_pos (S k) ltac:(lia)))).
      rewrite !Rabs_pos_eq by (left; apply g_pos; lia). reflexivity. }
    assert (Ev : forall M, (2 <= M)%nat -> _) by (intros M HM; exact (refined_stencil M i (r M) HM Hi (Hr M HM))). cbv zeta in Ev.
    destruct (Nat.eqb_spec i 0) as [->|H0].
    { assert (D := SR 0%nat ltac:(lia)).
      assert (Q := quotient_limit _ _ _ 1 h ltac:(lra) hpos D). apply (scal_lim _ s _ (s * slope_right g x0 h 0)) in Q; [|ring]. rename Q into L. refine (is_lim_seq_ext_loc _ _ _ _ L). exists 2%nat. intros M HM. symmetry. apply Ev. lia. }
    destruct (Nat.eqb_spec i (n - 1)) as [->|H1].
    { assert (D := SL (n - 1)%nat ltac:(lia)).
      assert (Q := quotient_limit _ _ _ (-1) h ltac:(lra) hpos D). apply (scal_lim _ (- s) _ (s * slope_left g x0 h (n - 1))) in Q; [|ring]. rename Q into L.
      refine (is_lim_seq_ext_loc _ _ _ _ L). exists 2%nat. intros M HM. symmetry. apply Ev. lia. }
    assert (DL := SL i ltac:(lia)). assert (DR := SR i ltac:(lia)).
    assert (C0 : seg (i - 1)%nat (x i) = seg i (x i)).
    { unfold seg. rewrite (proj1 (power_law_ends _ _ _ _ (xp i) (xl i) (g_pos i Hi) (g_pos (S i) ltac:(lia)))).
      destruct i as [|k]; [lia|]. replace (S k - 1)%nat with k by lia.
      apply (power_law_ends _ _ _ _ (xp k) (xl k)); apply g_pos; lia. }
    pose proof (scal_lim _ s _ _ eq_refl (kink_limit _ _ _ _ _ h hpos DL DR C0)) as L. cbv zeta in L.
    refine (is_lim_seq_ext_loc _ _ _ _ L). exists 2%nat. intros M HM. symmetry. apply Ev. lia.
  Qed.
End Limit.
