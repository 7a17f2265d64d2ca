(** * Property C82: num_derivative(interpolate=True) of CasimirRio/helper_functions.py *)
From Coquelicot Require Import Coquelicot.
From Coq Require Import Bool Reals List ZArith Lia Lra Psatz.
From Verif Require Import Base Help_Model Help_Spec Help_Proofs Misc_Model Scat_Model Help_Model2 Help_Spec2 Help_Proofs2 Help_Proofs3.
Import ListNotations.
Open Scope R_scope.

(** What is computed.  For data of one sign every M-th entry of the plain derivative of the power laws
    through neighbouring data, sampled with M steps per interval; for data of mixed sign the same for the
    data shifted by |smallest value| + 1. *)
Theorem C82_description : forall f x0 h n M,
  0 < x0 -> 0 < h -> length f = n -> (2 <= n)%nat -> (1 <= M)%nat -> (2 <= (n - 1) * M)%nat ->
  (one_sign f -> exists fp v vp,
     num_derivative_ip f (nodes x0 h n) M = Val fp /\ length fp = n /\
     one_sign (f ++ v) /\ refined (map Rabs f) x0 h M (map Rabs v) /\
     num_derivative v (nodes x0 (h / INR M) ((n - 1) * M + 1)) = Ok vp /\
     forall i, (i < n)%nat -> nth i fp 0 = nth (i * M) vp 0) /\
  (forall m, mixed f -> is_min m f -> exists fp v vp,
     num_derivative_ip f (nodes x0 h n) M = Val fp /\ length fp = n /\
     refined (map (fun y => y + Rabs m + 1) f) x0 h M v /\
     num_derivative v (nodes x0 (h / INR M) ((n - 1) * M + 1)) = Ok vp /\
     forall i, (i < n)%nat -> nth i fp 0 = nth (i * M) vp 0).
Proof.
  intros f x0 h n M Hx Hh Hl Hn HM H3. split.
  - intros Hs. destruct (interpolated_one_sign x0 h Hx Hh M HM f n Hl Hn Hs) as (v & Ev & Lv & Rv & Sv).
    destruct (ip_from_interpolated x0 h Hh M HM f n v Hn ltac:(lia) Lv Ev) as (fp & vp & E & L & Evp & Lvp & N).
    exists fp, v, vp. split; [exact E|]. split; [exact L|]. split; [|split; [exact Rv|split; [exact Evp|exact N]]].
    (* sign of the refined values *)
    assert (F0 : In (nth 0 f 0) f) by (apply nth_In; lia).
    assert (Pos : forall k, (k < length v)%nat -> 0 < Rabs (nth k v 0)).
    { intros k Hk. destruct Rv as [_ Rv]. rewrite map_length in Rv.
      assert (exists i j, (S i < length f)%nat /\ (j <= M)%nat /\ k = (i * M + j)%nat) as (i & j & Hi & Hj & ->).
      { destruct (Nat.eq_dec k ((n - 1) * M)) as [->|Hk'].
        - exists (n - 2)%nat, M. split; [lia|]. split; [lia|]. replace (n - 1)%nat with (S (n - 2)) by lia. cbn. lia.
        - exists (k / M)%nat, (k mod M)%nat. split; [|split].
          + assert (k / M < n - 1)%nat; [|lia]. apply Nat.div_lt_upper_bound; lia.
          + apply Nat.lt_le_incl, Nat.mod_upper_bound. lia.
          + rewrite (Nat.div_mod k M) at 1 by lia. lia. }
      specialize (Rv i j Hi Hj).
      assert (EA : forall l q, nth q (map Rabs l) 0 = Rabs (nth q l 0)) by (intros l q; rewrite <- Rabs_R0 at 1; apply map_nth).
      rewrite !EA in Rv. rewrite Rv. unfold power_law. apply Rmult_lt_0_compat; [|apply exp_pos].
      apply Rabs_pos_lt. assert (I : In (nth i f 0) f) by (apply nth_In; lia). destruct Hs as [Hs|Hs]; specialize (Hs _ I); lra. }
    destruct Hs as [Hs|Hs]; [left|right]; intros y Hy; apply in_app_or in Hy; destruct Hy as [Hy|Hy]; auto;
      destruct (In_nth _ _ 0 Hy) as (k & Hk & <-); specialize (Pos k Hk); rewrite Sv.
    + rewrite sign_pos by auto. lra.
    + rewrite sign_neg by auto. lra.
  - intros m Hm Hmin. destruct (interpolated_mixed x0 h Hx Hh M HM f n m Hl Hn Hm Hmin) as (v & Ev & Lv & Rv).
    destruct (ip_from_interpolated x0 h Hh M HM f n v Hn ltac:(lia) Lv Ev) as (fp & vp & E & L & Evp & Lvp & N).
    exists fp, v, vp. split; [exact E|]. split; [exact L|]. split; [exact Rv|]. split; [exact Evp|exact N].
Qed.
Print Assumptions C82_description.

Lemma one_sign_value f v : one_sign (f ++ v) -> f <> [] -> forall k, nth k v 0 = sign (nth 0 f 0) * Rabs (nth k v 0).
Proof.
  intros Hs Hf k. destruct f as [|f0 f]; [congruence|]. cbn [nth].
  destruct (Nat.lt_ge_cases k (length v)) as [Hk|Hk]; [|rewrite nth_overflow by assumption; rewrite Rabs_R0; ring].
  assert (I : In (nth k v 0) ((f0 :: f) ++ v)) by (apply in_or_app; right; now apply nth_In).
  assert (I0 : In f0 ((f0 :: f) ++ v)) by now left.
  destruct Hs as [Hs|Hs]; pose proof (Hs _ I); pose proof (Hs _ I0).
  - rewrite sign_pos, Rabs_pos_eq by lra. ring.
  - rewrite sign_neg, Rabs_left by lra. ring.
Qed.

Lemma nth_map_abs l q : nth q (map Rabs l) 0 = Rabs (nth q l 0).
Proof. rewrite <- Rabs_R0 at 1. apply map_nth. Qed.

Lemma nth_eq_R : forall (l l' : list R), length l = length l' -> (forall i, (i < length l)%nat -> nth i l 0 = nth i l' 0) -> l = l'.
Proof. intros. now apply nth_ext with 0 0. Qed.

(** with M = 1 the data come back at every node *)
Lemma refined_one g x0 h v : 0 < x0 -> 0 < h -> (2 <= length g)%nat -> (forall y, In y g -> 0 < y) ->
  refined g x0 h 1 v -> v = g.
Proof.
  intros Hx Hh Hg Pg [L R]. apply nth_eq_R; [lia|]. intros i Hi.
  assert (P : forall k, (k < length g)%nat -> 0 < nth k g 0) by (intros; apply Pg, nth_In; lia).
  destruct (Nat.lt_ge_cases (S i) (length g)) as [Hs|Hs].
  - specialize (R i 0%nat Hs ltac:(lia)). replace (i * 1 + 0)%nat with i in R by lia. rewrite R.
    cbn [INR]. rewrite Rmult_0_l, Rplus_0_r.
    apply (power_law_ends _ _ _ _ (x_pos x0 h Hx Hh i) (x_lt x0 h Hh i (S i) ltac:(lia))); apply P; lia.
  - assert (i = S (i - 1))%nat as Ei by lia. rewrite Ei. set (j := (i - 1)%nat) in *.
    specialize (R j 1%nat ltac:(lia) ltac:(lia)). replace (j * 1 + 1)%nat with (S j) in R by lia. rewrite R.
    replace (x0 + INR j * h + INR 1 * (h / INR 1)) with (x0 + INR (S j) * h) by (rewrite S_INR; cbn [INR]; field).
    apply (power_law_ends _ _ _ _ (x_pos x0 h Hx Hh j) (x_lt x0 h Hh j (S j) ltac:(lia))); apply P; lia.
Qed.

(** With one step per interval the interpolation changes nothing, also for mixed signs. *)
Theorem C82_multiplier_one : forall f x0 h n,
  0 < x0 -> 0 < h -> length f = n -> (3 <= n)%nat -> one_sign f \/ mixed f ->
  exists fp, num_derivative_ip f (nodes x0 h n) 1 = Val fp /\ num_derivative f (nodes x0 h n) = Ok fp.
Proof.
  intros f x0 h n Hx Hh Hl Hn Hs.
  destruct (C82_description f x0 h n 1 Hx Hh Hl ltac:(lia) ltac:(lia) ltac:(lia)) as [D1 D2].
  assert (Nf : f <> []) by (intros ->; cbn in Hl; lia).
  destruct Hs as [Hs|Hs].
  - destruct (D1 Hs) as (fp & v & vp & E & L & Ss & Rv & Ev & N).
    assert (map Rabs v = map Rabs f) as Ea.
    { apply (refined_one (map Rabs f) x0 h); auto; [rewrite map_length; lia|].
      intros y Hy. apply in_map_iff in Hy. destruct Hy as (w & <- & Hw). apply Rabs_pos_lt.
      destruct Hs as [Hs|Hs]; specialize (Hs w Hw); lra. }
    assert (v = f) as ->.
    { apply nth_eq_R; [apply (f_equal (@length R)) in Ea; now rewrite !map_length in Ea|]. intros i Hi.
      rewrite (one_sign_value f v Ss Nf i). rewrite <- nth_map_abs, Ea, nth_map_abs.
      assert (Sf : one_sign (f ++ f)).
      { destruct Hs as [Hs|Hs]; [left|right]; intros y Hy; apply in_app_or in Hy; destruct Hy; auto. }
      symmetry. apply (one_sign_value f f Sf Nf i). }
    exists fp. split; [exact E|].
    replace (h / INR 1) with h in Ev by (cbn [INR]; field). replace ((n - 1) * 1 + 1)%nat with n in Ev by lia.
    rewrite Ev. f_equal. assert (length vp = n).
    { destruct (nodes_form x0 h n ltac:(lia)) as [rest Hg]. destruct (num_derivative_spec f _ x0 (x0 + h) rest Hg ltac:(lra) ltac:(lia)) as (vp' & E' & L' & _).
      rewrite E' in Ev. injection Ev as <-. lia. }
    symmetry. apply nth_eq_R; [lia|]. intros i Hi. rewrite N by lia. f_equal. lia.
  - pose proof (arr_min_spec f Nf) as Hm. destruct (D2 _ Hs Hm) as (fp & v & vp & E & L & Rv & Ev & N).
    set (m := arr_min f) in *. assert (v = map (fun y => y + Rabs m + 1) f) as ->.
    { apply (refined_one _ x0 h); auto; [rewrite map_length; lia|].
      intros y Hy. apply in_map_iff in Hy. destruct Hy as (w & <- & Hw). destruct Hm as [_ Hm]. specialize (Hm w Hw).
      pose proof (Rle_abs (- m)) as A. rewrite Rabs_Ropp in A. lra. }
    exists fp. split; [exact E|].
    replace (h / INR 1) with h in Ev by (cbn [INR]; field). replace ((n - 1) * 1 + 1)%nat with n in Ev by lia.
    destruct (nodes_form x0 h n ltac:(lia)) as [rest Hg].
    destruct (num_derivative_spec f _ x0 (x0 + h) rest Hg ltac:(lra) ltac:(lia)) as (q & Eq & Lq & Nq).
    destruct (num_derivative_spec (map (fun y => y + Rabs m + 1) f) _ x0 (x0 + h) rest Hg ltac:(lra) ltac:(rewrite map_length; lia)) as (q' & Eq' & Lq' & Nq').
    rewrite Eq' in Ev. injection Ev as <-. rewrite Eq. f_equal. rewrite map_length in *.
    assert (Sh : forall k, (k < length f)%nat -> nth k (map (fun y => y + Rabs m + 1) f) 0 = nth k f 0 + Rabs m + 1).
    { intros k Hk. rewrite (nth_indep _ 0 (0 + Rabs m + 1)) by (rewrite map_length; lia). apply (map_nth (fun y => y + Rabs m + 1)). }
    apply nth_eq_R; [lia|]. intros i Hi. rewrite Lq in Hi. rewrite N by lia. replace (i * 1)%nat with i by lia. rewrite Nq, Nq' by lia.
    unfold st2, st5. destruct (Nat.eqb_spec i 0); [rewrite !Sh by lia; f_equal; ring|].
    destruct (Nat.eqb_spec i (length f - 1)); [rewrite !Sh by lia; f_equal; ring|].
    destruct (Nat.eqb_spec i 1); [rewrite !Sh by lia; cbn [orb]; f_equal; ring|].
    destruct (Nat.eqb_spec i (length f - 2)); [rewrite !Sh by lia; cbn [orb]; f_equal; ring|].
    cbn [orb]. rewrite !Sh by lia. f_equal. ring.
Qed.
Print Assumptions C82_multiplier_one.

(** Data on a power law c*x^p (any real p): the interpolation adds no error, the result is the plain
    derivative of the same power law sampled on the refined grid. *)
Theorem C82_power_law : forall c p x0 h n M,
  c <> 0 -> 0 < x0 -> 0 < h -> (2 <= n)%nat -> (1 <= M)%nat -> (2 <= (n - 1) * M)%nat ->
  let law := fun t => c * Rpower t p in
  exists fp vp,
    num_derivative_ip (on_grid law x0 h n) (nodes x0 h n) M = Val fp /\ length fp = n /\
    num_derivative (on_grid law x0 (h / INR M) ((n - 1) * M + 1)) (nodes x0 (h / INR M) ((n - 1) * M + 1)) = Ok vp /\
    forall i, (i < n)%nat -> nth i fp 0 = nth (i * M) vp 0.
Proof.
  intros c p x0 h n M Hc Hx Hh Hn HM H3 law.
  assert (MP : 0 < INR M) by (apply lt_0_INR; lia).
  assert (Hd : 0 < h / INR M) by (apply Rdiv_lt_0_compat; assumption).
  set (f := on_grid law x0 h n). assert (Lf : length f = n) by apply on_grid_length.
  assert (Hs : one_sign f).
  { destruct (Rtotal_order c 0) as [C0|[C0|C0]]; [right|congruence|left]; intros y Hy; unfold f, on_grid in Hy;
      apply in_map_iff in Hy; destruct Hy as (k & <- & _); unfold law; pose proof (exp_pos (p * ln (x0 + INR k * h))) as E;
      fold (Rpower (x0 + INR k * h) p) in E; nra. }
  destruct (C82_description f x0 h n M Hx Hh Lf Hn HM H3) as [D1 _].
  destruct (D1 Hs) as (fp & v & vp & E & L & Ss & [Lv Rv] & Ev & N).
  exists fp, vp. split; [exact E|]. split; [exact L|]. split; [|exact N].
  assert (v = on_grid law x0 (h / INR M) ((n - 1) * M + 1)) as <-; [|exact Ev].
  rewrite !map_length, Lf in Lv.
  apply nth_eq_R; [rewrite on_grid_length; exact Lv|]. intros k Hk. rewrite Lv in Hk. rewrite on_grid_nth by assumption.
  rewrite (one_sign_value f v Ss ltac:(intros F; rewrite F in Lf; cbn in Lf; lia) k).
  assert (exists i j, (S i < n)%nat /\ (j <= M)%nat /\ k = (i * M + j)%nat) as (i & j & Hi & Hj & ->).
  { destruct (Nat.eq_dec k ((n - 1) * M)) as [->|Hk'].
    - exists (n - 2)%nat, M. split; [lia|]. split; [lia|]. replace (n - 1)%nat with (S (n - 2)) by lia. cbn. lia.
    - exists (k / M)%nat, (k mod M)%nat. split; [|split].
      + assert (k / M < n - 1)%nat; [|lia]. apply Nat.div_lt_upper_bound; lia.
      + apply Nat.lt_le_incl, Nat.mod_upper_bound. lia.
      + rewrite (Nat.div_mod k M) at 1 by lia. lia. }
  rewrite map_length, Lf in Rv. specialize (Rv i j Hi Hj). rewrite !nth_map_abs in Rv. rewrite Rv.
  unfold f. rewrite !on_grid_nth by lia. unfold law. rewrite !Rabs_mult.
  rewrite !(Rabs_pos_eq (Rpower _ _)) by (left; apply exp_pos).
  rewrite power_law_self.
  - rewrite (fine_x x0 h M HM). assert (Ec : sign (c * Rpower (x0 + INR 0 * h) p) * Rabs c = c).
    { pose proof (exp_pos (p * ln (x0 + INR 0 * h))) as Ex. fold (Rpower (x0 + INR 0 * h) p) in Ex.
      destruct (Rtotal_order c 0) as [C0|[C0|C0]]; [|congruence|].
      - rewrite sign_neg, Rabs_left by nra. ring.
      - rewrite sign_pos, Rabs_pos_eq by nra. ring. }
    rewrite <- Rmult_assoc, Ec. reflexivity.
  - now apply Rabs_pos_lt.
  - apply (x_pos x0 h Hx Hh i).
  - apply (x_lt x0 h Hh i (S i)). lia.
  - pose proof (fine_between x0 h Hh M HM i j Hj). pose proof (x_pos x0 h Hx Hh i). cbv beta in *. lra.
Qed.
Print Assumptions C82_power_law.

Lemma peval_monomial c p x : peval (repeat 0 p ++ [c]) x = c * x ^ p.
Proof. induction p as [|p IH]; cbn [repeat app peval pow]; [ring|]. rewrite IH. ring. Qed.

(** For integer powers up to 4 and at least two steps per interval all inner values are exact, also the
    second and the last but one (plain num_derivative is exact there up to degree 2 only). *)
Theorem C82_power_law_exact : forall c (p : nat) x0 h n M,
  c <> 0 -> (p <= 4)%nat -> 0 < x0 -> 0 < h -> (3 <= n)%nat -> (2 <= M)%nat ->
  exists fp, num_derivative_ip (on_grid (fun t => c * t ^ p) x0 h n) (nodes x0 h n) M = Val fp /\ length fp = n /\
    forall i, (1 <= i)%nat -> (i + 1 < n)%nat -> is_derive (fun t => c * t ^ p) (x0 + INR i * h) (nth i fp 0).
Proof.
  intros c p x0 h n M Hc Hp Hx Hh Hn HM.
  assert (MP : 0 < INR M) by (apply lt_0_INR; lia).
  assert (Hd : 0 < h / INR M) by (apply Rdiv_lt_0_compat; assumption).
  destruct (C82_power_law c (INR p) x0 h n M Hc Hx Hh ltac:(lia) ltac:(lia) ltac:(nia)) as (fp & vp & E & L & Ev & N).
  cbv zeta in E, Ev. set (K := ((n - 1) * M + 1)%nat) in *.
  assert (Eg : forall h' k, 0 < h' -> on_grid (fun t => c * Rpower t (INR p)) x0 h' k = on_grid (fun t => c * t ^ p) x0 h' k).
  { intros h' k Hh'. unfold on_grid. apply map_ext. intros q. rewrite Rpower_pow; [reflexivity|]. pose proof (pos_INR q). nra. }
  assert (Eg' : forall h' k, on_grid (fun t => c * t ^ p) x0 h' k = on_grid (peval (repeat 0 p ++ [c])) x0 h' k).
  { intros h' k. unfold on_grid. apply map_ext. intros q. now rewrite peval_monomial. }
  rewrite Eg in E by assumption. rewrite Eg, Eg' in Ev by assumption.
  exists fp. split; [exact E|]. split; [exact L|]. intros i Hi Hi'. rewrite N by lia.
  assert (iM : (i * M <= (n - 2) * M)%nat) by nia.
  destruct (exact_poly x0 (h / INR M) Hd K ltac:(unfold K; nia) (repeat 0 p ++ [c]) (i * M)) as (vp' & E' & L' & N').
  { unfold K. nia. }
  { rewrite app_length, repeat_length. cbn [length].
    destruct (Nat.eqb_spec (i * M) 0); [nia|]. destruct (Nat.eqb_spec (i * M) (K - 1)); [unfold K in *; exfalso; nia|].
    destruct (Nat.eqb_spec (i * M) 1); [nia|]. destruct (Nat.eqb_spec (i * M) (K - 2)); [unfold K in *; exfalso; nia|]. cbn [orb]. lia. }
  unfold nodes in Ev. rewrite Ev in E'. injection E' as <-. rewrite N'.
  replace (x0 + INR (i * M) * (h / INR M)) with (x0 + INR i * h) by (rewrite mult_INR; field; lra).
  apply is_derive_ext with (peval (repeat 0 p ++ [c])); [intros t; apply peval_monomial|]. apply pderiv_correct.
Qed.
Print Assumptions C82_power_law_exact.

(** For ever finer refinement the result tends to the slope of the neighbouring power law at the ends and
    to the mean of both slopes at inner nodes. *)
Theorem C82_limit : forall f x0 h n (fp : nat -> list R) i,
  0 < x0 -> 0 < h -> length f = n -> (2 <= n)%nat -> (i < n)%nat ->
  (forall M, (2 <= M)%nat -> num_derivative_ip f (nodes x0 h n) M = Val (fp M)) ->
  let tends g := is_lim_seq (fun M => nth i (fp M) 0)
    (Finite (if Nat.eqb i 0 then slope_right g x0 h 0
             else if Nat.eqb i (n - 1) then slope_left g x0 h (n - 1)
             else (slope_left g x0 h i + slope_right g x0 h i) / 2)) in
  (one_sign f -> tends f) /\
  (forall m, mixed f -> is_min m f -> tends (map (fun y => y + Rabs m + 1) f)).
Proof.
  intros f x0 h n fp i Hx Hh Hl Hn Hi Hf tends.
  assert (Nf : f <> []) by (intros ->; cbn in Hl; lia). split.
  - intros Hs. set (s := sign (nth 0 f 0)).
    assert (Hs2 : one_sign (f ++ f)).
    { destruct Hs as [Hs|Hs]; [left|right]; intros y Hy; apply in_app_or in Hy; destruct Hy; auto. }
    assert (Ps : forall k, s * nth k (map Rabs f) 0 = nth k f 0).
    { intros k. rewrite nth_map_abs. symmetry. apply (one_sign_value f f Hs2 Nf k). }
    assert (Gp : forall v, In v (map Rabs f) -> 0 < v).
    { intros y Hy. apply in_map_iff in Hy. destruct Hy as (w & <- & Hw). apply Rabs_pos_lt.
      destruct Hs as [Hs|Hs]; specialize (Hs w Hw); lra. }
    assert (Lim := refined_limit x0 h Hx Hh (map Rabs f) s Gp n ltac:(now rewrite map_length) Hn i (fun M => nth i (fp M) 0) Hi).
    assert (SR : forall k, s * slope_right (map Rabs f) x0 h k = slope_right f x0 h k).
    { intros k. unfold slope_right. unfold Rdiv. rewrite <- !Rmult_assoc, Ps. rewrite !nth_map_abs, !Rabs_Rabsolu. reflexivity. }
    assert (SL : forall k, s * slope_left (map Rabs f) x0 h k = slope_left f x0 h k).
    { intros k. unfold slope_left. unfold Rdiv. rewrite <- !Rmult_assoc, Ps. rewrite !nth_map_abs, !Rabs_Rabsolu. reflexivity. }
    unfold tends. match goal with |- is_lim_seq _ ?a => match type of Lim with _ -> is_lim_seq _ ?b => assert (EQ : a = b) end end.
    { f_equal. destruct (Nat.eqb i 0); [now rewrite SR|]. destruct (Nat.eqb i (n - 1)); [now rewrite SL|].
      rewrite <- SR, <- SL. field. }
    rewrite EQ. apply Lim. intros M HM.
    destruct (C82_description f x0 h n M Hx Hh Hl Hn ltac:(lia) ltac:(nia)) as [D1 _].
    destruct (D1 Hs) as (q & v & vp & E & L & Ss & Rv & Ev & N). rewrite Hf in E by assumption. injection E as <-.
    exists v, (map Rabs v), vp. split; [exact Rv|]. split; [|split; [|split; [exact Ev|apply N; exact Hi]]].
    + intros k. rewrite nth_map_abs. apply (one_sign_value f v Ss Nf k).
    + destruct Rv as [Lv _]. rewrite !map_length, Hl in Lv. exact Lv.
  - intros m Hs Hmin. set (g := map (fun y => y + Rabs m + 1) f).
    assert (Gp : forall v, In v g -> 0 < v).
    { intros y Hy. apply in_map_iff in Hy. destruct Hy as (w & <- & Hw). destruct Hmin as [_ Hm]. specialize (Hm w Hw).
      pose proof (Rle_abs (- m)) as A. rewrite Rabs_Ropp in A. lra. }
    assert (Lg : length g = n) by (unfold g; now rewrite map_length).
    assert (Lim := refined_limit x0 h Hx Hh g 1 Gp n Lg Hn i (fun M => nth i (fp M) 0) Hi).
    rewrite Rmult_1_l in Lim. apply Lim. intros M HM.
    destruct (C82_description f x0 h n M Hx Hh Hl Hn ltac:(lia) ltac:(nia)) as [_ D2].
    destruct (D2 m Hs Hmin) as (q & v & vp & E & L & Rv & Ev & N). rewrite Hf in E by assumption. injection E as <-.
    exists v, v, vp. split; [exact Rv|]. split; [intros; ring|]. split; [|split; [exact Ev|apply N; exact Hi]].
    destruct Rv as [Lv _]. fold g in Lv. rewrite Lg in Lv. exact Lv.
Qed.
Print Assumptions C82_limit.

(** errors *)
Theorem C82_errors : forall f x M,
  ((length x < 2)%nat -> num_derivative_ip f x M = Exc IndexError) /\
  (forall x0 x1 rest, x = x0 :: x1 :: rest -> x1 <= x0 -> num_derivative_ip f x M = Exc ValueError) /\
  (forall x0 h n, 0 < x0 -> 0 < h -> (2 <= n)%nat -> x = nodes x0 h n -> f <> [] -> length f <> n -> one_sign f ->
     num_derivative_ip f x M = Exc ValueError) /\
  (forall x0 h, 0 < x0 -> 0 < h -> x = nodes x0 h 2 -> length f = 2%nat -> one_sign f ->
     num_derivative_ip f x 1 = Exc IndexError).
Proof.
  intros f x M. split; [|split; [|split]].
  - intros H. unfold num_derivative_ip. destruct x as [|a [|b x]]; cbn in H; try lia; reflexivity.
  - intros x0 x1 rest -> H. unfold num_derivative_ip. cbn [get nth_error of_res obind].
    destruct (Rltb_spec 0 (x1 - x0)); [lra|reflexivity].
  - intros x0 h n Hx Hh Hn -> Nf Hl Hs. destruct (nodes_form x0 h n Hn) as [rest Hg].
    assert (I : interpolated f (nodes x0 h n) M = Exc ValueError).
    { rewrite interpolated_nonempty by assumption. cbv zeta.
      assert (Sg : forall v w, In v f -> In w f -> sign v = sign w).
      { intros v w Hv Hw. destruct Hs as [Hs|Hs]; [rewrite !sign_pos by auto|rewrite !sign_neg by auto]; reflexivity. }
      assert (I0 : In (nth 0 f 0) f) by (apply nth_In; destruct f; [congruence|cbn; lia]).
      assert (forallb (fun v => Reqb (sign (nth 0 f 0)) (sign v)) f = true) as ->.
      { apply forallb_forall. intros v Hv. destruct (Reqb_spec (sign (nth 0 f 0)) (sign v)) as [|N]; [reflexivity|]. exfalso. apply N. now apply Sg. }
      unfold log_interp. rewrite (nodes_pos x0 h Hx Hh n), (nodes_increasing x0 h Hh n).
      assert (forallb (Rltb 0) (map Rabs f) = true) as ->.
      { apply forallb_forall. intros v Hv. apply in_map_iff in Hv. destruct Hv as (w & <- & Hw).
        destruct (Rltb_spec 0 (Rabs w)) as [|N]; [reflexivity|]. exfalso. apply N. apply Rabs_pos_lt.
        destruct Hs as [Hs|Hs]; specialize (Hs w Hw); lra. }
      cbn [andb negb]. rewrite nodes_length, map_length. destruct (Nat.eqb_spec n (length f)); [congruence|]. reflexivity. }
    unfold num_derivative_ip. rewrite I. rewrite Hg. cbn [get nth_error of_res obind].
    destruct (Rltb_spec 0 (x0 + h - x0)); [reflexivity|lra].
  - intros x0 h Hx Hh -> Hl Hs.
    destruct (interpolated_one_sign x0 h Hx Hh 1 ltac:(lia) f 2 Hl ltac:(lia) Hs) as (v & Ev & Lv & _).
    destruct (nodes_form x0 h 2 ltac:(lia)) as [rest Hg].
    unfold num_derivative_ip. rewrite Ev. rewrite Hg. cbn [get nth_error of_res obind].
    destruct (Rltb_spec 0 (x0 + h - x0)); [|lra]. cbn [negb].
    destruct v as [|a [|b [|c v]]]; cbn in Lv; try lia. reflexivity.
Qed.
Print Assumptions C82_errors.

(** x^3 at 1, 2, 3 with ten steps per interval: 3*2^2 = 12 in the middle (13 without interpolation) *)
Example C82_case : exists fp, num_derivative_ip [1; 8; 27] [1; 2; 3] 10 = Val fp /\ nth 1 fp 0 = 12 /\
  num_derivative [1; 8; 27] [1; 2; 3] = Ok [7; 13; 19].
Proof.
  destruct (C82_power_law_exact 1 3 1 1 3 10) as (fp & E & L & D); try lra; try lia.
  exists fp. unfold on_grid, nodes, on_grid in E. cbn [seq map INR] in E.
  replace (1 * (1 + 0 * 1) ^ 3) with 1 in E by ring. replace (1 * (1 + 1 * 1) ^ 3) with 8 in E by ring.
  replace (1 * (1 + (1 + 1) * 1) ^ 3) with 27 in E by ring. replace (1 + 0 * 1) with 1 in E by ring.
  replace (1 + 1 * 1) with 2 in E by ring. replace (1 + (1 + 1) * 1) with 3 in E by ring.
  split; [exact E|]. split.
  - specialize (D 1%nat ltac:(lia) ltac:(lia)). cbn [INR] in D. apply is_derive_unique in D. rewrite <- D.
    apply is_derive_unique. auto_derive; [exact I|]. ring.
  - unfold num_derivative. cbn [get nth_error bind]. destruct (Rltb_spec 0 (2 - 1)); [|lra].
    cbn [negb length Nat.sub seq deriv_loop deriv5 deriv2 get nth_error Nat.add bind set Nat.ltb Nat.leb map firstn skipn app].
    repeat f_equal; field.
Qed.

(** data of mixed sign *)
Example C82_mixed : mixed [-1; 0; 2] /\ is_min (-1) [-1; 0; 2] /\
  exists fp, num_derivative_ip [-1; 0; 2] (nodes 1 1 3) 1 = Val fp.
Proof.
  assert (Mx : mixed [-1; 0; 2]) by (exists (-1), 2; cbn; intuition lra).
  split; [exact Mx|]. split.
  - split; [now left|]. intros v [<-|[<-|[<-|[]]]]; lra.
  - destruct (C82_multiplier_one [-1; 0; 2] 1 1 3 ltac:(lra) ltac:(lra) eq_refl ltac:(lia) (or_intror Mx)) as (fp & E & _). eauto.
Qed.
