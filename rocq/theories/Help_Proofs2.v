(** * Proofs about num_derivative(interpolate=True) *)
From Coquelicot Require Import Coquelicot.
From Coq Require Import Bool Reals List ZArith Lia Lra Psatz Sorting.Sorted.
From Verif Require Import Base Help_Model Help_Spec Help_Proofs Misc_Model Misc_Proofs Scat_Model Help_Model2 Help_Spec2.
Import ListNotations.
Open Scope R_scope.

Lemma num_derivative_differences f x0 x1 rest : x0 < x1 ->
  num_derivative f (x0 :: x1 :: rest) = differences f (x1 - x0).
Proof.
  intros H. unfold num_derivative. cbn [get nth_error bind].
  destruct (Rltb_spec 0 (x1 - x0)); [reflexivity|lra].
Qed.

Lemma nodes_form x0 h n : (2 <= n)%nat -> exists rest, nodes x0 h n = x0 :: (x0 + h) :: rest.
Proof.
  intros Hn. unfold nodes, on_grid. destruct n as [|[|k]]; try lia. cbn [seq map INR]. eexists. f_equal; [ring|f_equal; ring].
Qed.
Lemma nodes_nth x0 h n i : (i < n)%nat -> nth i (nodes x0 h n) 0 = x0 + INR i * h.
Proof. apply (on_grid_nth (fun x => x)). Qed.
Lemma nodes_length x0 h n : length (nodes x0 h n) = n.
Proof. apply on_grid_length. Qed.

Lemma nth_last {A} (l : list A) d : last l d = nth (length l - 1) l d.
Proof.
  induction l as [|a l IH]; [reflexivity|]. destruct l as [|b l]; [reflexivity|].
  change (last (a :: b :: l) d) with (last (b :: l) d). rewrite IH. cbn [length].
  replace (S (S (length l)) - 1)%nat with (S (length l)) by lia. replace (S (length l) - 1)%nat with (length l) by lia. reflexivity.
Qed.

Lemma linspace_nth a b n i : (i <= n)%nat -> nth i (linspace a b n) 0 = a + INR i * ((b - a) / INR n).
Proof.
  intros H. unfold linspace. set (F := fun j : nat => a + INR j * ((b - a) / INR n)).
  rewrite (nth_indep _ 0 (F O)) by (rewrite map_length, seq_length; lia).
  rewrite map_nth, seq_nth by lia. reflexivity.
Qed.
Lemma linspace_length a b n : length (linspace a b n) = (n + 1)%nat.
Proof. unfold linspace. now rewrite map_length, seq_length. Qed.

(** linear interpolation on the segment i *)
Lemma interp_seg_at : forall xs ys x0 y0 i t, length ys = length xs -> StronglySorted Rlt (x0 :: xs) ->
  (i < length xs)%nat -> nth i (x0 :: xs) 0 <= t <= nth (S i) (x0 :: xs) 0 ->
  interp_seg x0 y0 (combine xs ys) t =
  Ok (nth i (y0 :: ys) 0 + (nth (S i) (y0 :: ys) 0 - nth i (y0 :: ys) 0) / (nth (S i) (x0 :: xs) 0 - nth i (x0 :: xs) 0)
        * (t - nth i (x0 :: xs) 0)).
Proof.
  induction xs as [|x1 xs IH]; intros ys x0 y0 i t Hl Hs Hi [H0 H1]; [cbn in Hi; lia|].
  destruct ys as [|y1 ys]; [discriminate|]. cbn [combine interp_seg].
  apply StronglySorted_inv in Hs. destruct Hs as [Hs Hf]. assert (F1 := Forall_inv Hf).
  destruct i as [|i].
  - cbn [nth] in *. destruct (Rleb_spec t x1); [reflexivity|lra].
  - assert (Hi' : (i < length xs)%nat) by (cbn in Hi; lia).
    destruct (Rleb_spec t x1) as [L|L].
    + (* t is the node x1 itself *)
      assert (i = 0)%nat.
      { destruct i as [|i]; [reflexivity|]. exfalso. cbn [nth] in H0.
        apply StronglySorted_inv in Hs. destruct Hs as [_ Hf']. rewrite Forall_forall in Hf'.
        assert (Hn : (i < length xs)%nat) by lia. specialize (Hf' (nth i xs 0) (nth_In xs 0 Hn)). lra. }
      subst i. cbn [nth] in *. assert (t = x1) by lra. subst t.
      apply StronglySorted_inv in Hs. destruct Hs as [_ Hf']. rewrite Forall_forall in Hf'.
      specialize (Hf' (nth 0 xs 0) (nth_In xs 0 Hi')). f_equal. field. lra.
    + apply (IH ys x1 y1 i t); auto.
Qed.

Lemma interp1d_at xs ys i t : length ys = length xs -> StronglySorted Rlt xs -> (S i < length xs)%nat ->
  nth i xs 0 <= t <= nth (S i) xs 0 ->
  interp1d xs ys t =
  Ok (nth i ys 0 + (nth (S i) ys 0 - nth i ys 0) / (nth (S i) xs 0 - nth i xs 0) * (t - nth i xs 0)).
Proof.
  intros Hl Hs Hi Ht. destruct xs as [|x0 xs]; [cbn in Hi; lia|]. destruct ys as [|y0 ys]; [discriminate|].
  unfold interp1d. cbn [combine].
  assert (x0 <= nth i (x0 :: xs) 0).
  { destruct i as [|i]; [cbn; lra|]. apply StronglySorted_inv in Hs. destruct Hs as [_ Hf]. rewrite Forall_forall in Hf.
    cbn [nth]. left. apply Hf, nth_In. cbn in Hi. lia. }
  destruct (Rltb_spec t x0); [lra|]. apply interp_seg_at; auto. cbn in Hi. lia.
Qed.

Lemma map_res_nth {A B} (f : A -> res B) (g : nat -> B) : forall (l : list A) (da : A) (db : B),
  (forall i, (i < length l)%nat -> f (nth i l da) = Ok (g i)) ->
  exists ys, map_res f l = Ok ys /\ length ys = length l /\ forall i, (i < length l)%nat -> nth i ys db = g i.
Proof.
  intros l. revert g. induction l as [|a l IH]; intros g da db H.
  - exists []. repeat split. intros i Hi. cbn in Hi. lia.
  - cbn [map_res]. rewrite (H 0%nat ltac:(cbn; lia) : f a = _). cbn [bind].
    destruct (IH (fun i => g (S i)) da db) as (ys & E & L & N).
    { intros i Hi. apply (H (S i)). cbn. lia. }
    rewrite E. cbn [bind]. exists (g O :: ys). split; [reflexivity|]. split; [cbn; lia|].
    intros [|i] Hi; [reflexivity|]. apply N. cbn in Hi. lia.
Qed.

(** positive equidistant nodes *)
Section Nodes.
  Context (x0 h : R) (x0pos : 0 < x0) (hpos : 0 < h).
  Let x (j : nat) := x0 + INR j * h.
  Lemma x_pos j : 0 < x j.
  Proof. unfold x. pose proof (pos_INR j). nra. Qed.
  Lemma x_lt i j : (i < j)%nat -> x i < x j.
  Proof. intros H. unfold x. apply lt_INR in H. nra. Qed.

  Lemma nodes_sorted n : StronglySorted Rlt (map ln (nodes x0 h n)).
  Proof.
    unfold nodes, on_grid. rewrite map_map.
    assert (G : forall s k, StronglySorted Rlt (map (fun i => ln (x i)) (seq s k))).
    { intros s k. revert s. induction k as [|k IH]; intros s; cbn [seq map]; constructor; [apply IH|].
      apply Forall_forall. intros v Hv. apply in_map_iff in Hv. destruct Hv as (j & <- & Hj). apply in_seq in Hj.
      apply ln_increasing; [apply x_pos|]. apply x_lt. lia. }
    apply G.
  Qed.
  Lemma nodes_increasing n : increasing (nodes x0 h n) = true.
  Proof.
    unfold nodes, on_grid.
    assert (G : forall k s, increasing (map (fun i => x i) (seq s k)) = true).
    { induction k as [|k IH]; intros s; [reflexivity|]. destruct k as [|k]; [reflexivity|].
      specialize (IH (S s)). cbn [seq map] in *.
      change (Rltb (x s) (x (S s)) && increasing (x (S s) :: map (fun i => x i) (seq (S (S s)) k)) = true). rewrite IH.
      destruct (Rltb_spec (x s) (x (S s))) as [|N]; [reflexivity|]. exfalso. apply N. apply x_lt. lia. }
    apply G.
  Qed.
  Lemma nodes_pos n : forallb (Rltb 0) (nodes x0 h n) = true.
  Proof.
    apply forallb_forall. intros v Hv. unfold nodes, on_grid in Hv. apply in_map_iff in Hv.
    destruct Hv as (j & <- & _). destruct (Rltb_spec 0 (x0 + INR j * h)) as [|N]; [reflexivity|].
    exfalso. apply N. apply (x_pos j).
  Qed.

  Context (M : nat) (Mpos : (1 <= M)%nat).
  Lemma fine_x i j : x i + INR j * (h / INR M) = x0 + INR (i * M + j) * (h / INR M).
  Proof.
    unfold x. rewrite plus_INR, mult_INR. assert (0 < INR M) by (apply lt_0_INR; lia). field. lra.
  Qed.
  Lemma fine_between i j : (j <= M)%nat -> x i <= x i + INR j * (h / INR M) <= x (S i).
  Proof.
    intros Hj. assert (HM : 0 < INR M) by (apply lt_0_INR; lia). assert (P := pos_INR j). apply le_INR in Hj.
    assert (E : INR j * (h / INR M) = h * (INR j / INR M)) by (field; lra).
    assert (B : 0 <= INR j / INR M <= 1).
    { split; [apply Rmult_le_pos; [lra|left; now apply Rinv_0_lt_compat]|]. apply Rmult_le_reg_r with (INR M); [lra|].
      unfold Rdiv. rewrite Rmult_assoc, Rinv_l by lra. lra. }
    rewrite E. unfold x. rewrite S_INR. nra.
  Qed.

  Lemma log_interp_refined g n : length g = n -> (2 <= n)%nat -> (forall v, In v g -> 0 < v) ->
    exists l, log_interp (nodes x0 h n) g (linspace (nth 0 (nodes x0 h n) 0) (last (nodes x0 h n) 0) ((n - 1) * M)) = Val l /\
      refined g x0 h M (map exp l).
  Proof.
    intros Hl Hn Hg. set (xs := nodes x0 h n).
    assert (HM : 0 < INR M) by (apply lt_0_INR; lia).
    assert (HN : 0 < INR (n - 1)) by (apply lt_0_INR; lia).
    assert (E0 : nth 0 xs 0 = x0) by (unfold xs; rewrite nodes_nth by lia; cbn; ring).
    assert (E1 : last xs 0 = x0 + INR (n - 1) * h).
    { rewrite nth_last. unfold xs. rewrite nodes_length, nodes_nth by lia. reflexivity. }
    set (K := ((n - 1) * M)%nat).
    set (xn := linspace (nth 0 xs 0) (last xs 0) K).
    assert (Xn : forall k, (k <= K)%nat -> nth k xn 0 = x0 + INR k * (h / INR M)).
    { intros k Hk. unfold xn. rewrite linspace_nth by assumption. rewrite E0, E1. f_equal. f_equal.
      unfold K. rewrite mult_INR. field. lra. }
    assert (Ln : length xn = (K + 1)%nat) by apply linspace_length.
    (* the segment of fine index k *)
    set (sg := fun k => if Nat.eqb k K then (n - 2)%nat else (k / M)%nat).
    assert (Sg : forall k, (k <= K)%nat -> (S (sg k) < n)%nat /\ exists j, (j <= M)%nat /\ k = (sg k * M + j)%nat).
    { intros k Hk. unfold sg. destruct (Nat.eqb_spec k K) as [->|Hne].
      - split; [lia|]. exists M. split; [lia|]. unfold K. replace (n - 1)%nat with (S (n - 2)) by lia. cbn. lia.
      - split.
        + assert (k / M < n - 1)%nat; [|lia]. apply Nat.div_lt_upper_bound; [lia|]. unfold K in *. lia.
        + exists (k mod M)%nat. split; [apply Nat.lt_le_incl, Nat.mod_upper_bound; lia|].
          rewrite (Nat.div_mod k M) at 1 by lia. lia. }
    set (val := fun i t => ln (nth i g 0) + (ln (nth (S i) g 0) - ln (nth i g 0)) / (ln (x (S i)) - ln (x i)) * (ln t - ln (x i))).
    assert (At : forall i j, (S i < n)%nat -> (j <= M)%nat ->
      interp1d (map ln xs) (map ln g) (ln (x i + INR j * (h / INR M))) = Ok (val i (x i + INR j * (h / INR M)))).
    { intros i j Hi Hj. pose proof (fine_between i j Hj) as [B0 B1].
      assert (LX : length xs = n) by apply nodes_length.
      assert (MX : forall i, (i < n)%nat -> nth i (map ln xs) 0 = ln (x i)).
      { intros k Hk. rewrite (nth_indep _ 0 (ln 0)) by (rewrite map_length; lia). rewrite map_nth. unfold xs.
        rewrite nodes_nth by lia. reflexivity. }
      assert (MG : forall i, (i < n)%nat -> nth i (map ln g) 0 = ln (nth i g 0)).
      { intros k Hk. rewrite (nth_indep _ 0 (ln 0)) by (rewrite map_length; lia). now rewrite map_nth. }
      rewrite (interp1d_at (map ln xs) (map ln g) i).
      - rewrite !MX, !MG by lia. reflexivity.
      - rewrite !map_length. lia.
      - apply nodes_sorted.
      - rewrite map_length. lia.
      - rewrite !MX by lia. split; apply ln_le; try assumption; [apply x_pos|]. pose proof (x_pos i). lra. }
    destruct (map_res_nth (interp1d (map ln xs) (map ln g)) (fun k => val (sg k) (nth k xn 0)) (map ln xn) (ln 0) 0) as (l & El & Ll & Nl).
    { intros k Hk. rewrite map_length, Ln in Hk. rewrite map_nth.
      destruct (Sg k ltac:(lia)) as (S1 & j & Hj & Ek). rewrite Xn by lia. rewrite Ek at 1 3.
      rewrite <- fine_x. apply At; assumption. }
    exists l. split.
    - unfold log_interp. fold xs. fold K. fold xn.
      assert (forallb (Rltb 0) g = true) as ->.
      { apply forallb_forall. intros v Hv. destruct (Rltb_spec 0 v) as [|N]; [reflexivity|]. exfalso. now apply N, Hg. }
      unfold xs at 1 2. rewrite nodes_pos, nodes_increasing. cbn [andb negb].
      assert (length xs = n) as -> by apply nodes_length. rewrite Hl, Nat.eqb_refl. cbn [negb].
      rewrite El. reflexivity.
    - rewrite map_length, Ln in Ll, Nl. split; [rewrite map_length, Ll; unfold K; lia|].
      rewrite Hl. intros i j Hi Hj. assert (Hk : (i * M + j <= K)%nat).
      { unfold K. assert (S i <= n - 1)%nat by lia. nia. }
      rewrite (nth_indep _ 0 (exp 0)) by (rewrite map_length; lia). rewrite map_nth, Nl by lia.
      rewrite Xn by assumption. rewrite <- fine_x.
      (* value does not depend on the chosen segment *)
      assert (Same : val (sg (i * M + j)%nat) (x i + INR j * (h / INR M)) = val i (x i + INR j * (h / INR M))).
      { destruct (Sg (i * M + j)%nat Hk) as (S1 & j' & Hj' & Ek).
        pose proof (At i j Hi Hj) as A1. pose proof (At (sg (i * M + j)%nat) j' S1 Hj') as A2.
        rewrite fine_x in A1. rewrite fine_x in A2. rewrite <- Ek in A2. rewrite fine_x. congruence. }
      rewrite Same. unfold val, power_law, exponent. fold (x i) (x (S i)).
      assert (Gp : 0 < nth i g 0) by (apply Hg, nth_In; lia).
      rewrite exp_plus, exp_ln by assumption. f_equal. unfold Rpower. f_equal. fold (x i) (x (S i)).
      unfold Rdiv at 4. rewrite ln_mult, ln_Rinv; [|apply (x_pos i)| |apply Rinv_0_lt_compat, (x_pos i)]. { unfold Rdiv. ring. }
      pose proof (fine_between i j Hj). pose proof (x_pos i). unfold x in *. lra.
  Qed.
End Nodes.
