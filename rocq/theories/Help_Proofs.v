(** * Proofs about helper_functions.py *)
From Coquelicot Require Import Coquelicot.
From Coq Require Import Bool Reals List ZArith Lia Lra Factorial.
From Verif Require Import Base Help_Model Help_Spec.
Import ListNotations.
Open Scope R_scope.

(** ** C32 *)
Lemma lfac_spec n : lfac n = ln (INR (fact n)).
Proof. unfold lfac, gammaln. now rewrite Nat.add_sub. Qed.

Lemma odd_dfact_fact n : INR (fact (2 * n)) = 2 ^ n * INR (fact n) * odd_dfact n.
Proof.
  induction n as [|n IH]; [cbn; ring|].
  replace (2 * S n)%nat with (S (S (2 * n))) by lia.
  rewrite !fact_simpl, !mult_INR, IH. cbn [odd_dfact pow].
  rewrite !S_INR, mult_INR. cbn [INR]. ring.
Qed.

Lemma odd_dfact_pos n : 0 < odd_dfact n.
Proof.
  induction n as [|n IH]; cbn [odd_dfact]; [lra|]. apply Rmult_lt_0_compat; [|assumption].
  rewrite S_INR. pose proof (pos_INR n). lra.
Qed.

Lemma ln_2dbl_spec n : ln_2dbl n = ln (odd_dfact n).
Proof.
  unfold ln_2dbl, gammaln. rewrite !Nat.add_sub, odd_dfact_fact.
  assert (0 < 2 ^ n) by (apply pow_lt; lra). pose proof (odd_dfact_pos n). pose proof (INR_fact_lt_0 n).
  rewrite !ln_mult by (try assumption; apply Rmult_lt_0_compat; assumption).
  rewrite <- (Rpower_pow n 2) by lra. unfold Rpower. rewrite ln_exp. ring.
Qed.

(** ** C33 *)
Lemma get_ok f i : (i < length f)%nat -> get f i = Ok (nth i f 0).
Proof. intros H. unfold get. now rewrite (nth_error_nth' f 0 H). Qed.

Lemma set_ok l i v : (i < length l)%nat ->
  exists l', set l i v = Ok l' /\ length l' = length l /\
    forall j, nth j l' 0 = if Nat.eqb j i then v else nth j l 0.
Proof.
  intros H. unfold set. destruct (Nat.ltb_spec i (length l)); [|lia]. eexists. split; [reflexivity|].
  assert (Hf : length (firstn i l) = i) by (rewrite firstn_length; lia). split.
  - rewrite app_length. cbn [length]. rewrite skipn_length, Hf. lia.
  - intros j. destruct (Nat.eqb_spec j i) as [->|Hj].
    + rewrite app_nth2, Hf, Nat.sub_diag by lia. reflexivity.
    + destruct (Nat.lt_ge_cases j i).
      * rewrite app_nth1 by lia. rewrite <- (firstn_skipn i l) at 2. rewrite app_nth1 by lia. reflexivity.
      * rewrite app_nth2, Hf by lia. destruct (j - i)%nat as [|d] eqn:E; [lia|]. cbn [nth].
        rewrite <- (firstn_skipn (S i) l) at 2.
        rewrite app_nth2; rewrite firstn_length; [|lia]. f_equal. lia.
Qed.

Lemma deriv5_ok f h i : (i + 2 < length f)%nat -> deriv5 f h i = Ok (st5 f h i).
Proof. intros H. unfold deriv5. rewrite !get_ok by lia. reflexivity. Qed.
Lemma deriv2_ok f h i : (i + 1 < length f)%nat -> deriv2 f h i = Ok (st2 f h i).
Proof. intros H. unfold deriv2. rewrite !get_ok by lia. reflexivity. Qed.

Lemma deriv_loop_ok f h : forall is fp, length fp = length f ->
  (forall i, In i is -> (i + 2 < length f)%nat) ->
  exists fp', deriv_loop f h is fp = Ok fp' /\ length fp' = length f /\
    forall j, nth j fp' 0 = if in_dec Nat.eq_dec j is then st5 f h j else nth j fp 0.
Proof.
  induction is as [|i is IH]; intros fp Hl Hi; cbn [deriv_loop].
  - eexists. split; [reflexivity|]. split; [assumption|]. intros j. destruct (in_dec _ _ _) as [[]|]. reflexivity.
  - pose proof (Hi i (or_introl eq_refl)) as Hi0. rewrite deriv5_ok by lia. cbn [bind].
    destruct (set_ok fp i (st5 f h i)) as (fp1 & E1 & L1 & N1); [lia|]. rewrite E1. cbn [bind].
    destruct (IH fp1) as (fp2 & E2 & L2 & N2); [lia|intros; apply Hi; now right|].
    exists fp2. split; [assumption|]. split; [assumption|]. intros j. rewrite N2.
    destruct (in_dec Nat.eq_dec j is) as [H|H]; destruct (in_dec Nat.eq_dec j (i :: is)) as [H'|H'].
    + reflexivity.
    + exfalso. apply H'. now right.
    + rewrite N1. destruct H' as [->|H']; [|contradiction]. now rewrite Nat.eqb_refl.
    + rewrite N1. destruct (Nat.eqb_spec j i) as [->|]; [|reflexivity]. exfalso. apply H'. now left.
Qed.

Theorem num_derivative_spec f x x0 x1 rest :
  x = x0 :: x1 :: rest -> x0 < x1 -> (3 <= length f)%nat ->
  let h := x1 - x0 in
  exists fp, num_derivative f x = Ok fp /\ length fp = length f /\
    forall i, (i < length f)%nat ->
      nth i fp 0 =
        if Nat.eqb i 0 then (nth 1 f 0 - nth 0 f 0) / h
        else if Nat.eqb i (length f - 1) then (nth i f 0 - nth (i - 1) f 0) / h
        else if Nat.eqb i 1 || Nat.eqb i (length f - 2) then st2 f h i
        else st5 f h i.
Proof.
  intros -> Hx Hf. cbn zeta. set (h := x1 - x0). unfold num_derivative. cbn [get nth_error bind].
  fold h. destruct (Rltb_spec 0 h) as [_|N]; [|unfold h in N; lra]. cbn [negb].
  destruct (deriv_loop_ok f h (seq 2 (length f - 1 - 1 - 2)) (map (fun _ => 0) f)) as (p1 & E1 & L1 & N1).
  { now rewrite map_length. }
  { intros i Hi. apply in_seq in Hi. lia. }
  rewrite E1. cbn [bind]. rewrite !deriv2_ok by lia. cbn [bind].
  destruct (set_ok p1 1 (st2 f h 1)) as (p2 & E2 & L2 & N2); [lia|]. rewrite E2. cbn [bind].
  destruct (set_ok p2 (length f - 1 - 1) (st2 f h (length f - 1 - 1))) as (p3 & E3 & L3 & N3); [lia|]. rewrite E3. cbn [bind].
  rewrite !get_ok by lia. cbn [bind].
  destruct (set_ok p3 0 ((nth 1 f 0 - nth 0 f 0) / h)) as (p4 & E4 & L4 & N4); [lia|]. rewrite E4. cbn [bind].
  destruct (set_ok p4 (length f - 1) ((nth (length f - 1) f 0 - nth (length f - 1 - 1) f 0) / h)) as (p5 & E5 & L5 & N5); [lia|].
  rewrite E5. cbn [bind]. exists p5. split; [reflexivity|]. split; [lia|].
  intros i Hi. rewrite N5, N4, N3, N2, N1.
  destruct (Nat.eqb_spec i 0); destruct (Nat.eqb_spec i (length f - 1)); try lia; try (subst; reflexivity).
  destruct (Nat.eqb_spec i 1), (Nat.eqb_spec i (length f - 2)), (Nat.eqb_spec i (length f - 1 - 1)); try lia; cbn [orb]; subst; try reflexivity.
  - f_equal. lia.
  - f_equal. lia.
  - destruct (in_dec Nat.eq_dec i (seq 2 (length f - 1 - 1 - 2))) as [|H]; [reflexivity|]. exfalso. apply H. apply in_seq. lia.
Qed.

Lemma num_derivative_errors f x :
  ((length x < 2)%nat -> num_derivative f x = Err IndexError) /\
  (forall x0 x1 rest, x = x0 :: x1 :: rest -> x1 <= x0 -> num_derivative f x = Err ValueError) /\
  (forall x0 x1 rest, x = x0 :: x1 :: rest -> x0 < x1 -> (length f < 3)%nat -> num_derivative f x = Err IndexError).
Proof.
  split; [|split].
  - destruct x as [|a [|b x]]; cbn; try lia; reflexivity.
  - intros x0 x1 rest -> H. unfold num_derivative. cbn [get nth_error bind].
    destruct (Rltb_spec 0 (x1 - x0)); [lra|reflexivity].
  - intros x0 x1 rest -> H Hf. unfold num_derivative. cbn [get nth_error bind].
    destruct (Rltb_spec 0 (x1 - x0)); [|lra]. cbn [negb].
    replace (length f - 1 - 1 - 2)%nat with 0%nat by lia. cbn [seq deriv_loop bind].
    unfold deriv2. destruct f as [|a [|b [|c f]]]; try reflexivity. cbn in Hf. lia.
Qed.

Lemma on_grid_nth f x0 h n i : (i < n)%nat -> nth i (on_grid f x0 h n) 0 = f (x0 + INR i * h).
Proof.
  intros H. unfold on_grid. rewrite (nth_indep _ 0 (f (x0 + INR 0 * h))) by (rewrite map_length, seq_length; lia).
  rewrite (map_nth (fun i => f (x0 + INR i * h))), seq_nth by lia. reflexivity.
Qed.
Lemma on_grid_length f x0 h n : length (on_grid f x0 h n) = n.
Proof. unfold on_grid. now rewrite map_length, seq_length. Qed.

(** [pderiv] is the derivative *)
Lemma pderiv_from_eval p : forall n x,
  peval (pderiv_from n p) x = INR n * peval p x + x * peval (pderiv_from 1 (match p with [] => [] | _ :: q => q end)) x.
Proof.
  assert (G : forall p n x, peval (pderiv_from (S n) p) x = peval (pderiv_from n p) x + peval p x).
  { induction p0 as [|a q IH]; intros n x; cbn [peval pderiv_from]; [ring|]. rewrite IH, S_INR. ring. }
  induction p as [|a q IH]; intros n x; cbn [peval pderiv_from]; [ring|].
  destruct n as [|n].
  - rewrite Rmult_0_l. cbn [INR]. rewrite Rmult_0_l. ring.
  - assert (G2 : forall n, peval (pderiv_from (S n) q) x = INR n * peval q x + peval (pderiv_from 1 q) x).
    { induction n0 as [|k IHk]; [cbn [INR]; ring|]. rewrite G, IHk, S_INR. ring. }
    rewrite G2. rewrite !S_INR. ring.
Qed.

Lemma pderiv_correct p x : is_derive (peval p) x (peval (pderiv p) x).
Proof.
  induction p as [|a q IH]; cbn [peval pderiv].
  - apply @is_derive_const.
  - evar_last.
    + apply @is_derive_plus; [apply @is_derive_const|]. apply (is_derive_mult (fun x => x) (peval q)); [apply @is_derive_id|exact IH|].
      intros; apply Rmult_comm.
    + cbn. change one with 1. unfold plus, mult, zero; cbn.
      destruct q as [|b q]; cbn [pderiv_from peval pderiv]; [ring|].
      pose proof (pderiv_from_eval (b :: q) 1 x) as E. cbn [peval pderiv_from] in E. rewrite E. cbn [INR]. ring.
Qed.

Section Exact.
  Context (x0 h : R) (hpos : 0 < h) (n : nat) (n3 : (3 <= n)%nat).
  Let grid := on_grid (fun x => x) x0 h n.
  Lemma grid_form : exists rest, grid = x0 :: (x0 + h) :: rest.
  Proof.
    unfold grid, on_grid. destruct n as [|[|k]]; try lia. cbn [seq map INR]. eexists. f_equal; [ring|f_equal; ring].
  Qed.

  Theorem exact_poly p i : (i < n)%nat ->
    (length p <= (if Nat.eqb i 0 || Nat.eqb i (n - 1) then 2 else if Nat.eqb i 1 || Nat.eqb i (n - 2) then 3 else 5))%nat ->
    exists fp, num_derivative (on_grid (peval p) x0 h n) grid = Ok fp /\ length fp = n /\
      nth i fp 0 = peval (pderiv p) (x0 + INR i * h).
  Proof.
    intros Hi Hp. destruct grid_form as [rest Hg].
    assert (L : length (on_grid (peval p) x0 h n) = n) by apply on_grid_length.
    destruct (num_derivative_spec (on_grid (peval p) x0 h n) grid x0 (x0 + h) rest Hg ltac:(lra) ltac:(lia)) as (fp & E & Lf & N).
    exists fp. split; [exact E|]. split; [lia|]. rewrite N by lia. rewrite L.
    replace (x0 + h - x0) with h by ring.
    destruct (Nat.eqb_spec i 0) as [->|H0]; cbn [orb] in Hp.
    { rewrite !on_grid_nth by lia. destruct p as [|a [|b [|c p]]]; cbn in Hp; try lia; cbn; field; lra. }
    destruct (Nat.eqb_spec i (n - 1)) as [->|H1]; cbn [orb] in Hp.
    { rewrite !on_grid_nth by lia.
      replace (INR (n - 1 - 1)) with (INR (n - 1) - 1) by (rewrite (minus_INR (n - 1) 1) by lia; cbn; ring).
      destruct p as [|a [|b [|c p]]]; cbn [length] in Hp; try lia; cbn [peval pderiv pderiv_from INR]; field; lra. }
    destruct (Nat.eqb i 1 || Nat.eqb i (n - 2)) eqn:Eb.
    { unfold st2. rewrite !on_grid_nth by lia. rewrite plus_INR, minus_INR by lia.
      destruct p as [|a [|b [|c [|d p]]]]; cbn [length] in Hp; try lia; cbn [peval pderiv pderiv_from INR]; field; lra. }
    apply orb_false_iff in Eb. destruct Eb as [Eb1 Eb2]. apply Nat.eqb_neq in Eb1, Eb2.
    unfold st5. rewrite !on_grid_nth by lia.
    {
      rewrite !plus_INR, !minus_INR by lia.
      destruct p as [|a [|b [|c [|d [|e [|g p]]]]]]; cbn [length] in Hp; try lia; cbn [peval pderiv pderiv_from INR]; field; lra. }
  Qed.
End Exact.

Lemma num_derivative_linear f g x a b : length f = length g ->
  forall fp gp, num_derivative f x = Ok fp -> num_derivative g x = Ok gp ->
  exists rp, num_derivative (map (fun p => a * fst p + b * snd p) (combine f g)) x = Ok rp /\
    length rp = length f /\ forall i, (i < length f)%nat -> nth i rp 0 = a * nth i fp 0 + b * nth i gp 0.
Proof.
  intros Hl fp gp Hf Hg.
  destruct (Nat.lt_ge_cases (length x) 2) as [Hx|Hx].
  { rewrite (proj1 (num_derivative_errors f x) Hx) in Hf. discriminate. }
  destruct x as [|x0 [|x1 rest]]; cbn in Hx; try lia.
  destruct (Rlt_dec x0 x1) as [Hh|Hh].
  2:{ rewrite (proj1 (proj2 (num_derivative_errors f (x0 :: x1 :: rest))) x0 x1 rest eq_refl) in Hf by lra. discriminate. }
  destruct (Nat.lt_ge_cases (length f) 3) as [H3|H3].
  { rewrite (proj2 (proj2 (num_derivative_errors f (x0 :: x1 :: rest))) x0 x1 rest eq_refl Hh H3) in Hf. discriminate. }
  set (c := map (fun p => a * fst p + b * snd p) (combine f g)).
  assert (Lc : length c = length f) by (unfold c; rewrite map_length, combine_length; lia).
  assert (Nc : forall i, nth i c 0 = a * nth i f 0 + b * nth i g 0).
  { intros i. destruct (Nat.lt_ge_cases i (length f)) as [Hi|Hi].
    - unfold c. rewrite (nth_indep _ 0 (a * fst (0, 0) + b * snd (0, 0))) by (fold c; lia).
      rewrite (map_nth (fun p => a * fst p + b * snd p)), combine_nth by assumption. reflexivity.
    - rewrite !nth_overflow by lia. ring. }
  destruct (num_derivative_spec f _ x0 x1 rest eq_refl Hh H3) as (fp' & Ef & Lf & Nf).
  destruct (num_derivative_spec g _ x0 x1 rest eq_refl Hh ltac:(lia)) as (gp' & Eg & Lg & Ng).
  destruct (num_derivative_spec c _ x0 x1 rest eq_refl Hh ltac:(lia)) as (cp' & Ec & Lcp & Ncp).
  assert (fp' = fp) by congruence. assert (gp' = gp) by congruence. subst fp' gp'.
  exists cp'. split; [exact Ec|]. split; [lia|]. intros i Hi.
  rewrite Nf, Ng, Ncp by lia. rewrite Lc, <- Hl. unfold st2, st5. rewrite !Nc.
  destruct (Nat.eqb i 0); [unfold Rdiv; ring|]. destruct (Nat.eqb i (length f - 1)); [unfold Rdiv; ring|].
  destruct (Nat.eqb i 1 || Nat.eqb i (length f - 2)); unfold Rdiv; ring.
Qed.
