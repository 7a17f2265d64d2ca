From Coq Require Import Bool Reals List ZArith Lia Lra.
From Verif Require Import Base Thermo_Model Thermo_Spec Thermo_Proofs Geo_Model Geo_Spec.
Import ListNotations.
Open Scope R_scope.

(** ** argmax *)
Lemma xabs_nan x : xabs x = NaN <-> x = NaN.
Proof. destruct x; cbn; split; congruence. Qed.

Lemma xltb_irrefl x : xltb x x = false.
Proof. destruct x; cbn; auto. destruct (Rltb_spec r r); [lra|reflexivity]. Qed.

Lemma xltb_trans a b c : xltb a b = true -> xltb b c = true -> xltb a c = true.
Proof.
  destruct a, b, c; cbn; try congruence.
  destruct (Rltb_spec r r0), (Rltb_spec r0 r1), (Rltb_spec r r1); try congruence; lra.
Qed.

Lemma xltb_asym a b : xltb a b = true -> xltb b a = false.
Proof.
  intros H. destruct (xltb b a) eqn:E; [|reflexivity].
  rewrite <- (xltb_irrefl a). symmetry. eapply xltb_trans; eassumption.
Qed.

Lemma xle_lt_trans i b x : i <> NaN -> b <> NaN ->
  xltb b x = true -> xltb b i = false -> xltb i x = true.
Proof.
  destruct i, b, x; cbn; try congruence;
  repeat match goal with |- context [Rltb ?x ?y] => destruct (Rltb_spec x y) end; try congruence; lra.
Qed.

Lemma xltb_total a b : a <> NaN -> b <> NaN -> xltb a b = false -> xltb b a = false -> a = b.
Proof.
  destruct a, b; cbn; try congruence.
  destruct (Rltb_spec r r0), (Rltb_spec r0 r); try congruence. intros. f_equal. lra.
Qed.

Lemma xltb_le_trans a b c : a <> NaN -> b <> NaN -> c <> NaN ->
  xltb a b = true -> xltb c b = false -> xltb a c = true.
Proof.
  destruct a, b, c; cbn; try congruence;
  repeat match goal with |- context [Rltb ?x ?y] => destruct (Rltb_spec x y) end; try congruence; lra.
Qed.

Lemma largest_snoc_new pre x bi : largest_at pre bi -> nth bi pre NaN <> NaN -> x <> NaN ->
  xltb (xabs (nth bi pre NaN)) (xabs x) = true -> largest_at (pre ++ [x]) (length pre).
Proof.
  intros (Hbi & [[H _]|(Hall & Hmax & _)]) Hn Hx Hlt; [congruence|].
  assert (Hlen : length (pre ++ [x]) = Datatypes.S (length pre)) by (rewrite app_length; cbn; lia).
  assert (Hnth : forall i, (i < length pre)%nat -> nth i (pre ++ [x]) NaN = nth i pre NaN)
    by (intros i Hi; apply app_nth1; assumption).
  assert (Hlast : nth (length pre) (pre ++ [x]) NaN = x)
    by (rewrite app_nth2, Nat.sub_diag by lia; reflexivity).
  assert (Hi' : forall i, (i < length pre)%nat -> xltb (xabs (nth i pre NaN)) (xabs x) = true).
  { intros i Hi. apply (xle_lt_trans _ (xabs (nth bi pre NaN))); [|rewrite xabs_nan; congruence|exact Hlt|now apply Hmax].
    rewrite xabs_nan. now apply Hall. }
  split; [lia|right]. rewrite Hlast. split; [|split].
  - intros i Hi. destruct (Nat.eq_dec i (length pre)) as [->|Hne]; [congruence|].
    rewrite Hnth by lia. apply Hall. lia.
  - intros i Hi. destruct (Nat.eq_dec i (length pre)) as [->|Hne]; [rewrite Hlast; apply xltb_irrefl|].
    rewrite Hnth by lia. apply xltb_asym. apply Hi'. lia.
  - intros i Hi. rewrite Hnth by lia. now apply Hi'.
Qed.

Lemma largest_snoc_old pre x bi : largest_at pre bi -> nth bi pre NaN <> NaN -> x <> NaN ->
  xltb (xabs (nth bi pre NaN)) (xabs x) = false -> largest_at (pre ++ [x]) bi.
Proof.
  intros (Hbi & [[H _]|(Hall & Hmax & Hfirst)]) Hn Hx Hlt; [congruence|].
  assert (Hlen : length (pre ++ [x]) = Datatypes.S (length pre)) by (rewrite app_length; cbn; lia).
  assert (Hnth : forall i, (i < length pre)%nat -> nth i (pre ++ [x]) NaN = nth i pre NaN)
    by (intros i Hi; apply app_nth1; assumption).
  assert (Hlast : nth (length pre) (pre ++ [x]) NaN = x)
    by (rewrite app_nth2, Nat.sub_diag by lia; reflexivity).
  split; [lia|right]. rewrite (Hnth bi) by lia. split; [|split].
  - intros i Hi. destruct (Nat.eq_dec i (length pre)) as [->|Hne]; [congruence|].
    rewrite Hnth by lia. apply Hall. lia.
  - intros i Hi. destruct (Nat.eq_dec i (length pre)) as [->|Hne]; [now rewrite Hlast|].
    rewrite Hnth by lia. apply Hmax. lia.
  - intros i Hi. rewrite Hnth by lia. now apply Hfirst.
Qed.

Lemma argmax_aux_spec : forall (l pre : list xr) best bi,
  best = xabs (nth bi pre NaN) -> largest_at pre bi -> nth bi pre NaN <> NaN ->
  largest_at (pre ++ l) (argmax_aux best bi (length pre) l).
Proof.
  induction l as [|x l IH]; intros pre best bi Hb HL Hn; cbn [argmax_aux].
  - now rewrite app_nil_r.
  - assert (Hbn : best <> NaN) by (rewrite Hb, xabs_nan; assumption).
    assert (Epre : pre ++ x :: l = (pre ++ [x]) ++ l) by (now rewrite <- app_assoc).
    assert (Hlen : length (pre ++ [x]) = Datatypes.S (length pre)) by (rewrite app_length; cbn; lia).
    assert (Hbi : (bi < length pre)%nat) by (destruct HL; assumption).
    assert (Hstep : x <> NaN ->
       largest_at (pre ++ x :: l)
         (if xgtb (xabs x) best then argmax_aux (xabs x) (length pre) (Datatypes.S (length pre)) l
          else argmax_aux best bi (Datatypes.S (length pre)) l)).
    { intros Hx. rewrite Epre, <- Hlen. unfold xgtb. destruct (xltb best (xabs x)) eqn:Eg.
      - apply IH.
        + now rewrite app_nth2, Nat.sub_diag by lia.
        + eapply largest_snoc_new; eauto. now rewrite <- Hb.
        + rewrite app_nth2, Nat.sub_diag by lia. exact Hx.
      - apply IH.
        + now rewrite app_nth1 by lia.
        + eapply largest_snoc_old; eauto. now rewrite <- Hb.
        + now rewrite app_nth1 by lia. }
    destruct x as [r| | |].
    4:{ assert (E : argmax_aux best bi (length pre) (NaN :: l) = length pre)
          by (destruct best; [reflexivity|reflexivity|reflexivity|congruence]).
        cbn [argmax_aux] in E. rewrite E. destruct HL as (_ & [[H _]|(Hall & _)]); [congruence|].
        split; [rewrite app_length; cbn; lia|]. left.
        rewrite app_nth2, Nat.sub_diag by lia. split; [reflexivity|].
        intros i Hi. rewrite app_nth1 by lia. apply Hall; lia. }
    all: destruct best; try congruence; apply Hstep; discriminate.
Qed.

Lemma argmax_abs_spec l : l <> [] -> largest_at l (argmax_abs l).
Proof.
  destruct l as [|x l]; [congruence|]. intros _. unfold argmax_abs.
  destruct (xabs x) eqn:Ex.
  4:{ apply (proj1 (xabs_nan x)) in Ex. subst. assert (E : argmax_aux NaN 0 1 l = 0%nat) by (destruct l; reflexivity).
      rewrite E. split; [cbn; lia|]. left. split; [reflexivity|]. intros i Hi; lia. }
  all: rewrite <- Ex; change (x :: l) with ([x] ++ l); change 1%nat with (length [x]);
    apply argmax_aux_spec; [reflexivity| |cbn; intros ->; discriminate];
    split; [cbn; lia|]; right;
    (split; [intros [|[|i]] Hi; cbn in *; try lia; intros ->; discriminate|]);
    (split; [intros [|[|i]] Hi; cbn in *; try lia; apply xltb_irrefl|intros i Hi; lia]).
Qed.

Lemma largest_zero l j : largest_at l j -> nth j l NaN = Fin 0 ->
  forall i, (i < length l)%nat -> nth i l NaN = Fin 0.
Proof.
  intros (Hj & [[H _]|(Hall & Hmax & _)]) E i Hi; [congruence|].
  specialize (Hmax i Hi). specialize (Hall i Hi). rewrite E in Hmax.
  cbn [xabs] in Hmax. rewrite Rabs_R0 in Hmax.
  destruct (nth i l NaN) as [r| | |]; cbn in Hmax; try congruence.
  destruct (Rltb_spec 0 (Rabs r)) as [|H0]; [discriminate|].
  f_equal. destruct (Req_dec r 0) as [|Hr]; [assumption|].
  apply Rabs_pos_lt in Hr. lra.
Qed.

Lemma largest_unique l j1 j2 : largest_at l j1 -> largest_at l j2 -> j1 = j2.
Proof.
  intros (H1 & C1) (H2 & C2).
  destruct C1 as [[N1 F1]|(A1 & M1 & F1)], C2 as [[N2 F2]|(A2 & M2 & F2)].
  - destruct (lt_eq_lt_dec j1 j2) as [[H|H]|H]; auto; exfalso; [apply (F2 j1 H N1)|apply (F1 j2 H N2)].
  - exfalso. apply (A2 j1 H1 N1).
  - exfalso. apply (A1 j2 H2 N2).
  - destruct (lt_eq_lt_dec j1 j2) as [[H|H]|H]; auto; exfalso.
    + specialize (F2 j1 H). specialize (M1 j2 H2). congruence.
    + specialize (F1 j2 H). specialize (M2 j1 H1). congruence.
Qed.

(** ** the loop *)
Definition acc_after (acc : list xr) (ts : list (list xr)) : list xr :=
  fold_left (fun a t => zipx xadd a (map (xmul (Fin 2)) t)) ts acc.

Lemma zipx_length f a b : length a = length b -> length (zipx f a b) = length a.
Proof. intros H. unfold zipx. rewrite map_length, combine_length. lia. Qed.

Lemma zipx_nth f a b i : length a = length b -> (i < length a)%nat ->
  nth i (zipx f a b) NaN = f (nth i a NaN) (nth i b NaN).
Proof.
  revert b i. induction a as [|x a IH]; intros [|y b] [|i] H Hi; cbn in *; try lia; auto.
  apply IH; lia.
Qed.

Lemma acc_after_length acc ts :
  Forall (fun t => length t = length acc) ts -> length (acc_after acc ts) = length acc.
Proof.
  unfold acc_after. revert acc. induction ts as [|t ts IH]; intros acc H; [reflexivity|].
  inversion H as [|? ? H1 H2]; subst. cbn [fold_left].
  assert (L : length (zipx xadd acc (map (xmul (Fin 2)) t)) = length acc) by (apply zipx_length; rewrite map_length; auto).
  rewrite IH; [exact L|]. eapply Forall_impl; [|exact H2]. intros a Ha. cbn in Ha. congruence.
Qed.

Lemma nth_map_xmul i l c : (i < length l)%nat -> nth i (map (xmul (Fin c)) l) NaN = xmul (Fin c) (nth i l NaN).
Proof.
  revert i. induction l as [|x l IH]; intros [|i] H; cbn in *; try lia; auto. apply IH; lia.
Qed.

Lemma acc_after_nth acc ts i :
  Forall (fun t => length t = length acc) ts -> (i < length acc)%nat ->
  nth i (acc_after acc ts) NaN = weighted (nth i acc NaN) (column i ts).
Proof.
  unfold acc_after, weighted, column. revert acc. induction ts as [|t ts IH]; intros acc H Hi; [reflexivity|].
  inversion H as [|? ? H1 H2]; subst. cbn [fold_left map].
  assert (L : length (zipx xadd acc (map (xmul (Fin 2)) t)) = length acc) by (apply zipx_length; rewrite map_length; auto).
  rewrite IH.
  - rewrite zipx_nth by (rewrite ?map_length; auto). rewrite nth_map_xmul by lia. reflexivity.
  - eapply Forall_impl; [|exact H2]. intros a Ha. cbn in Ha. congruence.
  - lia.
Qed.

Section Loop.
  Context {S : Type} (term : nat -> list R -> M S (list xr)) (precision : R).

  Definition zero_now (a : list xr) : Prop := exists j, largest_at a j /\ nth j a NaN = Fin 0.
  Definition small_step (a b : list xr) : Prop :=
    exists j, largest_at a j /\ rel_close (nth j b NaN) (nth j a NaN) (precision / 10).

  Lemma mloop_spec : forall n m ks acc s s' r,
    acc <> [] ->
    mloop term precision n m ks acc s = (s', Ok r) ->
    exists ts, (length ts <= n)%nat /\ runs (fun m => term m ks) s m s' ts /\
      Forall (fun t => length t = length acc) ts /\ r = acc_after acc ts /\
      (* no earlier stop *)
      (forall k, (k < length ts)%nat ->
         ~ zero_now (acc_after acc (firstn k ts)) /\
         ((0 < k)%nat -> ~ small_step (acc_after acc (firstn (k - 1) ts)) (acc_after acc (firstn k ts)))) /\
      ((length ts < n)%nat ->
         zero_now r \/
         ((0 < length ts)%nat /\ small_step (acc_after acc (firstn (length ts - 1) ts)) r)).
  Proof.
    induction n as [|n IH]; intros m ks acc s s' r Hne; cbn [mloop].
    - intros [= <- <-]. exists []. split; [cbn; lia|]. split; [constructor|]. split; [constructor|].
      split; [reflexivity|]. split; cbn; intros; lia.
    - destruct (Nat.eqb_spec (length acc) 0) as [E0|E0]; [discriminate|].
      pose proof (argmax_abs_spec acc Hne) as HA.
      unfold at_. destruct (xeqb (nth (argmax_abs acc) acc NaN) (Fin 0)) eqn:Ez.
      + intros [= <- <-]. exists []. split; [cbn; lia|]. split; [constructor|]. split; [constructor|].
        split; [reflexivity|]. split; [cbn; intros; lia|]. intros _. left.
        exists (argmax_abs acc). split; [assumption|].
        destruct (nth (argmax_abs acc) acc NaN); cbn in Ez; try discriminate.
        destruct (Reqb_spec r 0); [now subst|discriminate].
      + assert (Hnz : ~ zero_now acc).
        { intros (j & Hj & Ej). rewrite (largest_unique _ _ _ Hj HA) in Ej. rewrite Ej in Ez. cbn in Ez.
          destruct (Reqb_spec 0 0); [discriminate|lra]. }
        unfold mbind. destruct (term m ks s) as [s1 [t|e]] eqn:Et; [|discriminate].
        destruct (Nat.eqb_spec (length t) (length acc)) as [El|]; [|discriminate].
        set (new := zipx xadd acc (map (xmul (Fin 2)) t)).
        assert (Lnew : length new = length acc) by (apply zipx_length; rewrite map_length; auto).
        assert (Hnew : new <> []) by (intros E; rewrite E in Lnew; cbn in Lnew; lia).
        match goal with |- context [xltb ?r (Fin ?p)] => destruct (xltb r (Fin p)) eqn:Er end.
        * intros [= <- <-]. exists [t]. split; [cbn; lia|]. split; [econstructor; [exact Et|constructor]|].
          split; [constructor; auto|]. split; [reflexivity|]. split.
          -- intros k Hk. cbn in Hk. replace k with 0%nat by lia. cbn [firstn]. split; [exact Hnz|lia].
          -- intros _. right. split; [cbn; lia|]. cbn [length Nat.sub firstn].
             exists (argmax_abs acc). split; [assumption|]. exact Er.
        * intros Hrec. destruct (IH _ _ _ _ _ _ Hnew Hrec) as (ts & L1 & L2 & L3 & L4 & L5 & L6).
          exists (t :: ts). split; [cbn; lia|]. split; [econstructor; eassumption|].
          split. { constructor; [assumption|]. eapply Forall_impl; [|exact L3]. cbn. intros; congruence. }
          split; [exact L4|]. split.
          -- intros k Hk. cbn [length] in Hk. destruct k as [|k].
             ++ cbn [firstn]. split; [exact Hnz|lia].
             ++ destruct (L5 k ltac:(lia)) as [Z1 Z2]. cbn [firstn Nat.sub]. split; [exact Z1|]. intros _.
                rewrite Nat.sub_0_r. destruct k as [|k].
                ** cbn. intros (j & Hj & Ej). rewrite (largest_unique _ _ _ Hj HA) in Ej.
                   unfold rel_close in Ej. fold new in Ej. congruence.
                ** specialize (Z2 ltac:(lia)). cbn [Nat.sub] in Z2. rewrite Nat.sub_0_r in Z2. exact Z2.
          -- cbn [length]. intros HL. specialize (L6 ltac:(lia)). destruct L6 as [L6|[L6 L7]]; [left; exact L6|].
             right. split; [lia|]. destruct (length ts) as [|k] eqn:Ets; [lia|]. cbn [Nat.sub] in *.
             rewrite Nat.sub_0_r in *. cbn [firstn]. exact L7.
  Qed.

  (** the only exceptions: a term raises, or the lengths differ *)
  Lemma mloop_err : forall n m ks acc s s' e,
    acc <> [] ->
    mloop term precision n m ks acc s = (s', Err e) ->
    exists ts s1, (length ts < n)%nat /\ runs (fun m => term m ks) s m s1 ts /\
      (term (m + length ts)%nat ks s1 = (s', Err e) \/
       (e = ValueError /\ exists t, term (m + length ts)%nat ks s1 = (s', Ok t) /\ length t <> length acc)).
  Proof.
    induction n as [|n IH]; intros m ks acc s s' e Hne; cbn [mloop]; [discriminate|].
    destruct (Nat.eqb_spec (length acc) 0) as [E0|E0]; [destruct acc; [congruence|discriminate]|].
    unfold at_. destruct (xeqb (nth (argmax_abs acc) acc NaN) (Fin 0)); [discriminate|].
    unfold mbind. destruct (term m ks s) as [s1 [t|e1]] eqn:Et.
    - destruct (Nat.eqb_spec (length t) (length acc)) as [El|Enl].
      + set (new := zipx xadd acc (map (xmul (Fin 2)) t)).
        assert (Lnew : length new = length acc) by (apply zipx_length; rewrite map_length; auto).
        assert (Hnew : new <> []) by (intros E; rewrite E in Lnew; cbn in Lnew; lia).
        match goal with |- context [xltb ?r (Fin ?p)] => destruct (xltb r (Fin p)) end; [discriminate|].
        intros Hrec. destruct (IH _ _ _ _ _ _ Hnew Hrec) as (ts & s2 & L1 & L2 & L3).
        exists (t :: ts), s2. split; [cbn; lia|]. split; [econstructor; eassumption|].
        cbn [length]. replace (m + Datatypes.S (length ts))%nat with (Datatypes.S m + length ts)%nat by lia.
        rewrite Lnew in L3. exact L3.
      + intros [= <- <-]. exists [], s. split; [cbn; lia|]. split; [constructor|].
        rewrite Nat.add_0_r. right. eauto.
    - intros [= <- <-]. exists [], s. split; [cbn; lia|]. split; [constructor|].
      rewrite Nat.add_0_r. left. assumption.
  Qed.
End Loop.

(** ** mSumme as a whole *)
Section MSumme.
  Context {S : Type} (term : nat -> list R -> M S (list xr)) (term0 : nat -> M S xr).
  Context (lmax : nat) (precision : R).

  Lemma partial_acc t0 ts M : Forall (fun t => length t = length t0) ts ->
    partial t0 ts M = acc_after t0 (firstn M ts).
  Proof.
    intros H. assert (H' : Forall (fun t => length t = length t0) (firstn M ts)).
    { apply Forall_forall. intros x Hx. rewrite Forall_forall in H. apply H.
      rewrite <- (firstn_skipn M ts). apply in_or_app. now left. }
    unfold partial. apply nth_ext with (d := NaN) (d' := NaN).
    - rewrite map_length, seq_length. symmetry. now apply acc_after_length.
    - intros i Hi. rewrite map_length, seq_length in Hi.
      rewrite acc_after_nth by assumption.
      rewrite (nth_indep _ NaN (weighted (nth 0 t0 NaN) (column 0 (firstn M ts)))) by (rewrite map_length, seq_length; lia).
      rewrite (map_nth (fun i => weighted (nth i t0 NaN) (column i (firstn M ts)))), seq_nth by lia. reflexivity.
  Qed.

  Lemma zero_now_all a : a <> [] -> (zero_now a <-> forall i, (i < length a)%nat -> nth i a NaN = Fin 0).
  Proof.
    intros Hne. split.
    - intros (j & Hj & Ej). now apply (largest_zero a j).
    - intros H. pose proof (argmax_abs_spec a Hne) as HA. exists (argmax_abs a). split; [assumption|].
      apply H. now destruct HA.
  Qed.

  Theorem mSumme_spec ks k0 s s' r :
    hd_error ks = Some k0 -> k0 <> 0 ->
    (forall m s s1 t, term m ks s = (s1, Ok t) -> t <> []) ->
    mSumme term term0 lmax precision ks s = (s', Ok r) ->
    exists t0 ts,
      let M := length ts in
      (M <= lmax)%nat /\ runs (fun m => term m ks) s 0 s' (t0 :: ts) /\
      Forall (fun t => length t = length t0) ts /\
      r = partial t0 ts M /\
      (forall j, (j < M)%nat ->
         (exists i, (i < length t0)%nat /\ nth i (partial t0 ts j) NaN <> Fin 0) /\
         ((0 < j)%nat -> forall i, largest_at (partial t0 ts (j - 1)) i ->
            ~ rel_close (nth i (partial t0 ts j) NaN) (nth i (partial t0 ts (j - 1)) NaN) (precision / 10))) /\
      ((M < lmax)%nat ->
         (forall i, (i < length t0)%nat -> nth i r NaN = Fin 0) \/
         ((0 < M)%nat /\ exists i, largest_at (partial t0 ts (M - 1)) i /\
            rel_close (nth i r NaN) (nth i (partial t0 ts (M - 1)) NaN) (precision / 10))).
  Proof.
    intros Hhd Hk0 Hlen. destruct ks as [|k rest]; [discriminate|]. injection Hhd as ->.
    cbn [mSumme]. destruct (Reqb_spec k0 0); [contradiction|].
    unfold mbind. destruct (term 0 (k0 :: rest) s) as [s1 [t0|e]] eqn:E0; [|discriminate].
    intros Hl. assert (Hne : t0 <> []) by (eapply Hlen; exact E0).
    destruct (mloop_spec term precision _ _ _ _ _ _ _ Hne Hl) as (ts & L1 & L2 & L3 & L4 & L5 & L6).
    assert (HF : forall n, Forall (fun t => length t = length t0) (firstn n ts)).
    { intros n0. apply Forall_forall. intros x Hx. rewrite Forall_forall in L3. apply L3.
      rewrite <- (firstn_skipn n0 ts). apply in_or_app. now left. }
    assert (Hl0 : forall n, length (acc_after t0 (firstn n ts)) = length t0) by (intros; now apply acc_after_length).
    assert (Hnn : forall n, acc_after t0 (firstn n ts) <> []).
    { intros n0 E. apply (f_equal (@length _)) in E. rewrite Hl0 in E. destruct t0; [congruence|discriminate]. }
    assert (Hr : r = acc_after t0 (firstn (length ts) ts)) by (now rewrite firstn_all).
    exists t0, ts. cbn zeta. split; [assumption|]. split; [econstructor; eassumption|].
    split; [assumption|]. split; [now rewrite partial_acc|]. split.
    - intros j Hj. destruct (L5 j Hj) as [Z1 Z2]. rewrite !partial_acc by assumption. split.
      + rewrite zero_now_all in Z1 by apply Hnn. rewrite Hl0 in Z1.
        destruct (existsb (fun i => negb (xeqb (nth i (acc_after t0 (firstn j ts)) NaN) (Fin 0))) (seq 0 (length t0))) eqn:Ex.
        * apply existsb_exists in Ex. destruct Ex as (i & Hi & Ei). apply in_seq in Hi. exists i. split; [lia|].
          intros E. rewrite E in Ei. cbn in Ei. destruct (Reqb_spec 0 0); [discriminate|lra].
        * exfalso. apply Z1. intros i Hi.
          assert (Hf : negb (xeqb (nth i (acc_after t0 (firstn j ts)) NaN) (Fin 0)) = false).
          { destruct (negb _) eqn:En; [|reflexivity]. rewrite <- Ex. symmetry. apply existsb_exists.
            exists i. split; [apply in_seq; lia|assumption]. }
          apply negb_false_iff in Hf. destruct (nth i (acc_after t0 (firstn j ts)) NaN); cbn in Hf; try discriminate.
          destruct (Reqb_spec r0 0); [now subst|discriminate].
      + intros H0 i Hi Hc. apply (Z2 H0). exists i. split; assumption.
    - intros HM. destruct (L6 HM) as [Z|[Z1 (i & Z2 & Z3)]].
      + left. rewrite zero_now_all in Z by (rewrite Hr; apply Hnn).
        intros i Hi. apply Z. rewrite Hr, Hl0. assumption.
      + right. split; [assumption|]. exists i. rewrite partial_acc by assumption. split; assumption.
  Qed.

  Theorem mSumme_errors ks k0 s s' e :
    hd_error ks = Some k0 -> k0 <> 0 ->
    (forall m s s1 t, term m ks s = (s1, Ok t) -> length t = length ks) ->
    mSumme term term0 lmax precision ks s = (s', Err e) ->
    exists m s1, (m <= lmax)%nat /\ term m ks s1 = (s', Err e).
  Proof.
    intros Hhd Hk0 Hlen. destruct ks as [|k rest]; [discriminate|]. injection Hhd as ->.
    cbn [mSumme]. destruct (Reqb_spec k0 0); [contradiction|].
    unfold mbind. destruct (term 0 (k0 :: rest) s) as [s1 [t0|e0]] eqn:E0.
    - intros Hl. pose proof (Hlen _ _ _ _ E0) as L0.
      assert (Hne : t0 <> []) by (intros ->; discriminate).
      destruct (mloop_err term precision _ _ _ _ _ _ _ Hne Hl) as (ts & s2 & L1 & L2 & [L3|(_ & t & L3 & L4)]).
      + exists (1 + length ts)%nat, s2. split; [lia|assumption].
      + exfalso. apply L4. rewrite (Hlen _ _ _ _ L3), L0. reflexivity.
    - intros [= <- <-]. exists 0%nat, s. split; [lia|assumption].
  Qed.

  (** ** zero frequency *)
  Lemma mloop_k0_spec : forall n m acc s s' r,
    mloop_k0 term0 precision n m acc s = (s', Ok r) ->
    exists ts, (length ts <= n)%nat /\ runs term0 s m s' ts /\ r = weighted acc ts /\
      (forall j, (0 < j < length ts)%nat ->
         ~ rel_close (weighted acc (firstn (j - 1) ts)) (weighted acc (firstn j ts)) (precision / 10)) /\
      ((length ts < n)%nat -> (0 < length ts)%nat /\
         rel_close (weighted acc (firstn (length ts - 1) ts)) r (precision / 10)).
  Proof.
    induction n as [|n IH]; intros m acc s s' r; cbn [mloop_k0].
    - intros [= <- <-]. exists []. split; [cbn; lia|]. split; [constructor|]. split; [reflexivity|].
      split; cbn; intros; lia.
    - unfold mbind. destruct (term0 m s) as [s1 [t|e]] eqn:Et; [|discriminate]. cbn zeta.
      match goal with |- context [xltb ?r (Fin ?p)] => destruct (xltb r (Fin p)) eqn:Er end.
      + intros [= <- <-]. exists [t]. split; [cbn; lia|]. split; [econstructor; [eassumption|constructor]|].
        split; [reflexivity|]. split; [cbn; intros; lia|]. intros _. split; [cbn; lia|]. exact Er.
      + intros Hrec. destruct (IH _ _ _ _ _ Hrec) as (ts & L1 & L2 & L3 & L4 & L5).
        exists (t :: ts). split; [cbn; lia|]. split; [econstructor; eassumption|].
        split; [exact L3|]. split.
        * intros j Hj. cbn [length] in Hj. destruct j as [|[|j]]; [lia| |].
          -- change (~ xltb (xabs (xsub (xabs (xdiv acc (xadd acc (xmul (Fin 2) t)))) (Fin 1))) (Fin (precision / 10)) = true).
             rewrite Er. discriminate.
          -- specialize (L4 (Datatypes.S j) ltac:(lia)). cbn [Nat.sub firstn] in *.
             rewrite Nat.sub_0_r in L4. exact L4.
        * cbn [length]. intros HL. destruct (L5 ltac:(lia)) as [L6 L7]. split; [lia|].
          destruct (length ts) as [|k] eqn:Ets; [lia|]. cbn [Nat.sub firstn] in *. rewrite Nat.sub_0_r in *. exact L7.
  Qed.

  Theorem mSumme_k0_spec s s' r :
    mSumme_k0 term0 lmax precision s = (s', Ok r) ->
    exists t0 ts, (length ts <= lmax)%nat /\ runs term0 s 0 s' (t0 :: ts) /\
      r = [weighted t0 ts] /\
      (forall j, (0 < j < length ts)%nat ->
         ~ rel_close (weighted t0 (firstn (j - 1) ts)) (weighted t0 (firstn j ts)) (precision / 10)) /\
      ((length ts < lmax)%nat -> (0 < length ts)%nat /\
         rel_close (weighted t0 (firstn (length ts - 1) ts)) (weighted t0 ts) (precision / 10)).
  Proof.
    unfold mSumme_k0, mbind. destruct (term0 0 s) as [s1 [t0|e]] eqn:E; [|discriminate].
    destruct (mloop_k0 term0 precision lmax 1 t0 s1) as [s2 [x|e]] eqn:El; [|discriminate].
    intros [= <- <-]. destruct (mloop_k0_spec _ _ _ _ _ _ El) as (ts & L1 & L2 & L3 & L4 & L5).
    exists t0, ts. split; [assumption|]. split; [econstructor; eassumption|]. split; [now rewrite L3|].
    split; [assumption|]. rewrite <- L3. assumption.
  Qed.

  (** ** C10 *)
  Theorem mSumme_zero_prefix rest s :
    mSumme term term0 lmax precision (0 :: rest) s =
    match mSumme_k0 term0 lmax precision s with
    | (s1, Err e) => (s1, Err e)
    | (s1, Ok z) =>
        match rest with
        | [] => (s1, Ok z)
        | _ => match mSumme term term0 lmax precision rest s1 with
               | (s2, Ok r) => (s2, Ok (z ++ r))
               | (s2, Err e) => (s2, Err e)
               end
        end
    end.
  Proof.
    cbn [mSumme]. destruct (Reqb_spec 0 0) as [_|]; [|lra]. unfold mbind at 1.
    destruct (mSumme_k0 term0 lmax precision s) as [s1 [z|e]]; [|reflexivity].
    destruct rest; reflexivity.
  Qed.

  Theorem mSumme_empty s : mSumme term term0 lmax precision [] s = (s, Err IndexError).
  Proof. reflexivity. Qed.

  (** ** trace evaluation *)
  Context (tr : nat -> list R -> M S (list xr)).
  Lemma rloop_spec : forall n m ks acc s s' r,
    rloop precision tr n m ks acc s = (s', Ok r) ->
    exists ts, (length ts <= n)%nat /\ runs (fun m => tr m ks) s m s' ts /\
      Forall (fun t => length t = length acc) ts /\ r = acc_after acc ts /\
      ((length ts < n)%nat -> (0 < length ts)%nat /\
        exists i, largest_at r i /\
          xltb (xabs (xdiv (nth i r NaN) (nth i (acc_after acc (firstn (length ts - 1) ts)) NaN))) (Fin precision) = true).
  Proof.
    induction n as [|n IH]; intros m ks acc s s' r; cbn [rloop].
    - intros [= <- <-]. exists []. split; [cbn; lia|]. split; [constructor|]. split; [constructor|].
      split; [reflexivity|]. cbn; intros; lia.
    - unfold mbind. destruct (tr m ks s) as [s1 [t|e]] eqn:Et; [|discriminate].
      destruct (Nat.eqb_spec (length acc) 0) as [|Hacc]; [discriminate|].
      destruct (Nat.eqb_spec (length t) (length acc)) as [El|]; [|discriminate]. cbn zeta.
      set (new := zipx xadd acc (map (xmul (Fin 2)) t)).
      assert (Lnew : length new = length acc) by (apply zipx_length; rewrite map_length; auto).
      assert (Hnew : new <> []) by (intros E; rewrite E in Lnew; cbn in Lnew; lia).
      match goal with |- context [xltb ?r (Fin ?p)] => destruct (xltb r (Fin p)) eqn:Er end.
      + intros [= <- <-]. exists [t]. split; [cbn; lia|]. split; [econstructor; [eassumption|constructor]|].
        split; [constructor; auto|]. split; [reflexivity|]. intros _. split; [cbn; lia|].
        exists (argmax_abs new). split; [now apply argmax_abs_spec|]. exact Er.
      + intros Hrec. destruct (IH _ _ _ _ _ _ Hrec) as (ts & L1 & L2 & L3 & L4 & L5).
        exists (t :: ts). split; [cbn; lia|]. split; [econstructor; eassumption|].
        split. { constructor; [assumption|]. eapply Forall_impl; [|exact L3]. cbn. intros; congruence. }
        split; [exact L4|]. cbn [length]. intros HL. destruct (L5 ltac:(lia)) as [L6 L7]. split; [lia|].
        destruct (length ts) as [|k] eqn:Ets; [lia|]. cbn [Nat.sub firstn] in *. rewrite Nat.sub_0_r in *. exact L7.
  Qed.
End MSumme.

(** ** C11 *)
Lemma same_ks_spec a b : same_ks a b = true <-> a = b.
Proof.
  revert b. induction a as [|x a IH]; intros [|y b]; cbn; split; try congruence.
  - destruct (Reqb_spec x y); cbn; [|discriminate]. intros H. apply IH in H. congruence.
  - intros [= -> ->]. destruct (Reqb_spec y y); [|congruence]. cbn. now apply IH.
Qed.

Section CacheP.
  Context {A B V : Type} (mieA_of : list R -> list A) (mieB_of : list R -> list B) (trans : nat -> list R -> V).
  Notation req := (roundTrip_elements mieA_of mieB_of trans).
  Notation run_reqs := (after_requests mieA_of mieB_of trans).
  Definition cache_ok (s : mcache) : Prop :=
    match c_K s with None => True | Some k => c_A s = mieA_of k /\ c_B s = mieB_of k end.

  Lemma req_ok m k s : cache_ok s -> cache_ok (fst (req m k s)) /\ c_K (fst (req m k s)) = Some k.
  Proof.
    unfold roundTrip_elements, cache_ok. intros H.
    destruct (c_K s) as [k0|] eqn:E.
    - destruct (same_ks k0 k) eqn:Es; cbn [fst].
      + apply same_ks_spec in Es. subst. rewrite E. auto.
      + cbn. auto.
    - cbn. auto.
  Qed.

  Lemma run_ok h s : cache_ok s -> cache_ok (run_reqs h s).
  Proof.
    revert s. induction h as [|q h IH]; intros s H; [assumption|]. cbn. apply IH. now apply req_ok.
  Qed.

  Lemma run_last h q : c_K (run_reqs (h ++ [q]) empty_cache) = Some (snd q).
  Proof.
    unfold after_requests. rewrite fold_left_app. cbn. apply req_ok. apply run_ok. exact I.
  Qed.

  (** what a request returns after an arbitrary history *)
  Theorem cache_result h m k :
    snd (req m k (run_reqs h empty_cache)) =
    match rev h with
    | (_, k') :: _ => if same_ks k' k
                      then (skipn (Nat.max 1 m - 1) (mieA_of k), skipn (Nat.max 1 m - 1) (mieB_of k), trans m k)
                      else (mieA_of k, mieB_of k, trans m k)
    | [] => (mieA_of k, mieB_of k, trans m k)
    end.
  Proof.
    destruct h as [|q h _] using rev_ind; [reflexivity|].
    rewrite rev_app_distr. cbn [rev app]. destruct q as [m' k'].
    pose proof (run_last h (m', k')) as HK. cbn [snd] in HK.
    assert (Hok : cache_ok (run_reqs (h ++ [(m', k')]) empty_cache)) by (apply run_ok; exact I).
    unfold cache_ok in Hok. rewrite HK in Hok. destruct Hok as [HA HB].
    unfold roundTrip_elements. rewrite HK. destruct (same_ks k' k) eqn:E.
    - apply same_ks_spec in E. subst k'. cbn [snd]. now rewrite HA, HB.
    - reflexivity.
  Qed.

  Theorem cache_transparent_small_m h m k : (m <= 1)%nat ->
    snd (req m k (run_reqs h empty_cache)) = (mieA_of k, mieB_of k, trans m k).
  Proof.
    intros H. rewrite cache_result. replace (Nat.max 1 m - 1)%nat with 0%nat by lia.
    destruct (rev h) as [|[m' k'] r]; [reflexivity|]. destruct (same_ks k' k); reflexivity.
  Qed.

  Theorem cache_after_same_k h m m' k :
    snd (req m k (run_reqs (h ++ [(m', k)]) empty_cache)) =
    (skipn (m - 1) (mieA_of k), skipn (m - 1) (mieB_of k), trans m k).
  Proof.
    rewrite cache_result, rev_app_distr. cbn [rev app].
    replace (same_ks k k) with true by (symmetry; now apply same_ks_spec).
    destruct m as [|m]; [reflexivity|]. replace (Nat.max 1 (Datatypes.S m) - 1)%nat with (Datatypes.S m - 1)%nat by lia.
    reflexivity.
  Qed.

  Theorem cache_wrong h m k a : (2 <= m)%nat ->
    length (mieA_of k) = a -> (2 <= a)%nat ->
    (forall q, hd_error (rev h) = Some q -> snd q <> k) ->
    length (fst (fst (snd (req m k (run_reqs h empty_cache))))) = a /\
    length (fst (fst (snd (req m k (run_reqs (h ++ [(m, k)]) empty_cache))))) = (a - (m - 1))%nat.
  Proof.
    intros Hm Ha Ha1 Hh. split.
    - rewrite cache_result. destruct (rev h) as [|[m' k'] r] eqn:E; [exact Ha|].
      specialize (Hh (m', k') eq_refl). cbn in Hh.
      destruct (same_ks k' k) eqn:Es; [apply same_ks_spec in Es; contradiction|exact Ha].
    - rewrite cache_after_same_k. cbn. now rewrite skipn_length, Ha.
  Qed.

  (** ** C12 *)
  Context (a0 : nat -> A) (b0 : nat -> B) (lmax lssmax : nat) (trans0 : nat -> V).
  Notation mieA0 := (per_l a0 lmax).
  Notation mieB0 := (per_l b0 lssmax).
  Notation req0 := (roundTrip_elements_k0 mieA0 mieB0 trans0).
  Notation run0 := (after_requests_k0 mieA0 mieB0 trans0).

  Lemma skipn_map_seq {X} (f : nat -> X) n lo len : skipn n (map f (seq lo len)) = map f (seq (lo + n) (len - n)).
  Proof.
    revert lo len. induction n as [|n IH]; intros lo len; cbn [skipn].
    - now rewrite Nat.add_0_r, Nat.sub_0_r.
    - destruct len as [|len]; [reflexivity|]. cbn [seq map]. rewrite IH. do 2 f_equal. lia.
  Qed.

  Lemma run0_first m0 h :
    run0 (m0 :: h) empty_zcache = {| z_A := Some (mieA0 (Nat.max 1 m0)); z_B := Some (mieB0 (Nat.max 1 m0)) |}.
  Proof.
    unfold after_requests_k0. cbn [fold_left]. cbn [roundTrip_elements_k0 empty_zcache z_A z_B fst].
    induction h as [|m h IH]; [reflexivity|]. cbn [fold_left]. exact IH.
  Qed.

  Theorem k0_result m0 h m :
    snd (req0 m (run0 (m0 :: h) empty_zcache)) =
    (map a0 (seq (Nat.max 1 m0 + Nat.max 1 m - 1) (lmax + 2 - Nat.max 1 m0 - Nat.max 1 m)),
     map b0 (seq (Nat.max 1 m0 + Nat.max 1 m - 1) (lssmax + 2 - Nat.max 1 m0 - Nat.max 1 m)), trans0 m).
  Proof.
    rewrite run0_first. unfold roundTrip_elements_k0. cbn [z_A z_B snd].
    unfold per_l. rewrite !skipn_map_seq.
    replace (Nat.max 1 m0 + (Nat.max 1 m - 1))%nat with (Nat.max 1 m0 + Nat.max 1 m - 1)%nat by lia.
    replace (lmax + 1 - Nat.max 1 m0 - (Nat.max 1 m - 1))%nat with (lmax + 2 - Nat.max 1 m0 - Nat.max 1 m)%nat by lia.
    replace (lssmax + 1 - Nat.max 1 m0 - (Nat.max 1 m - 1))%nat with (lssmax + 2 - Nat.max 1 m0 - Nat.max 1 m)%nat by lia.
    reflexivity.
  Qed.

  Theorem k0_fresh m : snd (req0 m empty_zcache) =
    (map a0 (seq (Nat.max 1 m) (lmax + 1 - Nat.max 1 m)), map b0 (seq (Nat.max 1 m) (lssmax + 1 - Nat.max 1 m)), trans0 m).
  Proof. reflexivity. Qed.

  Theorem k0_transparent h m : (forall m0, hd_error h = Some m0 -> (m0 <= 1)%nat) ->
    snd (req0 m (run0 h empty_zcache)) = snd (req0 m empty_zcache).
  Proof.
    intros H. destruct h as [|m0 h]; [reflexivity|]. specialize (H m0 eq_refl).
    rewrite k0_result, k0_fresh. replace (Nat.max 1 m0) with 1%nat by lia.
    replace (1 + Nat.max 1 m - 1)%nat with (Nat.max 1 m) by lia.
    replace (lmax + 2 - 1 - Nat.max 1 m)%nat with (lmax + 1 - Nat.max 1 m)%nat by lia.
    replace (lssmax + 2 - 1 - Nat.max 1 m)%nat with (lssmax + 1 - Nat.max 1 m)%nat by lia.
    reflexivity.
  Qed.

  Theorem k0_not_transparent m0 h m : (2 <= m0)%nat -> (m <= lmax)%nat -> (1 <= lmax)%nat ->
    snd (req0 m (run0 (m0 :: h) empty_zcache)) <> snd (req0 m empty_zcache).
  Proof.
    intros H0 H1 H2. rewrite k0_result, k0_fresh. intros E. apply (f_equal (fun x => length (fst (fst x)))) in E. cbn [fst] in E.
    rewrite !map_length, !seq_length in E. lia.
  Qed.
End CacheP.

(** ** C22 *)
Lemma log10_lt a b : 0 < a -> a < b -> log10 a < log10 b.
Proof.
  intros Ha Hab. unfold log10. apply Rmult_lt_compat_r.
  - apply Rinv_0_lt_compat. rewrite <- ln_1. apply ln_increasing; lra.
  - now apply ln_increasing.
Qed.

Lemma get_lmax_pos r1 r2 L p o n : get_lmax r1 r2 L p o = Ok n -> (1 <= n)%Z.
Proof.
  unfold get_lmax. destruct (Reqb _ 0); [discriminate|]. destruct (Rleb 30 _); [intros [= <-]; lia|].
  destruct (Reqb _ 0); [discriminate|]. destruct (Reqb p 0); [discriminate|].
  destruct (Rltb p 0); [discriminate|]. intros [= <-]. lia.
Qed.

Lemma get_lmax_sym r1 r2 L p o : get_lmax r1 r2 L p o = get_lmax r2 r1 L p o.
Proof. unfold get_lmax. now rewrite (Rmin_comm r1 r2), (Rmax_comm r1 r2). Qed.

Lemma get_lmax_scale s r1 r2 L p o : 0 < s -> get_lmax (s * r1) (s * r2) (s * L) p o = get_lmax r1 r2 L p o.
Proof.
  intros Hs. unfold get_lmax.
  assert (Hmin : Rmin (s * r1) (s * r2) = s * Rmin r1 r2).
  { unfold Rmin. destruct (Rle_dec (s * r1) (s * r2)), (Rle_dec r1 r2); try reflexivity; exfalso; nra. }
  assert (Hmax : Rmax (s * r1) (s * r2) = s * Rmax r1 r2).
  { unfold Rmax. destruct (Rle_dec (s * r1) (s * r2)), (Rle_dec r1 r2); try reflexivity; exfalso; nra. }
  rewrite Hmin, Hmax. set (rs := Rmin r1 r2). set (rg := Rmax r1 r2).
  replace (Rabs (s * rg - s * L) - s * rs) with (s * (Rabs (rg - L) - rs)).
  2:{ rewrite <- Rmult_minus_distr_l, Rabs_mult, (Rabs_pos_eq s) by lra. ring. }
  set (d := Rabs (rg - L) - rs). rewrite !Reqb_scale0 by assumption.
  destruct (Reqb_spec rs 0); [reflexivity|].
  replace (s * d / (s * rs)) with (d / rs) by (field; split; lra).
  destruct (Rleb 30 (d / rs)); [reflexivity|].
  destruct (Reqb_spec d 0); [reflexivity|].
  replace (s * rs / (s * d)) with (rs / d) by (field; split; lra). reflexivity.
Qed.

Lemma get_lmax_ok r1 r2 L p o : 0 < r1 -> 0 < r2 -> 0 < gap r1 r2 L -> 0 < p ->
  exists n, get_lmax r1 r2 L p o = Ok n.
Proof.
  intros H1 H2 Hg Hp. unfold get_lmax. unfold gap in Hg.
  assert (0 < Rmin r1 r2) by (unfold Rmin; destruct (Rle_dec r1 r2); lra).
  destruct (Reqb_spec (Rmin r1 r2) 0); [lra|].
  destruct (Rleb 30 _); [eauto|]. destruct (Reqb_spec (Rabs (Rmax r1 r2 - L) - Rmin r1 r2) 0); [lra|].
  destruct (Reqb_spec p 0); [lra|]. destruct (Rltb_spec p 0); [lra|]. eauto.
Qed.

(** smaller gap, higher precision (smaller p) or larger offset: never fewer multipoles *)
Lemma get_lmax_mono r1 r2 L L' p p' o o' n n' :
  0 < r1 -> 0 < r2 -> 0 < gap r1 r2 L' -> gap r1 r2 L' <= gap r1 r2 L ->
  0 < p' -> p' <= p -> (o <= o')%Z ->
  get_lmax r1 r2 L p o = Ok n -> get_lmax r1 r2 L' p' o' = Ok n' -> (n <= n')%Z.
Proof.
  intros H1 H2 Hg Hgg Hp Hpp Ho En En'.
  assert (Hn' : (1 <= n')%Z) by (eapply get_lmax_pos; exact En').
  assert (Hrs : 0 < Rmin r1 r2) by (unfold Rmin; destruct (Rle_dec r1 r2); lra).
  unfold get_lmax in *. fold (gap r1 r2 L) in En. fold (gap r1 r2 L') in En'.
  set (rs := Rmin r1 r2) in *. destruct (Reqb_spec rs 0); [lra|].
  destruct (Rleb_spec 30 (gap r1 r2 L / rs)) as [Hf|Hf]; [injection En as <-; exact Hn'|].
  destruct (Rleb_spec 30 (gap r1 r2 L' / rs)) as [Hf'|Hf'].
  { exfalso. apply Hf. eapply Rle_trans; [exact Hf'|]. apply Rmult_le_compat_r; [|assumption].
    apply Rlt_le, Rinv_0_lt_compat; assumption. }
  destruct (Reqb_spec (gap r1 r2 L) 0); [lra|]. destruct (Reqb_spec (gap r1 r2 L') 0); [lra|].
  destruct (Reqb_spec p 0); [lra|]. destruct (Reqb_spec p' 0); [lra|].
  destruct (Rltb_spec p 0); [lra|]. destruct (Rltb_spec p' 0); [lra|].
  injection En as <-. injection En' as <-.
  apply Z.max_le_compat_r. apply Z.add_le_mono; [|assumption]. apply trunc_mono.
  assert (Hl : log10 p' <= log10 p).
  { destruct (Req_dec p' p) as [->|]; [lra|]. apply Rlt_le, log10_lt; lra. }
  assert (He : exp (- log10 p * 0.33 + 3) <= exp (- log10 p' * 0.33 + 3)).
  { destruct (Req_dec (log10 p') (log10 p)) as [E|]; [rewrite E; lra|]. apply Rlt_le, exp_increasing. lra. }
  assert (Hr : rs / gap r1 r2 L <= rs / gap r1 r2 L').
  { apply Rmult_le_compat_l; [lra|]. apply Rinv_le_contravar; lra. }
  apply Rmult_le_compat_r; [lra|].
  apply Rmult_le_compat; [apply Rlt_le, exp_pos| |assumption|assumption].
  apply Rlt_le, Rdiv_lt_0_compat; lra.
Qed.

(** far apart: one multipole *)
Lemma get_lmax_far r1 r2 L p o : 0 < r1 -> 0 < r2 -> 30 * Rmin r1 r2 <= gap r1 r2 L -> get_lmax r1 r2 L p o = Ok 1%Z.
Proof.
  intros H1 H2 Hg. unfold get_lmax. fold (gap r1 r2 L).
  assert (Hrs : 0 < Rmin r1 r2) by (unfold Rmin; destruct (Rle_dec r1 r2); lra).
  destruct (Reqb_spec (Rmin r1 r2) 0); [lra|].
  destruct (Rleb_spec 30 (gap r1 r2 L / Rmin r1 r2)) as [|Hn]; [reflexivity|].
  exfalso. apply Hn. apply (Rmult_le_reg_r (Rmin r1 r2)); [assumption|].
  unfold Rdiv. rewrite Rmult_assoc, Rinv_l by lra. lra.
Qed.

(** ** C23 *)
Lemma sphere_init_spec r1 r2 L lmax off lss p f ev a :
  sphere_init r1 r2 L lmax off lss p f ev = Ok a ->
  exists o1 o2, outer r1 = Ok o1 /\ outer r2 = Ok o2 /\
    (ev = EvLndet /\ s_trace a = false \/ ev = EvTrace /\ s_trace a = true) /\
    (s_ext a = true <-> o1 + o2 < L) /\
    s_r1 a = r1 /\ s_r2 a = r2 /\ s_L a = L /\ s_precision a = p /\ s_force a = f /\ s_l_offset a = off /\
    (match lmax with Given n => s_lmax a = n | Automatic => get_lmax o1 o2 L p off = Ok (s_lmax a) end) /\
    (match lss with
     | Given n => s_lssmax a = n
     | Automatic => s_lssmax a = trunc (Rmax o1 o2 / Rmin o1 o2 * IZR (s_lmax a))
     end).
Proof.
  unfold sphere_init. intros H.
  destruct ev; cbn [bind] in H; try discriminate;
  (destruct (outer r1) as [o1|]; cbn [bind] in H; [|discriminate]);
  (destruct (outer r2) as [o2|]; cbn [bind] in H; [|discriminate]);
  (destruct (match lmax with Automatic => get_lmax o1 o2 L p off | Given n => Ok n end) as [lm|] eqn:El; cbn [bind] in H; [|discriminate]);
  (match type of H with bind ?c _ = _ => destruct c as [ls|] eqn:Es; cbn [bind] in H; [|discriminate] end);
  injection H as <-; exists o1, o2; cbn;
  (split; [reflexivity|]); (split; [reflexivity|]); (split; [auto|]);
  (split; [destruct (Rltb_spec (o1 + o2) L); split; auto; try discriminate; contradiction|]);
  (repeat (split; [reflexivity|]));
  (split; [destruct lmax; [exact El|now injection El]|]);
  (destruct lss; [destruct (Reqb _ 0); [discriminate|now injection Es]|now injection Es]).
Qed.

Lemma sphere_init_bad_evaluation r1 r2 L lmax off lss p f :
  sphere_init r1 r2 L lmax off lss p f EvOther = Err ValueError.
Proof. reflexivity. Qed.

Lemma lssmax_ge_lmax r1 r2 L lmax off p f ev a o1 o2 :
  sphere_init r1 r2 L lmax off Automatic p f ev = Ok a ->
  outer r1 = Ok o1 -> outer r2 = Ok o2 -> 0 < o1 -> 0 < o2 -> (0 <= s_lmax a)%Z ->
  (s_lmax a <= s_lssmax a)%Z.
Proof.
  intros H E1 E2 H1 H2 Hl. apply sphere_init_spec in H.
  destruct H as (o1' & o2' & E1' & E2' & _ & _ & _ & _ & _ & _ & _ & _ & _ & Hs).
  assert (o1' = o1) by congruence. assert (o2' = o2) by congruence. subst.
  rewrite Hs. rewrite <- (trunc_IZR (s_lmax a)) at 1. apply trunc_mono.
  apply IZR_le in Hl.
  assert (Hq : 1 <= Rmax o1 o2 / Rmin o1 o2).
  { assert (Hm : 0 < Rmin o1 o2) by (unfold Rmin; destruct (Rle_dec o1 o2); lra).
    apply (Rmult_le_reg_r (Rmin o1 o2)); [assumption|]. unfold Rdiv. rewrite Rmult_assoc, Rinv_l by lra.
    unfold Rmin, Rmax; destruct (Rle_dec o1 o2); lra. }
  nra.
Qed.

(** ** trace evaluation: contributions of one sign never trigger the early stop *)
Lemma weighted_snoc t0 ts t : weighted t0 (ts ++ [t]) = xadd (weighted t0 ts) (xmul (Fin 2) t).
Proof. unfold weighted. now rewrite fold_left_app. Qed.

Lemma weighted_nonpos t0 ts : nonpos t0 -> Forall nonpos ts -> nonpos (weighted t0 ts).
Proof.
  intros H0 H. induction ts as [|t ts IH] using rev_ind; [exact H0|].
  apply Forall_app in H. destruct H as [H1 H2]. inversion H2 as [|? ? (r & -> & Hr) _]; subst.
  rewrite weighted_snoc. destruct (IH H1) as (w & -> & Hw). cbn. eexists; split; [reflexivity|]. lra.
Qed.

Lemma runs_Forall {S A} (f : nat -> S -> S * res A) (P : A -> Prop) :
  (forall m s s1 a, f m s = (s1, Ok a) -> P a) ->
  forall s m s' l, runs f s m s' l -> Forall P l.
Proof. intros H s m s' l HR. induction HR; constructor; eauto. Qed.

Theorem rloop_same_sign {S} precision (tr : nat -> list R -> M S (list xr)) n m ks acc s s' r :
  precision <= 1 -> Forall nonpos acc ->
  (forall m s s1 t, tr m ks s = (s1, Ok t) -> Forall nonpos t) ->
  rloop precision tr n m ks acc s = (s', Ok r) ->
  exists ts, length ts = n /\ runs (fun m => tr m ks) s m s' ts /\
    Forall (fun t => length t = length acc) ts /\
    (forall i, (i < length acc)%nat -> nth i r NaN = weighted (nth i acc NaN) (column i ts)).
Proof.
  intros Hp Hacc Htr Hl. destruct (rloop_spec _ _ _ _ _ _ _ _ _ Hl) as (ts & L1 & L2 & L3 & L4 & L5).
  exists ts.
  assert (Hn : length ts = n).
  { destruct (Nat.eq_dec (length ts) n) as [|Hne]; [assumption|exfalso].
    destruct (L5 ltac:(lia)) as [L6 (i & Hi & Hx)].
    pose proof (runs_Forall _ _ (fun m s s1 a => Htr m s s1 a) _ _ _ _ L2) as HF.
    assert (Li : (i < length acc)%nat).
    { destruct Hi as [Hi _]. rewrite L4, acc_after_length in Hi; assumption. }
    destruct ts as [|t ts _] using rev_ind; [cbn in L6; lia|].
    rewrite app_length in Hx. cbn [length] in Hx. rewrite Nat.add_sub in Hx.
    rewrite firstn_app, Nat.sub_diag, firstn_all, app_nil_r in Hx.
    apply Forall_app in L3. destruct L3 as [L3 L3']. inversion L3' as [|? ? Lt _]; subst.
    apply Forall_app in HF. destruct HF as [HF1 HF2]. inversion HF2 as [|? ? HF3 _]; subst.
    rewrite !acc_after_nth in Hx by (try assumption; apply Forall_app; auto).
    unfold column in Hx. rewrite map_app in Hx. cbn [map] in Hx. rewrite weighted_snoc in Hx.
    assert (Hw : nonpos (weighted (nth i acc NaN) (map (fun t => nth i t NaN) ts))).
    { apply weighted_nonpos.
      - rewrite Forall_forall in Hacc. apply Hacc. now apply nth_In.
      - apply Forall_forall. intros x Hin. apply in_map_iff in Hin. destruct Hin as (t' & <- & Hin).
        rewrite Forall_forall in HF1, L3. specialize (HF1 _ Hin). specialize (L3 _ Hin). cbn in L3.
        rewrite Forall_forall in HF1. apply HF1. apply nth_In. lia. }
    assert (Ht : nonpos (nth i t NaN)).
    { rewrite Forall_forall in HF3. apply HF3. apply nth_In. lia. }
    destruct Hw as (w & Ew & Hw). destruct Ht as (u & Eu & Hu). rewrite Ew, Eu in Hx.
    cbn in Hx. destruct (Reqb_spec w 0) as [->|Hw0].
    - destruct (Reqb_spec (0 + 2 * u) 0); [discriminate|]. destruct (Rltb 0 (0 + 2 * u)); discriminate.
    - cbn in Hx. destruct (Rltb_spec (Rabs ((w + 2 * u) / w)) precision) as [Hlt|]; [|discriminate].
      assert (Hq : 1 <= (w + 2 * u) / w).
      { replace ((w + 2 * u) / w) with (1 + 2 * ((- u) / (- w))) by (field; lra).
        assert (0 <= (- u) / (- w)). { apply Rmult_le_pos; [lra|]. apply Rlt_le, Rinv_0_lt_compat. lra. }
        lra. }
      rewrite Rabs_pos_eq in Hlt by lra. lra. }
  split; [exact Hn|]. split; [exact L2|]. split; [exact L3|].
  intros i Hi. rewrite L4. now apply acc_after_nth.
Qed.

(** ** C11 in terms of the angular momenta covered *)
Section CacheL.
  Context {A B V : Type} (fA : list R -> nat -> A) (fB : list R -> nat -> B) (trans : nat -> list R -> V).
  Context (lmax lssmax : nat).
  Notation mA := (fun k => per_l (fA k) lmax 1).
  Notation mB := (fun k => per_l (fB k) lssmax 1).

  Lemma per_l_skipn {X} (f : nat -> X) n m : skipn (Nat.max 1 m - 1) (per_l f n 1) = per_l f n (Nat.max 1 m).
  Proof.
    unfold per_l. rewrite skipn_map_seq. f_equal. f_equal; lia.
  Qed.

  Theorem cache_right h m k :
    (m <= 1)%nat \/ (exists h' m', h = h' ++ [(m', k)]) ->
    snd (roundTrip_elements mA mB trans m k (after_requests mA mB trans h empty_cache)) =
    (per_l (fA k) lmax (Nat.max 1 m), per_l (fB k) lssmax (Nat.max 1 m), trans m k).
  Proof.
    intros [H|(h' & m' & ->)].
    - rewrite cache_transparent_small_m by assumption. now replace (Nat.max 1 m) with 1%nat by lia.
    - rewrite cache_result, rev_app_distr. cbn [rev app].
      replace (same_ks k k) with true by (symmetry; now apply same_ks_spec).
      now rewrite !per_l_skipn.
  Qed.

  Theorem cache_wrong_l h m k :
    (2 <= m)%nat -> (forall h' m', h <> h' ++ [(m', k)]) ->
    snd (roundTrip_elements mA mB trans m k (after_requests mA mB trans h empty_cache)) =
    (per_l (fA k) lmax 1, per_l (fB k) lssmax 1, trans m k).
  Proof.
    intros Hm Hh. rewrite cache_result. destruct (rev h) as [|[m' k'] r] eqn:E; [reflexivity|].
    destruct (same_ks k' k) eqn:Es; [|reflexivity]. apply same_ks_spec in Es. subst k'.
    exfalso. apply (Hh (rev r) m'). rewrite <- (rev_involutive h), E. reflexivity.
  Qed.

  (** the requests made by one sum over m: (0,k), (1,k), ..., (M,k) *)
  Theorem cache_sum_right h k m :
    snd (roundTrip_elements mA mB trans m k
           (after_requests mA mB trans (h ++ map (fun i => (i, k)) (seq 0 m)) empty_cache)) =
    (per_l (fA k) lmax (Nat.max 1 m), per_l (fB k) lssmax (Nat.max 1 m), trans m k).
  Proof.
    apply cache_right. destruct m as [|m]; [left; lia|]. right.
    exists (h ++ map (fun i => (i, k)) (seq 0 m)), m. rewrite seq_S, map_app, app_assoc. reflexivity.
  Qed.
End CacheL.

Lemma per_l_length {X} (f : nat -> X) n m : length (per_l f n m) = (n + 1 - m)%nat.
Proof. unfold per_l. now rewrite map_length, seq_length. Qed.
