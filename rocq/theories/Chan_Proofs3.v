(** * Proofs about blockmatrices_debug for actual coefficients *)
From Coq Require Import Bool Reals ZArith List Arith Lia Lra.
From Verif Require Import Base Bessel_Model Scat_Model Trans_Model Trans_Proofs Trans_Proofs5 Lin_Model RT_Model Chan_Model Chan_Proofs2.
Import ListNotations.
Open Scope R_scope.

Lemma obind_val {A B} (x : out A) (f : A -> out B) b : obind x f = Val b -> exists a, x = Val a /\ f a = Val b.
Proof. destruct x as [a| |]; cbn; intro h; try discriminate. exists a. auto. Qed.

(** every entry of the result of a mapped function *)
Lemma omap_all {A B} (f : A -> out B) l r i b : omap f l = Val r -> nth_error r i = Some b -> exists a, f a = Val b.
Proof.
  intros H E. assert (L := omap_length f l r H). assert (hi : (i < length r)%nat) by (apply nth_error_Some; congruence).
  destruct (nth_error l i) as [a|] eqn:Ea; [|apply nth_error_None in Ea; lia].
  destruct (omap_nth f l r H i a Ea) as [b' [E' F]]. exists a. rewrite F. congruence.
Qed.

Section RT.
  Context (mieb : list R -> nat -> Z -> res (list (list R) * list (list R))) (transb : bessel_fun) (c : config).

  Lemma trans_rows m ks V i s v : trans transb c m ks = Val V -> nth_error (nth i V []) s = Some v ->
    exists t l1 l2, t_m t = m /\ get_vl1l2 t l1 l2 = Val v.
  Proof.
    unfold trans. intros H E. apply obind_val in H. destruct H as [t [Ht H]]. apply obind_val in H. destruct H as [tb [Htb H]].
    assert (Em : t_m t = m).
    { unfold translation_init in Ht. apply obind_val in Ht. destruct Ht as [b [_ Ht]]. cbn [obind] in Ht. injection Ht as <-. reflexivity. }
    assert (D : tb = Dynamic V). { destruct tb as [x|x]; [congruence|discriminate] || (destruct tb; [discriminate|congruence]). } subst tb.
    assert (G : omap (fun a => omap (fun b => get_vl1l2 t a b) (orders (t_lmin t) (t_lssmax t))) (orders (t_lmin t) (t_lmax t)) = Val V).
    { unfold trans_ab in Htb. destruct (t_k t) as [|k [|k' r]]; [| |].
      - apply obind_val in Htb. destruct Htb as [w [-> Hw]]. congruence.
      - destruct (Reqb k 0); [discriminate|]. apply obind_val in Htb. destruct Htb as [w [-> Hw]]. congruence.
      - apply obind_val in Htb. destruct Htb as [w [-> Hw]]. congruence. }
    destruct (nth_error V i) as [row|] eqn:Er.
    - rewrite (nth_error_nth V i [] Er) in E. destruct (omap_all _ _ _ _ _ G Er) as [a Ha].
      destruct (omap_all _ _ _ _ _ Ha E) as [b Hb]. exists t, a, b. auto.
    - apply nth_error_None in Er. rewrite nth_overflow in E by exact Er. destruct s; discriminate.
  Qed.

  (** no mixing for m = 0 *)
  Lemma no_mixing ks E q i s : elements mieb transb c 0 ks = Val E -> V2 (E q) i s = 0 /\ V3 (E q) i s = 0.
  Proof.
    unfold elements. intro H. apply obind_val in H. destruct H as [A [_ H]]. apply obind_val in H. destruct H as [B [_ H]].
    apply obind_val in H. destruct H as [V [HV H]]. injection H as <-. cbn [pack V2 V3]. unfold vget.
    destruct (nth_error (nth i V []) s) as [v|] eqn:Ev; [|split; reflexivity].
    destruct (trans_rows 0 ks V i s v HV Ev) as [t [l1 [l2 [Em G]]]]. destruct (mixing_zero t l1 l2 v G Em) as [Z1 Z2].
    split; unfold at_.
    - destruct (lt_dec q (length (v_EMab v))) as [h|h]; [apply Z1, nth_In, h|apply nth_overflow; lia].
    - destruct (lt_dec q (length (v_EMba v))) as [h|h]; [apply Z2, nth_In, h|apply nth_overflow; lia].
  Qed.

  Lemma debug_m0 ks f : rt_debug mieb transb c 0 ks = Val f -> (1 < n1 c 0)%nat ->
    forall q i j, (q < length ks)%nat -> f 1%nat q i j = NaN /\ f 2%nat q i j = NaN.
  Proof.
    unfold rt_debug. destruct ks as [|k rest]; [discriminate|]. destruct (Reqb k 0).
    { intro H. apply obind_val in H. destruct H as [? [_ H]]. apply obind_val in H. destruct H as [? [_ H]]. discriminate. }
    intros H hn q i j hq. apply obind_val in H. destruct H as [E [HE H]]. unfold blockmatrices_debug, scale_shape in H.
    destruct (Nat.eqb_spec (length (k :: rest)) 0) as [h|_]; [discriminate h|].
    destruct (Nat.eqb_spec (n1 c 0) 1) as [h|_]; [lia|]. destruct (Nat.eqb_spec (n1 c 0) 0) as [h|_]; [lia|].
    destruct (Nat.eqb_spec (n2 c 0) 0) as [h|hs]; [discriminate H|]. injection H as <-. cbn [nth debug_blocks map].
    split; apply debug_zero; try lia; intros a b s; destruct (no_mixing _ _ q a s HE) as [Z2 Z3]; destruct (no_mixing _ _ q b s HE) as [Z2' Z3']; rewrite ?Z2, ?Z3, ?Z2', ?Z3'; ring.
  Qed.

  Lemma debug_k0 m rest : (forall f, rt_debug mieb transb c m (0 :: rest) <> Val f) /\
    (forall E b, elements mieb transb c m rest = Val E -> scale_shape (length rest) (n1 c m) (n2 c m) = Ok tt -> blockmatrices_k0 transb c m = Val b ->
       rt_debug mieb transb c m (0 :: rest) = Exc NameError).
  Proof.
    unfold rt_debug. destruct (Reqb_spec 0 0) as [_|]; [|easy]. split.
    - intros f H. apply obind_val in H. destruct H as [? [_ H]]. apply obind_val in H. destruct H as [? [_ H]]. discriminate.
    - intros E b HE Hs Hb. rewrite HE. cbn [obind]. unfold blockmatrices_debug. rewrite Hs. cbn [bind of_res obind]. rewrite Hb. reflexivity.
  Qed.
End RT.

(** one order: the blocks of blockmatrices *)
Lemma sumn_ext' n f g : (forall s, (s < n)%nat -> f s = g s) -> sumn n f = sumn n g.
Proof. induction n as [|n IH]; intro h; [reflexivity|]. cbn. rewrite IH, h by auto with arith. reflexivity. Qed.
Lemma debug_single ns e k i j :
  let '(A, B, C, D) := blocks ns (dynamic_scaling 1 ns (fun k => log_skalierung (e k)) k) (e k) in
  map (fun b : xmat => b i j) (debug_blocks 1 ns (e k)) = [Fin (A i j); Fin (B i j); Fin (C i j); Fin (D i j)].
Proof.
  unfold blocks, debug_blocks. cbn [map]. rewrite !debug_one. repeat apply f_equal2; try reflexivity; f_equal; apply sumn_ext'; intros s _;
    unfold dynamic_scaling, single_k_scale; cbn [Nat.eqb]; ring.
Qed.

(** a symmetric positive 2 x 2 block with its largest entry first *)
Lemma debug_2x2 (a b d : R) M : M 0%nat 0%nat 0%nat = a -> M 0%nat 1%nat 0%nat = b -> M 1%nat 0%nat 0%nat = b -> M 1%nat 1%nat 0%nat = d ->
  0 < b -> b <= a -> 0 < d ->
  let X := debug_block 2 1 (fun _ _ _ => 0) M in
  X 0%nat 0%nat = Fin a /\ X 0%nat 1%nat = Fin (b * b / a) /\ X 1%nat 0%nat = Fin a /\ X 1%nat 1%nat = Fin d.
Proof.
  intros Ha Hb Hc Hd pb ab pd. cbv zeta. unfold debug_block, xsingle_k_scale, xargmax. cbn [Nat.eqb Nat.sub xargmax_from xsumn].
  rewrite !Ha, !Hb, !Hc, !Hd.
  assert (L : forall x, 0 < x -> xadd (Fin 0) (logabs x) = Fin (ln x)).
  { intros x hx. unfold logabs. destruct (Reqb_spec x 0); [lra|]. rewrite Rabs_right by lra. cbn [xadd]. f_equal. ring. }
  assert (S : forall x, 0 < x -> rsign x = 1). { intros x hx. unfold rsign. destruct (Rltb_spec 0 x); [reflexivity|lra]. }
  rewrite !L, !S by lra. cbn [xltb]. destruct (Rltb_spec (ln b) (ln b)) as [h|_]; [lra|]. cbn [xsub xneg xadd xabs xmul xexp].
  assert (lab : ln b <= ln a). { destruct ab as [h| ->]; [left; apply ln_increasing; lra|lra]. }
  replace (Rabs (ln a + - ln b)) with (ln a - ln b) by (rewrite Rabs_right; lra).
  cbn [INR]. replace (1 / (1 + 1 - 1)) with 1 by field.
  assert (e0 : exp (ln a) = a) by (apply exp_ln; lra). assert (eb : exp (ln b) = b) by (apply exp_ln; lra). assert (ed : exp (ln d) = d) by (apply exp_ln; lra).
  repeat split; f_equal; rewrite Rplus_0_l, Rmult_1_l.
  - replace ((ln a - ln b) * 1 * (1 - 1) + ln a) with (ln a) by ring. exact e0.
  - replace ((ln a - ln b) * 1 * (1 - (1 + 1)) + ln b) with (ln b + ln b + - ln a) by ring. rewrite !exp_plus, exp_Ropp, e0, eb. reflexivity.
  - replace ((ln a - ln b) * 1 * (1 + 1 - 1) + ln b) with (ln a) by ring. exact e0.
  - replace ((ln a - ln b) * 1 * (1 + 1 - (1 + 1)) + ln d) with (ln d) by ring. exact ed.
Qed.
