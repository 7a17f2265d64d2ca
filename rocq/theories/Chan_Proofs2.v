(** * Proofs about blockmatrices_debug: what happens to one block *)
From Coq Require Import Bool Reals List Arith Lia Lra.
From Verif Require Import Base Lin_Model Chan_Model.
Import ListNotations.
Open Scope R_scope.

Lemma rsign_abs x : rsign x * Rabs x = x.
Proof.
  unfold rsign. destruct (Rltb_spec 0 x); [rewrite Rabs_right; lra|].
  destruct (Rltb_spec x 0); [rewrite Rabs_left; lra|]. replace x with 0 by lra. rewrite Rabs_R0. ring.
Qed.
Lemma debug_term l k x : x <> 0 -> xmul (Fin (rsign x)) (xexp (xadd (Fin k) (xadd (Fin l) (logabs x)))) = Fin (exp k * (exp l * x)).
Proof.
  intro h. unfold logabs. destruct (Reqb_spec x 0); [easy|]. cbn [xadd xexp xmul]. f_equal.
  rewrite !exp_plus, exp_ln by (apply Rabs_pos_lt; exact h). rewrite <- (rsign_abs x) at 3. ring.
Qed.
Lemma debug_term1 l x : xmul (Fin (rsign x)) (xexp (xadd (Fin l) (logabs x))) = Fin (exp l * x).
Proof.
  destruct (Req_dec x 0) as [->|h].
  - unfold logabs. destruct (Reqb_spec 0 0); [|easy]. cbn. f_equal. ring.
  - generalize (debug_term l 0 x h). rewrite exp_0, Rmult_1_l. intro E. rewrite <- E.
    unfold logabs. destruct (Reqb_spec x 0); [easy|]. cbn [xadd]. rewrite Rplus_0_l. reflexivity.
Qed.
Lemma xsumn_fin n f g : (forall s, (s < n)%nat -> f s = Fin (g s)) -> xsumn n f = Fin (sumn n g).
Proof. induction n as [|n IH]; intro h; [reflexivity|]. cbn. rewrite IH, h by (auto with arith). reflexivity. Qed.
Lemma xsumn_nan n f : (0 < n)%nat -> (forall s, (s < n)%nat -> f s = NaN) -> xsumn n f = NaN.
Proof. destruct n as [|n]; [lia|]. intros _ h. cbn. rewrite (h n) by lia. destruct (xsumn n f); reflexivity. Qed.

Lemma debug_one ns lsk M i j : debug_block 1 ns lsk M i j = Fin (sumn ns (fun s => exp (lsk i j s) * M i j s)).
Proof. unfold debug_block, xsingle_k_scale. cbn [Nat.eqb]. apply xsumn_fin. intros s _. apply debug_term1. Qed.

Lemma xargmax_from_lt f n i b N : (i + n <= N)%nat -> (b < N)%nat -> (xargmax_from f n i b < N)%nat.
Proof.
  revert i b. induction n as [|n IH]; intros i b h hb; cbn; [exact hb|].
  destruct (is_nan (f b)); [exact hb|]. apply IH; [lia|]. destruct (is_nan (f i) || xltb (f b) (f i)); lia.
Qed.
Lemma xargmax_lt f n : (0 < n)%nat -> (xargmax f n < n)%nat.
Proof. intro h. apply xargmax_from_lt; lia. Qed.

Lemma xsingle_fin n ns (X : xarr) (x : arr_log) : (0 < n)%nat -> (0 < ns)%nat ->
  (forall i j s, (i < n)%nat -> (j < n)%nat -> (s < ns)%nat -> X i j s = Fin (x i j s)) ->
  exists kap, forall i j s, (i < n)%nat -> (j < n)%nat -> (s < ns)%nat ->
    xsingle_k_scale n ns X i j s = xadd (Fin (kap * (INR i - INR j))) (X i j s).
Proof.
  intros hn hs hX. unfold xsingle_k_scale. destruct (Nat.eqb_spec n 1) as [_|n1].
  { exists 0. intros i j s hi hj h. rewrite (hX i j s hi hj h). cbn. f_equal. ring. }
  set (o := xargmax _ ns).
  assert (ho : (o < ns)%nat) by (apply xargmax_lt; exact hs).
  rewrite (hX 0%nat 0%nat o), (hX 0%nat (n - 1)%nat o), (hX (n - 1)%nat 0%nat o) by lia.
  set (A := x 0%nat 0%nat o). set (B := x 0%nat (n - 1)%nat o). set (C := x (n - 1)%nat 0%nat o).
  cbn [xltb]. destruct (Rltb B C).
  - exists (- (Rabs (A - C) * (1 / (INR n - 1)))). intros i j s _ _ _. f_equal. cbn [xsub xneg xadd xabs xmul]. rewrite !S_INR. f_equal.
    unfold Rminus. ring.
  - exists (Rabs (A - B) * (1 / (INR n - 1))). intros i j s _ _ _. f_equal. cbn [xsub xneg xadd xabs xmul]. rewrite !S_INR. f_equal.
    unfold Rminus. ring.
Qed.
Lemma sumn_pull n k f : k * sumn n f = sumn n (fun s => k * f s).
Proof. induction n as [|n IH]; cbn; [ring|]. rewrite <- IH. ring. Qed.

(** without vanishing products a block is conjugated with diag(exp(kap i)), kap its own *)
Lemma debug_scaled n ns lsk M : (0 < n)%nat -> (0 < ns)%nat ->
  (forall i j s, (i < n)%nat -> (j < n)%nat -> (s < ns)%nat -> M i j s <> 0) ->
  exists kap, forall i j, (i < n)%nat -> (j < n)%nat ->
    debug_block n ns lsk M i j = Fin (exp (kap * (INR i - INR j)) * sumn ns (fun s => exp (lsk i j s) * M i j s)).
Proof.
  intros hn hs nz. unfold debug_block.
  destruct (xsingle_fin n ns (fun i j s => xadd (Fin (lsk i j s)) (logabs (M i j s)))
              (fun i j s => lsk i j s + ln (Rabs (M i j s))) hn hs) as [kap hk].
  { intros i j s hi hj hs'. unfold logabs. destruct (Reqb_spec (M i j s) 0) as [z|_]; [|reflexivity].
    exfalso. exact (nz i j s hi hj hs' z). }
  exists kap. intros i j hi hj. rewrite sumn_pull. apply xsumn_fin. intros s hs'. rewrite (hk i j s hi hj hs'). apply debug_term.
  apply nz; assumption.
Qed.

(** a vanishing block of more than one order becomes NaN *)
Lemma debug_zero n ns lsk M : (1 < n)%nat -> (0 < ns)%nat -> (forall i j s, M i j s = 0) ->
  forall i j, debug_block n ns lsk M i j = NaN.
Proof.
  intros hn hs z i j. unfold debug_block, xsingle_k_scale.
  destruct (Nat.eqb_spec n 1) as [->|_]; [lia|].
  assert (LE : forall i j s, xadd (Fin (lsk i j s)) (logabs (M i j s)) = NInf).
  { intros. rewrite z. unfold logabs. destruct (Reqb_spec 0 0); [reflexivity|easy]. }
  rewrite !LE. apply xsumn_nan; [exact hs|]. intros s _. reflexivity.
Qed.
