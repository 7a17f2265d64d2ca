(** * Property C16: matrix_balancing.pyx on IEEE double matrices *)
From Coq Require Import Bool List ZArith Lia Floats.SpecFloat.
From Verif Require Import FBal_Model FBal_Proofs.
Import ListNotations.

(** One off-diagonal element of the first row whose square is infinite (an infinity, or a finite
    number above about 1.3e154), no NaN in the first row and column, and a first column that is not
    negligible: the call never returns.  Likewise with rows and columns exchanged. *)
Theorem C16_balance_never_returns_refuted : forall fuel conv n A j, (j < n)%nat -> j <> 0%nat ->
  (forall j, (j < n)%nat -> j <> 0%nat -> A 0%nat j <> S754_nan /\ A j 0%nat <> S754_nan) ->
  (fsq (A 0%nat j) = S754_infinity false /\ fleb (foffcol n A 0) ftiny = false \/
   fsq (A j 0%nat) = S754_infinity false /\ fleb (foffrow n A 0) ftiny = false) ->
  fbalance fuel conv n A = None.
Proof. exact balance_hangs. Qed.
Print Assumptions C16_balance_never_returns_refuted.

(** the square of every infinity is infinite *)
Theorem C16_infinite_square : forall s, fsq (S754_infinity s) = S754_infinity false.
Proof. intros []; reflexivity. Qed.
Print Assumptions C16_infinite_square.

(** If every index has a NaN in its row or column sum, the matrix is returned unchanged. *)
Theorem C16_nan_returned_unchanged : forall fuel conv n A, (1 <= fuel)%nat ->
  (forall i, (i < n)%nat -> foffrow n A i = S754_nan \/ foffcol n A i = S754_nan) ->
  fbalance fuel conv n A = Some A.
Proof. exact balance_nan. Qed.
Print Assumptions C16_nan_returned_unchanged.

(** What comes back is the argument after rescaling steps: each multiplies one column by a factor and divides the row of
    the same index by the same factor, which is 1 doubled or halved some number of times. *)
Inductive power2 : fl -> Prop :=
| p2_one : power2 f1
| p2_double f : power2 f -> power2 (fmul f f2)
| p2_halve f : power2 f -> power2 (fdiv f f2).
Inductive rescaled (n : nat) (A : fmat) : fmat -> Prop :=
| rs_none : rescaled n A A
| rs_step B i f : rescaled n A B -> (i < n)%nat -> power2 f ->
    rescaled n A (fun a b => let x := if Nat.eqb b i then fmul (B a b) f else B a b in if Nat.eqb a i then fdiv x f else x).
Lemma loop_up_power2 k : forall f c r f' c' r', power2 f -> floop_up k f c r = Some (f', c', r') -> power2 f'.
Proof.
  induction k as [|k IH]; intros f c r f' c' r' Hf H; [discriminate|]. cbn in H.
  destruct (fltb c (fdiv r f2)); [|now injection H as <- _ _]. eapply IH; [|exact H]. now constructor.
Qed.
Lemma loop_down_power2 k : forall f c r f' c' r', power2 f -> floop_down k f c r = Some (f', c', r') -> power2 f'.
Proof.
  induction k as [|k IH]; intros f c r f' c' r' Hf H; [discriminate|]. cbn in H.
  destruct (fleb (fmul r f2) c); [|now injection H as <- _ _]. eapply IH; [|exact H]. now constructor.
Qed.
Lemma index_rescaled fuel conv n A B i ch B' : rescaled n A B -> (i < n)%nat -> fbalance_index fuel conv n B i = Some (ch, B') -> rescaled n A B'.
Proof.
  intros HB Hi H. unfold fbalance_index in H.
  destruct (fleb _ _ || fleb _ _)%bool; [injection H as _ <-; exact HB|].
  destruct (floop_up fuel f1 _ _) as [[[f c] r]|] eqn:E1; [|discriminate].
  destruct (floop_down fuel f c r) as [[[f' c'] r']|] eqn:E2; [|discriminate].
  destruct (fltb _ _); injection H as _ <-; [|exact HB].
  exact (rs_step n A B i f' HB Hi (loop_down_power2 _ _ _ _ _ _ _ (loop_up_power2 _ _ _ _ _ _ _ p2_one E1) E2)).
Qed.
Lemma sweep_rescaled fuel conv n A is : forall B ch B', rescaled n A B -> (forall i, In i is -> (i < n)%nat) ->
  fbalance_sweep fuel conv n B is = Some (ch, B') -> rescaled n A B'.
Proof.
  induction is as [|i is IH]; intros B ch B' HB Hi H; cbn in H; [injection H as _ <-; exact HB|].
  destruct (fbalance_index fuel conv n B i) as [[c1 B1]|] eqn:E1; [|discriminate].
  destruct (fbalance_sweep fuel conv n B1 is) as [[c2 B2]|] eqn:E2; [|discriminate]. injection H as _ <-.
  eapply IH; [| |exact E2]; [|intros; apply Hi; now right]. eapply index_rescaled; [exact HB| |exact E1]. apply Hi. now left.
Qed.
Theorem C16_result_rescaled : forall fuel conv n A A', fbalance fuel conv n A = Some A' -> rescaled n A A'.
Proof.
  intros fuel conv n A A'. unfold fbalance. generalize fuel at 1. intros outer.
  assert (G : forall B, rescaled n A B -> fbalance_loop outer fuel conv n B = Some A' -> rescaled n A A'); [|intros H; eapply G; [constructor|exact H]].
  induction outer as [|o IH]; intros B HB H; [discriminate|]. cbn in H.
  destruct (fbalance_sweep fuel conv n B (seq 0 n)) as [[[] B1]|] eqn:E; [| |discriminate].
  - eapply IH; [|exact H]. eapply sweep_rescaled; [exact HB| |exact E]. intros i Hi. apply in_seq in Hi. lia.
  - injection H as <-. eapply sweep_rescaled; [exact HB| |exact E]. intros i Hi. apply in_seq in Hi. lia.
Qed.
Print Assumptions C16_result_rescaled.

Definition mat2 (a b c d : fl) : fmat := fun i j =>
  match i, j with O, O => a | O, _ => b | _, O => c | _, _ => d end.
(** about 1.07e301 *)
Definition fbig : fl := S754_finite false 4503599627370496 948.
(** [[0, inf], [1, 0]] *)
Example C16_ex_inf : forall fuel conv, fbalance fuel conv 2 (mat2 f0 (S754_infinity false) f1 f0) = None.
Proof.
  intros. apply C16_balance_never_returns_refuted with 1%nat; [lia|lia| |left; split; reflexivity].
  intros [|[|j]] H H0; try lia. split; discriminate.
Qed.
(** [[0, 1], [1e301, 0]]: all entries finite *)
Example C16_ex_finite : forall fuel conv, fbalance fuel conv 2 (mat2 f0 f1 fbig f0) = None.
Proof.
  intros. apply C16_balance_never_returns_refuted with 1%nat; [lia|lia| |right; split; reflexivity].
  intros [|[|j]] H H0; try lia. split; discriminate.
Qed.
Example C16_ex_nan : forall fuel conv, fbalance (S fuel) conv 2 (mat2 f0 S754_nan f1 f0) = Some (mat2 f0 S754_nan f1 f0).
Proof.
  intros. apply C16_nan_returned_unchanged; [lia|]. intros [|[|i]] H; [left|right|lia]; reflexivity.
Qed.
