(** * Balancing in binary64: infinities make the inner loops run forever *)
From Coq Require Import Bool List ZArith Lia Floats.SpecFloat.
From Verif Require Import FBal_Model.
Import ListNotations.

(** non-negative and not NaN *)
Definition nn (x : fl) : Prop :=
  match x with
  | S754_zero _ => True
  | S754_infinity s => s = false
  | S754_nan => False
  | S754_finite s _ _ => s = false
  end.
Definition inf : fl := S754_infinity false.

Lemma shr_1_nn r : (0 <= shr_m r)%Z -> (0 <= shr_m (shr_1 r))%Z.
Proof. destruct r as [m br bs]. cbn. intros H. destruct m as [|[p|p|]|p]; cbn; lia. Qed.
Lemma iter_shr_nn p : forall r, (0 <= shr_m r)%Z -> (0 <= shr_m (iter_pos shr_1 p r))%Z.
Proof.
  induction p as [p IH|p IH|]; intros r H; cbn [iter_pos].
  - apply IH, IH, shr_1_nn, H.
  - apply IH, IH, H.
  - apply shr_1_nn, H.
Qed.
Lemma shr_nn r e n : (0 <= shr_m r)%Z -> (0 <= shr_m (fst (shr r e n)))%Z.
Proof. intros H. destruct n; cbn; try assumption. now apply iter_shr_nn. Qed.
Lemma shr_rec_nn m l : (0 <= m)%Z -> (0 <= shr_m (shr_record_of_loc m l))%Z.
Proof. intros H. destruct l as [|[]]; cbn; assumption. Qed.
Lemma shr_fexp_nn m e l : (0 <= m)%Z -> (0 <= shr_m (fst (shr_fexp prec emax m e l)))%Z.
Proof. intros H. unfold shr_fexp. apply shr_nn, shr_rec_nn, H. Qed.
Lemma rne_nn m l : (0 <= m)%Z -> (0 <= round_nearest_even m l)%Z.
Proof. intros H. destruct l as [|[]]; cbn; try lia. destruct (Z.even m); lia. Qed.

Lemma round_aux_nn m e l : (0 <= m)%Z -> nn (binary_round_aux prec emax false m e l).
Proof.
  intros H. unfold binary_round_aux.
  destruct (shr_fexp prec emax m e l) as [mrs e'] eqn:E1.
  pose proof (shr_fexp_nn m e l H) as H1. rewrite E1 in H1. cbn [fst] in H1.
  destruct (shr_fexp prec emax (round_nearest_even (shr_m mrs) (loc_of_shr_record mrs)) e' loc_Exact) as [mrs2 e2] eqn:E2.
  pose proof (shr_fexp_nn (round_nearest_even (shr_m mrs) (loc_of_shr_record mrs)) e' loc_Exact (rne_nn _ _ H1)) as H2.
  rewrite E2 in H2. cbn [fst] in H2.
  destruct (shr_m mrs2) as [|p|p]; [exact I| |lia]. destruct (e2 <=? emax - prec)%Z; reflexivity.
Qed.

Lemma fmul2_nn x : nn x -> nn (fmul x f2).
Proof.
  destruct x as [s|s| |s m e]; cbn [nn]; intros H; try contradiction; subst.
  - exact I.
  - reflexivity.
  - unfold fmul, f2, SFmul. cbn [xorb]. apply round_aux_nn. lia.
Qed.

Lemma leb_inf x : nn x -> fleb x inf = true.
Proof. destruct x as [s|s| |s m e]; cbn [nn]; intros H; try contradiction; subst; reflexivity. Qed.
Lemma ltb_inf x : nn x -> fltb x inf = false -> x = inf.
Proof. destruct x as [s|s| |s m e]; cbn [nn]; intros H; try contradiction; subst; try discriminate; reflexivity. Qed.

(** ** the loops *)
Lemma floop_down_inf k : forall f r, nn r -> floop_down k f inf r = None.
Proof.
  induction k as [|k IH]; intros f r H; [reflexivity|]. cbn [floop_down].
  rewrite leb_inf by now apply fmul2_nn. apply IH. now apply fmul2_nn.
Qed.
Lemma floop_up_inf k : forall f c, nn c -> floop_up k f c inf = None \/ exists f', floop_up k f c inf = Some (f', inf, inf).
Proof.
  induction k as [|k IH]; intros f c H; [now left|]. cbn [floop_up].
  change (fdiv inf f2) with inf. destruct (fltb c inf) eqn:E.
  - apply IH. now apply fmul2_nn.
  - right. rewrite (ltb_inf c H E). eauto.
Qed.
Lemma ltb_inf_l y : fltb inf y = false.
Proof. destruct y as [[]|[]| |[] m e]; reflexivity. Qed.
Lemma floop_up_cinf k f r : floop_up (S k) f inf r = Some (f, inf, r).
Proof. cbn [floop_up]. now rewrite ltb_inf_l. Qed.

Lemma fsqrt_nn x : nn x -> nn (fsqrt x).
Proof.
  destruct x as [s|s| |s m e]; cbn [nn]; intros H; try contradiction; subst; try exact I; try reflexivity.
  unfold fsqrt, SFsqrt, SFsqrt_core_binary.
  set (m' := match _ with Z0 => _ | Zpos _ => _ | Zneg _ => _ end).
  assert (Hm : (0 <= m')%Z).
  { unfold m'. destruct (e - _)%Z; try lia. apply Z.shiftl_nonneg. lia. }
  destruct (Z.sqrtrem m') as [q r] eqn:E. cbv zeta.
  pose proof (Z.sqrtrem_spec m' Hm) as Hs. rewrite E in Hs.
  apply round_aux_nn. destruct Hs as [E1 E2]. nia.
Qed.

(** ** an infinite row or column sum at index i *)
Lemma index_diverges k conv n A i :
  fleb (fabs (foffrow n A i)) ftiny = false -> fleb (fabs (foffcol n A i)) ftiny = false ->
  nn (foffrow n A i) -> nn (foffcol n A i) ->
  foffrow n A i = inf \/ foffcol n A i = inf ->
  fbalance_index k conv n A i = None.
Proof.
  intros H1 H2 Hr Hc H. unfold fbalance_index. rewrite H1, H2. cbn [orb].
  destruct (floop_up k f1 (fsqrt (foffcol n A i)) (fsqrt (foffrow n A i))) as [[[f c] r]|] eqn:E; [|reflexivity].
  destruct H as [H|H]; rewrite H in E; change (fsqrt inf) with inf in E.
  - destruct (floop_up_inf k f1 _ (fsqrt_nn _ Hc)) as [E'|[f' E']]; rewrite E in E'; [discriminate|].
    injection E' as -> -> ->. rewrite floop_down_inf by reflexivity. reflexivity.
  - destruct k as [|k]; [discriminate|]. rewrite floop_up_cinf in E. injection E as <- <- <-.
    rewrite floop_down_inf by now apply fsqrt_nn. reflexivity.
Qed.

Lemma balance_diverges_at0 fuel conv n A : (0 < n)%nat -> (forall k, fbalance_index k conv n A 0 = None) ->
  fbalance fuel conv n A = None.
Proof.
  intros Hn H. unfold fbalance. destruct fuel as [|fuel]; [reflexivity|]. cbn [fbalance_loop].
  destruct n as [|n]; [lia|]. cbn [seq fbalance_sweep]. rewrite H. reflexivity.
Qed.

(** ** the sums are not NaN unless an element is *)
Definition notnan (x : fl) : Prop := x <> S754_nan.
Lemma fabs_nn x : notnan x -> nn (fabs x).
Proof. destruct x as [s|s| |s m e]; intros H; try exact I; try reflexivity. now elim H. Qed.
Lemma fmul_nn x y : nn x -> nn y -> (x = inf -> y = inf) -> (y = inf -> x = inf) -> nn (fmul x y).
Proof.
  destruct x as [s|s| |s m e], y as [t|t| |t m' e']; cbn [nn]; intros H1 H2 H3 H4; try contradiction; subst; try exact I; try reflexivity.
  - specialize (H4 eq_refl). discriminate.
  - specialize (H3 eq_refl). discriminate.
  - unfold fmul, SFmul. cbn [xorb]. apply round_aux_nn. lia.
Qed.
Lemma fsq_nn x : notnan x -> nn (fsq x).
Proof. intros H. unfold fsq. apply fmul_nn; auto using fabs_nn. Qed.
Lemma fadd_nn x y : nn x -> nn y -> nn (fadd x y).
Proof.
  destruct x as [s|s| |s m e], y as [t|t| |t m' e']; cbn [nn]; intros H1 H2; try contradiction; subst; try exact I; try reflexivity.
  - unfold fadd, SFadd. destruct (Bool.eqb s t); exact I.
  - unfold fadd, SFadd. cbn [cond_Zopp]. cbv zeta.
    set (a := fst (shl_align m e (Z.min e e'))). set (b := fst (shl_align m' e' (Z.min e e'))).
    change (Z.pos a + Z.pos b)%Z with (Z.pos (a + b)). cbn [binary_normalize]. unfold binary_round.
    clearbody a b. destruct (shl_align _ _ _) as [mz ez]. apply round_aux_nn. lia.
Qed.
Lemma fadd_inf_l y : nn y -> fadd inf y = inf.
Proof. destruct y as [s|s| |s m e]; cbn [nn]; intros H; try contradiction; subst; reflexivity. Qed.
Lemma fadd_inf_r y : nn y -> fadd y inf = inf.
Proof. destruct y as [s|s| |s m e]; cbn [nn]; intros H; try contradiction; subst; reflexivity. Qed.

Lemma fsum_nn n g : (forall k x, (k < n)%nat -> g k = Some x -> nn x) -> nn (fsum n g).
Proof.
  induction n as [|n IH]; intros H; [exact I|]. cbn [fsum].
  assert (nn (fsum n g)) by (apply IH; intros k x Hk; apply H; lia).
  destruct (g n) as [x|] eqn:E; [|assumption]. apply fadd_nn; [assumption|]. apply (H n x); [lia|assumption].
Qed.
Lemma fsum_inf n g k : (forall j x, (j < n)%nat -> g j = Some x -> nn x) -> (k < n)%nat -> g k = Some inf -> fsum n g = inf.
Proof.
  induction n as [|n IH]; intros H Hk E; [lia|]. cbn [fsum].
  assert (Hs : nn (fsum n g)) by (apply fsum_nn; intros j x Hj; apply H; lia).
  destruct (Nat.eq_dec k n) as [->|Hn].
  - rewrite E. now apply fadd_inf_r.
  - rewrite (IH (fun j x Hj => H j x (Nat.lt_lt_succ_r _ _ Hj)) ltac:(lia) E). destruct (g n) as [x|] eqn:Eg; [|reflexivity].
    apply fadd_inf_l. apply (H n x); [lia|assumption].
Qed.

Lemma offrow_nn n A i : (forall j, (j < n)%nat -> j <> i -> notnan (A i j)) -> nn (foffrow n A i).
Proof.
  intros H. apply fsum_nn. intros k x Hk. destruct (Nat.eqb_spec k i); [discriminate|]. intros E. injection E as <-.
  apply fsq_nn. now apply H.
Qed.
Lemma offcol_nn n A i : (forall j, (j < n)%nat -> j <> i -> notnan (A j i)) -> nn (foffcol n A i).
Proof.
  intros H. apply fsum_nn. intros k x Hk. destruct (Nat.eqb_spec k i); [discriminate|]. intros E. injection E as <-.
  apply fsq_nn. now apply H.
Qed.
Lemma offrow_inf n A i j : (forall j, (j < n)%nat -> j <> i -> notnan (A i j)) -> (j < n)%nat -> j <> i ->
  fsq (A i j) = inf -> foffrow n A i = inf.
Proof.
  intros H Hj Hji E. apply fsum_inf with j; [|assumption|].
  - intros k x Hk. destruct (Nat.eqb_spec k i); [discriminate|]. intros E'. injection E' as <-. apply fsq_nn. now apply H.
  - destruct (Nat.eqb_spec j i); [contradiction|]. now rewrite E.
Qed.
Lemma offcol_inf n A i j : (forall j, (j < n)%nat -> j <> i -> notnan (A j i)) -> (j < n)%nat -> j <> i ->
  fsq (A j i) = inf -> foffcol n A i = inf.
Proof.
  intros H Hj Hji E. apply fsum_inf with j; [|assumption|].
  - intros k x Hk. destruct (Nat.eqb_spec k i); [discriminate|]. intros E'. injection E' as <-. apply fsq_nn. now apply H.
  - destruct (Nat.eqb_spec j i); [contradiction|]. now rewrite E.
Qed.

Theorem balance_hangs fuel conv n A j : (j < n)%nat -> j <> 0%nat ->
  (forall j, (j < n)%nat -> j <> 0%nat -> notnan (A 0%nat j) /\ notnan (A j 0%nat)) ->
  (fsq (A 0%nat j) = inf /\ fleb (foffcol n A 0) ftiny = false \/
   fsq (A j 0%nat) = inf /\ fleb (foffrow n A 0) ftiny = false) ->
  fbalance fuel conv n A = None.
Proof.
  intros Hj Hj0 Hn H.
  assert (Hr : nn (foffrow n A 0)) by (apply offrow_nn; intros; now apply Hn).
  assert (Hc : nn (foffcol n A 0)) by (apply offcol_nn; intros; now apply Hn).
  assert (Ha : forall x, nn x -> fleb (fabs x) ftiny = fleb x ftiny).
  { intros x Hx. destruct x as [s|s| |s m e]; cbn [nn] in Hx; try contradiction; subst; try reflexivity. }
  apply balance_diverges_at0; [lia|]. intros k.
  destruct H as [[E T]|[E T]].
  - assert (foffrow n A 0 = inf) by (apply offrow_inf with j; auto; intros; now apply Hn).
    apply index_diverges; auto; rewrite Ha; auto. rewrite H. reflexivity.
  - assert (foffcol n A 0 = inf) by (apply offcol_inf with j; auto; intros; now apply Hn).
    apply index_diverges; auto; rewrite Ha; auto. rewrite H. reflexivity.
Qed.

(** ** NaN *)
Lemma index_nan k conv n A i : foffrow n A i = S754_nan \/ foffcol n A i = S754_nan ->
  fbalance_index (S k) conv n A i = Some (false, A).
Proof.
  intros H. unfold fbalance_index. destruct (_ || _); [reflexivity|].
  assert (G1 : forall x, fltb x S754_nan = false) by (intros [[]|[]| |[] m e]; reflexivity).
  assert (G2 : forall x, fltb S754_nan x = false) by (intros [[]|[]| |[] m e]; reflexivity).
  assert (G3 : forall x, fleb x S754_nan = false) by (intros [[]|[]| |[] m e]; reflexivity).
  assert (G4 : forall x, fleb S754_nan x = false) by (intros [[]|[]| |[] m e]; reflexivity).
  assert (G5 : forall x, fadd x S754_nan = S754_nan) by (intros [[]|[]| |[] m e]; reflexivity).
  destruct H as [H|H]; rewrite H; change (fsqrt S754_nan) with S754_nan; cbn [floop_up].
  - change (fdiv S754_nan f2) with S754_nan. rewrite G1. cbn [floop_down].
    change (fmul S754_nan f2) with S754_nan. rewrite G4.
    change (fmul S754_nan S754_nan) with S754_nan. rewrite G5, G2. reflexivity.
  - rewrite G2. cbn [floop_down]. rewrite G3.
    change (fmul S754_nan S754_nan) with S754_nan. unfold fadd at 1. cbn [SFadd]. rewrite G2. reflexivity.
Qed.
Theorem balance_nan fuel conv n A : (1 <= fuel)%nat -> (forall i, (i < n)%nat -> foffrow n A i = S754_nan \/ foffcol n A i = S754_nan) ->
  fbalance fuel conv n A = Some A.
Proof.
  intros Hf H. destruct fuel as [|fuel]; [lia|]. unfold fbalance. cbn [fbalance_loop].
  assert (G : forall l, (forall i, In i l -> (i < n)%nat) -> fbalance_sweep (S fuel) conv n A l = Some (false, A)).
  { induction l as [|i l IH]; intros Hl; [reflexivity|]. cbn [fbalance_sweep].
    rewrite index_nan by (apply H, Hl; now left). rewrite IH by (intros; apply Hl; now right). reflexivity. }
  rewrite G by (intros i Hi; apply in_seq in Hi; lia). reflexivity.
Qed.
