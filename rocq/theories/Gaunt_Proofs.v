(** * The loops of gaunt: no fault, and what they compute *)
From Coq Require Import Bool Reals List ZArith Lia Lra Psatz.
From Verif Require Import Base Gaunt_Model.
Import ListNotations.
Open Scope R_scope.

(** ** arrays *)
Lemma in_range_nat (a : list R) (i : nat) : (i < length a)%nat -> in_range a (Z.of_nat i) = true.
Proof. intro h; unfold in_range; apply andb_true_intro; split; [apply Z.leb_le|apply Z.ltb_lt]; lia. Qed.
Lemma aget_ok (a : list R) (i : nat) : (i < length a)%nat -> aget a (Z.of_nat i) = Def (nth i a 0).
Proof. intro h; unfold aget; rewrite in_range_nat by exact h; rewrite Nat2Z.id; reflexivity. Qed.
Lemma aset_ok (a : list R) (i : nat) (v : R) : (i < length a)%nat ->
  exists b, aset a (Z.of_nat i) v = Def b /\ length b = length a /\ nth i b 0 = v /\
            (forall j, j <> i -> nth j b 0 = nth j a 0).
Proof.
intro h; unfold aset; rewrite in_range_nat by exact h; rewrite Nat2Z.id.
eexists; split; [reflexivity|].
assert (hl : length (firstn i a) = i) by (rewrite firstn_length; lia).
repeat split.
- rewrite app_length, hl; cbn [length]; rewrite skipn_length; lia.
- rewrite app_nth2 by lia; rewrite hl, Nat.sub_diag; reflexivity.
- intros j hj.
  destruct (Nat.lt_ge_cases j i) as [hlt|hge].
  + rewrite app_nth1 by lia.
    rewrite <- (firstn_skipn i a) at 2; rewrite app_nth1 by lia; reflexivity.
  + rewrite app_nth2 by lia; rewrite hl.
    destruct (j - i)%nat as [|q] eqn:e; [lia|]. cbn [nth].
    rewrite <- (firstn_skipn (S i) a) at 2.
    rewrite app_nth2; rewrite firstn_length, Nat.min_l by lia; [|lia].
    f_equal; lia.
Qed.
Lemma zeros_ok (n : nat) : zeros (Z.of_nat n) = Def (repeat 0 n).
Proof. unfold zeros; destruct (Z.ltb_spec (Z.of_nat n) 0); [lia|]; rewrite Nat2Z.id; reflexivity. Qed.
Lemma cdiv_ok a b : b <> 0 -> cdiv a b = Def (a / b).
Proof. intro h; unfold cdiv; destruct (Reqb_spec b 0); [contradiction|reflexivity]. Qed.
Lemma lgamma_ok (n : Z) (k : nat) : n = (Z.of_nat k + 1)%Z -> lgamma n = Def (ln (INR (fact k))).
Proof.
intros ->; unfold lgamma; destruct (Z.leb_spec (Z.of_nat k + 1) 0); [lia|].
do 4 f_equal; lia.
Qed.
Lemma clog_ok x : 0 < x -> clog x = Def (ln x).
Proof. intro h; unfold clog; destruct (Rleb_spec x 0); [lra|reflexivity]. Qed.
Lemma csqrt_ok x : 0 <= x -> csqrt x = Def (sqrt x).
Proof. intro h; unfold csqrt; destruct (Rltb_spec x 0); [lra|reflexivity]. Qed.

(** ** loops *)
Lemma cfor_up (I : nat -> list R -> Prop) body s n a :
  I s a -> (forall i b, (s <= i < s + n)%nat -> I i b -> exists b', body (Z.of_nat i) b = Def b' /\ I (S i) b') ->
  exists b, cfor (map Z.of_nat (seq s n)) body a = Def b /\ I (s + n)%nat b.
Proof.
revert s a; induction n as [|n IH]; intros s a h0 hs; cbn [seq map cfor].
- exists a; rewrite Nat.add_0_r; auto.
- destruct (hs s a ltac:(lia) h0) as [b' [e hb]]; rewrite e; cbn [cbind].
  destruct (IH (S s) b' hb) as [b [e2 hb2]].
  + intros i b hi; apply hs; lia.
  + exists b; rewrite e2; split; [reflexivity|]. replace (s + S n)%nat with (S s + n)%nat by lia; exact hb2.
Qed.
Lemma cfor_app is js body a : cfor (is ++ js) body a = cbind (cfor is body a) (cfor js body).
Proof.
revert a; induction is as [|i is IH]; intro a; cbn [app cfor cbind]; [reflexivity|].
destruct (body i a); cbn [cbind]; [apply IH|reflexivity].
Qed.
Lemma cfor_down (I : nat -> list R -> Prop) body n a :
  I n a -> (forall i b, (i < n)%nat -> I (S i) b -> exists b', body (Z.of_nat i) b = Def b' /\ I i b') ->
  exists b, cfor (rev (map Z.of_nat (seq 0 n))) body a = Def b /\ I 0%nat b.
Proof.
revert a; induction n as [|n IH]; intros a h0 hs.
- exists a; auto.
- rewrite seq_S, map_app, rev_app_distr; cbn [map rev app plus cfor].
  destruct (hs n a ltac:(lia) h0) as [b' [e hb]]; rewrite e; cbn [cbind].
  apply IH; [exact hb|]. intros i b hi; apply hs; lia.
Qed.

(** ** what the code computes, before the final normalisation *)
Definition xalpha (l lp : nat) (p : R) : R :=
  (p * p - (INR l + INR lp + 1) ^ 2) * (p * p - (INR l - INR lp) ^ 2) / (4 * p * p - 1).
Definition dmin (l lp : nat) : nat := (Nat.max l lp - Nat.min l lp)%nat.
Definition amaxR (l lp : nat) (m : Z) : R :=
  INR (fact (2 * l)) * INR (fact (2 * lp)) * INR (fact (l + lp)) ^ 2
  / (INR (fact l) * INR (fact lp) * INR (fact (2 * (l + lp))))
  * sqrt ((2 * INR l + 1) * (2 * INR lp + 1) / (4 * PI))
  / sqrt (INR (fact (Z.to_nat (Z.of_nat l - m))) * INR (fact (Z.to_nat (Z.of_nat l + m))) *
          (INR (fact (Z.to_nat (Z.of_nat lp - m))) * INR (fact (Z.to_nat (Z.of_nat lp + m))))).
Definition ratio (l lp : nat) (m : Z) : R :=
  (2 * (INR l + INR lp) - 3) * (INR l * INR lp - IZR m ^ 2 * (2 * (INR l + INR lp) - 1)) /
  ((2 * INR l - 1) * (2 * INR lp - 1) * (INR l + INR lp)).
Definition is_raw (l lp : nat) (m : Z) (a : nat -> R) : Prop :=
  let k := Nat.min l lp in let d := INR (dmin l lp) in
  a k = amaxR l lp m /\
  ((1 <= k)%nat -> a (k - 1)%nat = amaxR l lp m * ratio l lp m) /\
  (forall i, (i + 2 <= k)%nat ->
     a i = ((4 * IZR m ^ 2 + xalpha l lp (d + 2 * INR i + 2) + xalpha l lp (d + 2 * INR i + 3)) * a (i + 1)%nat
            - xalpha l lp (d + 2 * INR i + 4) * a (i + 2)%nat) / xalpha l lp (d + 2 * INR i + 1)).

Lemma is_raw_unique l lp m a b : is_raw l lp m a -> is_raw l lp m b ->
  forall i, (i <= Nat.min l lp)%nat -> a i = b i.
Proof.
intros [a0 [a1 a2]] [b0 [b1 b2]].
set (k := Nat.min l lp) in *.
assert (H : forall j i, (i <= k)%nat -> (k - i <= j)%nat -> a i = b i).
{ induction j as [|j IH]; intros i hi hj.
  - replace i with k by lia; rewrite a0, b0; reflexivity.
  - destruct (Nat.eq_dec i k) as [->|h1]; [rewrite a0, b0; reflexivity|].
    destruct (Nat.eq_dec i (k - 1)) as [->|h2]; [rewrite a1, b1 by lia; reflexivity|].
    rewrite a2, b2 by lia. rewrite (IH (i+1)%nat), (IH (i+2)%nat) by lia; reflexivity. }
intros i hi; exact (H k i hi ltac:(lia)).
Qed.

Lemma dmin_sum l lp : (dmin l lp + 2 * Nat.min l lp = l + lp)%nat.
Proof. unfold dmin; lia. Qed.
Lemma dmin_Z l lp : Z.abs (Z.of_nat l - Z.of_nat lp) = Z.of_nat (dmin l lp).
Proof. unfold dmin; lia. Qed.
Lemma dmin_sq l lp : INR (dmin l lp) ^ 2 = (INR l - INR lp) ^ 2.
Proof.
unfold dmin; destruct (Nat.le_ge_cases l lp) as [h|h].
- rewrite Nat.max_r, Nat.min_l, minus_INR by lia; ring.
- rewrite Nat.max_l, Nat.min_r, minus_INR by lia; ring.
Qed.
Lemma xalpha_nonzero l lp (p : nat) : (dmin l lp < p <= l + lp)%nat -> xalpha l lp (INR p) <> 0.
Proof.
intros [h1 h2]. unfold xalpha. rewrite <- dmin_sq.
apply lt_INR in h1. apply le_INR in h2. rewrite plus_INR in h2.
pose proof (pos_INR (dmin l lp)).
assert (hp : 1 <= INR p). { change 1 with (INR 1); apply le_INR. apply INR_lt in h1. lia. }
apply Rmult_integral_contrapositive_currified; [|apply Rinv_neq_0_compat; nra].
apply Rmult_integral_contrapositive_currified; nra.
Qed.

Section run.
Context (l lp : nat) (m : Z).
Let k := Nat.min l lp.
Let d := dmin l lp.
Let hsum : (d + 2 * k = l + lp)%nat := dmin_sum l lp.

Lemma alphas_ok :
  exists al, cfor (crange (Z.of_nat (2 * k))) (alpha_body (Z.of_nat l) (Z.of_nat lp) (Z.of_nat d)) (repeat 0 (2 * k)) = Def al /\
    length al = (2 * k)%nat /\ forall i, (i < 2 * k)%nat -> nth i al 0 = xalpha l lp (INR d + INR i + 1).
Proof.
unfold crange; rewrite Nat2Z.id.
destruct (cfor_up (fun n b => length b = (2 * k)%nat /\ forall i, (i < n)%nat -> nth i b 0 = xalpha l lp (INR d + INR i + 1))
  (alpha_body (Z.of_nat l) (Z.of_nat lp) (Z.of_nat d)) 0 (2 * k) (repeat 0 (2 * k))) as [b [e [h1 h2]]].
- split; [apply repeat_length|lia].
- intros i b hi [hl hb].
  unfold alpha_body.
  rewrite cdiv_ok.
  2:{ rewrite <- !INR_IZR_INZ. pose proof (pos_INR i); pose proof (pos_INR d). nra. }
  cbn [cbind].
  destruct (aset_ok b i ((((IZR (Z.of_nat i) + IZR (Z.of_nat d) + 1) * (IZR (Z.of_nat i) + IZR (Z.of_nat d) + 1) -
      IZR ((Z.of_nat l + Z.of_nat lp + 1) ^ 2)) *
     ((IZR (Z.of_nat i) + IZR (Z.of_nat d) + 1) * (IZR (Z.of_nat i) + IZR (Z.of_nat d) + 1) -
      IZR ((Z.of_nat l - Z.of_nat lp) ^ 2)) /
     (4 * (IZR (Z.of_nat i) + IZR (Z.of_nat d) + 1) * (IZR (Z.of_nat i) + IZR (Z.of_nat d) + 1) - 1))))
    as [b' [e [h1 [h2 h3]]]]; [lia|].
  exists b'; split; [exact e|]. split; [lia|].
  intros j hj; destruct (Nat.eq_dec j i) as [->|hne].
  + rewrite h2; unfold xalpha.
    rewrite !Z.pow_2_r, !mult_IZR, !minus_IZR, !plus_IZR, <- !INR_IZR_INZ.
    replace (INR i + INR d + 1) with (INR d + INR i + 1) by ring.
    replace ((INR l + INR lp + 1) ^ 2) with ((INR l + INR lp + 1) * (INR l + INR lp + 1)) by ring.
    replace ((INR l - INR lp) ^ 2) with ((INR l - INR lp) * (INR l - INR lp)) by ring.
    reflexivity.
  + rewrite h3 by exact hne; apply hb; lia.
- exists b; split; [exact e|]. split; [exact h1|]. exact h2.
Qed.

Lemma down_ok al g0 :
  length al = (2 * k)%nat -> (forall i, (i < 2 * k)%nat -> nth i al 0 = xalpha l lp (INR d + INR i + 1)) ->
  length g0 = (k + 1)%nat -> nth k g0 0 = amaxR l lp m ->
  ((1 <= k)%nat -> nth (k - 1) g0 0 = amaxR l lp m * ratio l lp m) ->
  exists g, cfor (crange_down (Z.of_nat (k + 1) - 3)) (down_body m al) g0 = Def g /\
    length g = (k + 1)%nat /\ is_raw l lp m (fun i => nth i g 0).
Proof.
intros hal hav hg hk hk1.
unfold crange_down, crange.
replace (Z.to_nat (Z.of_nat (k + 1) - 3 + 1)) with (k - 1)%nat by lia.
destruct (cfor_down (fun n b => length b = (k + 1)%nat /\ nth k b 0 = amaxR l lp m /\
   ((1 <= k)%nat -> nth (k - 1) b 0 = amaxR l lp m * ratio l lp m) /\
   forall i, (n <= i)%nat -> (i + 2 <= k)%nat ->
     nth i b 0 = ((4 * IZR m ^ 2 + xalpha l lp (INR d + 2 * INR i + 2) + xalpha l lp (INR d + 2 * INR i + 3)) * nth (i + 1) b 0
            - xalpha l lp (INR d + 2 * INR i + 4) * nth (i + 2) b 0) / xalpha l lp (INR d + 2 * INR i + 1))
   (down_body m al) (k - 1) g0) as [g [e [h1 [h2 [h3 h4]]]]].
- repeat split; try assumption. intros i h1 h2; lia.
- intros i b hi [h1 [h2 [h3 h4]]].
  unfold down_body.
  replace (2 * Z.of_nat i + 1)%Z with (Z.of_nat (2 * i + 1)) by lia.
  replace (2 * Z.of_nat i + 2)%Z with (Z.of_nat (2 * i + 2)) by lia.
  replace (2 * Z.of_nat i + 3)%Z with (Z.of_nat (2 * i + 3)) by lia.
  replace (2 * Z.of_nat i)%Z with (Z.of_nat (2 * i)) by lia.
  replace (Z.of_nat i + 1)%Z with (Z.of_nat (i + 1)) by lia.
  replace (Z.of_nat i + 2)%Z with (Z.of_nat (i + 2)) by lia.
  rewrite !aget_ok by lia; cbn [cbind].
  rewrite !hav by lia.
  assert (ex : INR d + INR (2 * i) + 1 = INR d + 2 * INR i + 1) by (rewrite mult_INR; cbn [INR]; ring).
  assert (nz : xalpha l lp (INR d + 2 * INR i + 1) <> 0).
  { rewrite <- ex. rewrite <- plus_INR. change 1 with (INR 1); rewrite <- plus_INR. apply xalpha_nonzero. fold d; lia. }
  rewrite cdiv_ok by (rewrite ex; exact nz).
  cbn [cbind].
  destruct (aset_ok b i (((4 * IZR m * IZR m + xalpha l lp (INR d + INR (2 * i + 1) + 1) + xalpha l lp (INR d + INR (2 * i + 2) + 1)) *
      nth (i + 1) b 0 - xalpha l lp (INR d + INR (2 * i + 3) + 1) * nth (i + 2) b 0) / xalpha l lp (INR d + INR (2 * i) + 1)))
    as [b' [e [g1 [g2 g3]]]]; [lia|].
  exists b'; split; [exact e|]. split; [lia|].
  split; [rewrite g3 by lia; exact h2|].
  split; [intro hh; rewrite g3 by lia; exact (h3 hh)|].
  intros j hj1 hj2.
  destruct (Nat.eq_dec j i) as [->|hne].
  + rewrite g2, !(g3 _) by lia. rewrite ex.
    replace (INR d + INR (2 * i + 1) + 1) with (INR d + 2 * INR i + 2) by (rewrite plus_INR, mult_INR; cbn [INR]; ring).
    replace (INR d + INR (2 * i + 2) + 1) with (INR d + 2 * INR i + 3) by (rewrite plus_INR, mult_INR; cbn [INR]; ring).
    replace (INR d + INR (2 * i + 3) + 1) with (INR d + 2 * INR i + 4) by (rewrite plus_INR, mult_INR; cbn [INR]; ring).
    replace (4 * IZR m ^ 2) with (4 * IZR m * IZR m) by ring. reflexivity.
  + rewrite !(g3 _) by lia. apply h4; lia.
- exists g; split; [exact e|]. split; [exact h1|].
  unfold is_raw; fold k d. split; [exact h2|]. split; [exact h3|].
  intros i hi; apply h4; lia.
Qed.

Lemma norm_ok g0 : length g0 = (k + 1)%nat ->
  exists g, cfor (crange (Z.of_nat (k + 1))) (norm_body (Z.of_nat d)) g0 = Def g /\ length g = (k + 1)%nat /\
    forall i, (i <= k)%nat -> nth i g 0 = nth i g0 0 / sqrt (2 * (INR d + 2 * INR i) + 1).
Proof.
intro hl. unfold crange; rewrite Nat2Z.id.
destruct (cfor_up (fun n b => length b = (k + 1)%nat /\
   (forall i, (i < n)%nat -> nth i b 0 = nth i g0 0 / sqrt (2 * (INR d + 2 * INR i) + 1)) /\
   (forall i, (n <= i)%nat -> nth i b 0 = nth i g0 0)) (norm_body (Z.of_nat d)) 0 (k + 1) g0) as [g [e [h1 [h2 h3]]]].
- repeat split; try assumption; intros; lia || reflexivity.
- intros i b hi [h1 [h2 h3]]. unfold norm_body.
  rewrite aget_ok by lia; cbn [cbind].
  rewrite <- !INR_IZR_INZ.
  assert (hp : 0 < 2 * (INR d + 2 * INR i) + 1) by (pose proof (pos_INR i); pose proof (pos_INR d); lra).
  rewrite csqrt_ok by lra; cbn [cbind].
  rewrite cdiv_ok by (apply Rgt_not_eq, sqrt_lt_R0, hp). cbn [cbind].
  destruct (aset_ok b i (nth i b 0 / sqrt (2 * (INR d + 2 * INR i) + 1))) as [b' [e [g1 [g2 g3]]]]; [lia|].
  exists b'; split; [exact e|]. split; [lia|]. split.
  + intros j hj; destruct (Nat.eq_dec j i) as [->|hne].
    * rewrite g2, h3 by lia; reflexivity.
    * rewrite g3 by lia; apply h2; lia.
  + intros j hj; rewrite g3 by lia; apply h3; lia.
- exists g; split; [exact e|]. split; [exact h1|]. intros i hi; apply h2; lia.
Qed.

Lemma ln_div a b : 0 < a -> 0 < b -> ln (a / b) = ln a - ln b.
Proof. intros ha hb; unfold Rdiv; rewrite ln_mult, ln_Rinv; [ring|exact hb|exact ha|apply Rinv_0_lt_compat, hb]. Qed.
Lemma fact_ln_pos n : 0 < INR (fact n).
Proof. apply INR_fact_lt_0. Qed.

Lemma amax_ok : (Z.abs m <= Z.of_nat k)%Z ->
  amax_of (Z.of_nat l) (Z.of_nat lp) m (Z.of_nat l + Z.of_nat lp) = Def (amaxR l lp m).
Proof.
intro hm. unfold amax_of.
rewrite (lgamma_ok (2 * Z.of_nat l + 1) (2 * l)) by lia.
rewrite (lgamma_ok (2 * Z.of_nat lp + 1) (2 * lp)) by lia.
rewrite (lgamma_ok (Z.of_nat l + Z.of_nat lp + 1) (l + lp)) by lia.
rewrite (lgamma_ok (Z.of_nat l + 1) l) by lia.
rewrite (lgamma_ok (Z.of_nat lp + 1) lp) by lia.
rewrite (lgamma_ok (2 * (Z.of_nat l + Z.of_nat lp) + 1) (2 * (l + lp))) by lia.
rewrite (lgamma_ok (Z.of_nat l - m + 1) (Z.to_nat (Z.of_nat l - m))) by lia.
rewrite (lgamma_ok (Z.of_nat lp + m + 1) (Z.to_nat (Z.of_nat lp + m))) by lia.
rewrite (lgamma_ok (Z.of_nat l + m + 1) (Z.to_nat (Z.of_nat l + m))) by lia.
rewrite (lgamma_ok (Z.of_nat lp - m + 1) (Z.to_nat (Z.of_nat lp - m))) by lia.
rewrite <- !INR_IZR_INZ.
pose proof (pos_INR l) as hl; pose proof (pos_INR lp) as hlp. pose proof PI_RGT_0 as hpi.
rewrite !clog_ok by lra.
cbn [cbind]. f_equal. unfold amaxR.
set (A := INR (fact (2 * l))). set (B := INR (fact (2 * lp))). set (C := INR (fact (l + lp))).
set (D := INR (fact l)). set (E := INR (fact lp)). set (F := INR (fact (2 * (l + lp)))).
set (g7 := INR (fact (Z.to_nat (Z.of_nat l - m)))). set (g8 := INR (fact (Z.to_nat (Z.of_nat lp + m)))).
set (g9 := INR (fact (Z.to_nat (Z.of_nat l + m)))). set (g10 := INR (fact (Z.to_nat (Z.of_nat lp - m)))).
assert (hA : 0 < A) by apply fact_ln_pos. assert (hB : 0 < B) by apply fact_ln_pos.
assert (hC : 0 < C) by apply fact_ln_pos. assert (hD : 0 < D) by apply fact_ln_pos.
assert (hE : 0 < E) by apply fact_ln_pos. assert (hF : 0 < F) by apply fact_ln_pos.
assert (h7 : 0 < g7) by apply fact_ln_pos. assert (h8 : 0 < g8) by apply fact_ln_pos.
assert (h9 : 0 < g9) by apply fact_ln_pos. assert (h10 : 0 < g10) by apply fact_ln_pos.
assert (lnsqrt : forall x, 0 < x -> ln (sqrt x) = / 2 * ln x).
{ intros x hx. assert (hs : 0 < sqrt x) by (apply sqrt_lt_R0; exact hx).
  rewrite <- (sqrt_sqrt x) at 2 by lra. rewrite ln_mult by exact hs || exact hs. field. }
assert (hden : 0 < g7 * g9 * (g10 * g8)) by (repeat apply Rmult_lt_0_compat; assumption).
assert (hnum : 0 < (2 * INR l + 1) * (2 * INR lp + 1)) by (apply Rmult_lt_0_compat; lra).
assert (hq : 0 < (2 * INR l + 1) * (2 * INR lp + 1) / (4 * PI)) by (apply Rdiv_lt_0_compat; lra).
assert (hDEF : 0 < D * E * F) by (repeat apply Rmult_lt_0_compat; assumption).
assert (hABC : 0 < A * B * C ^ 2) by (repeat apply Rmult_lt_0_compat; try assumption; lra).
assert (hfr : 0 < A * B * C ^ 2 / (D * E * F)) by (apply Rdiv_lt_0_compat; assumption).
pose proof (sqrt_lt_R0 _ hq) as hsq. pose proof (sqrt_lt_R0 _ hden) as hsd.
set (X := A * B * C ^ 2 / (D * E * F) * sqrt ((2 * INR l + 1) * (2 * INR lp + 1) / (4 * PI)) / sqrt (g7 * g9 * (g10 * g8))).
assert (hX : 0 < X) by (unfold X; apply Rdiv_lt_0_compat; [apply Rmult_lt_0_compat|]; assumption).
rewrite <- (exp_ln X hX). f_equal. unfold X.
rewrite ln_div; [|apply Rmult_lt_0_compat; assumption|assumption].
rewrite (ln_mult (A * B * C ^ 2 / (D * E * F))) by assumption. rewrite (ln_div (A * B * C ^ 2)) by assumption.
rewrite !lnsqrt by assumption. rewrite ln_div by lra.
assert (hAB : 0 < A * B) by (apply Rmult_lt_0_compat; assumption).
assert (hDE : 0 < D * E) by (apply Rmult_lt_0_compat; assumption).
assert (hC2 : 0 < C ^ 2) by (apply pow_lt; assumption).
rewrite (ln_mult (A * B)), (ln_mult A), (ln_mult (D * E)), (ln_mult D) by assumption.
rewrite (ln_mult (2 * INR l + 1)) by lra.
rewrite (ln_mult (g7 * g9)), (ln_mult g7), (ln_mult g10) by (assumption || (apply Rmult_lt_0_compat; assumption)).
replace (C ^ 2) with (C * C) by ring. rewrite (ln_mult C) by assumption.
replace 0.5 with (/ 2) by lra. field.
Qed.

Theorem gaunt_ok : (Z.abs m <= Z.of_nat k)%Z ->
  exists g a, gaunt (Z.of_nat l) (Z.of_nat lp) m = Def g /\ length g = (k + 1)%nat /\ is_raw l lp m a /\
    forall i, (i <= k)%nat -> nth i g 0 = a i / sqrt (2 * (INR d + 2 * INR i) + 1).
Proof.
intro hm. unfold gaunt. rewrite dmin_Z; fold d.
replace (Z.of_nat l + Z.of_nat lp - Z.of_nat d)%Z with (Z.of_nat (2 * k)) by lia.
replace (Z.quot (Z.of_nat (2 * k)) 2 + 1)%Z with (Z.of_nat (k + 1)).
2:{ rewrite Nat2Z.inj_mul. rewrite Z.mul_comm. change (Z.of_nat 2) with 2%Z. rewrite Z.quot_mul by lia. lia. }
rewrite !zeros_ok; cbn [cbind].
destruct (Z.ltb_spec (Z.min (Z.of_nat l) (Z.of_nat lp)) (Z.abs m)) as [h|_]; [lia|].
destruct alphas_ok as [al [e1 [hal hav]]]. rewrite e1; cbn [cbind].
rewrite amax_ok by exact hm; cbn [cbind].
replace (Z.of_nat (k + 1) - 1)%Z with (Z.of_nat k) by lia.
destruct (aset_ok (repeat 0 (k + 1)) k (amaxR l lp m)) as [b [e2 [hb1 [hb2 hb3]]]]; [rewrite repeat_length; lia|].
rewrite e2; cbn [cbind]. rewrite repeat_length in hb1.
assert (H : exists g0, (if Z.ltb 1 (Z.of_nat (k + 1)) then
       let* v := cdiv ((2 * IZR (Z.of_nat l + Z.of_nat lp) - 3) * (IZR (Z.of_nat l * Z.of_nat lp) - IZR m ^ 2 * (2 * IZR (Z.of_nat l + Z.of_nat lp) - 1)))
                      ((2 * IZR (Z.of_nat l) - 1) * (2 * IZR (Z.of_nat lp) - 1) * IZR (Z.of_nat l + Z.of_nat lp)) in
       aset b (Z.of_nat (k + 1) - 2) (amaxR l lp m * v)
     else Def b) = Def g0 /\ length g0 = (k + 1)%nat /\ nth k g0 0 = amaxR l lp m /\
  ((1 <= k)%nat -> nth (k - 1) g0 0 = amaxR l lp m * ratio l lp m)).
{ destruct (Z.ltb_spec 1 (Z.of_nat (k + 1))) as [h|h].
  - assert (hl : 1 <= INR l) by (change 1 with (INR 1); apply le_INR; lia).
    assert (hlp : 1 <= INR lp) by (change 1 with (INR 1); apply le_INR; lia).
    rewrite plus_IZR, mult_IZR, <- !INR_IZR_INZ.
    rewrite cdiv_ok.
    2:{ repeat apply Rmult_integral_contrapositive_currified; lra. }
    cbn [cbind].
    replace (Z.of_nat (k + 1) - 2)%Z with (Z.of_nat (k - 1)) by lia.
    fold (ratio l lp m).
    destruct (aset_ok b (k - 1) (amaxR l lp m * ratio l lp m)) as [g0 [e3 [f1 [f2 f3]]]]; [lia|].
    exists g0; split; [exact e3|]. split; [lia|]. split; [rewrite f3 by lia; exact hb2|]. intros _; exact f2.
  - exists b; split; [reflexivity|]. split; [lia|]. split; [exact hb2|]. lia. }
destruct H as [g0 [e3 [f1 [f2 f3]]]]. rewrite e3; cbn [cbind].
destruct (down_ok al g0 hal hav f1 f2 f3) as [g [e4 [f4 f5]]]. rewrite e4; cbn [cbind].
destruct (norm_ok g f4) as [g' [e5 [f6 f7]]].
exists g', (fun i => nth i g 0). repeat split; try assumption; apply f5.
Qed.

Theorem gaunt_zero : (Z.of_nat k < Z.abs m)%Z -> gaunt (Z.of_nat l) (Z.of_nat lp) m = Def (repeat 0 (k + 1)).
Proof.
intro hm. unfold gaunt. rewrite dmin_Z; fold d.
replace (Z.of_nat l + Z.of_nat lp - Z.of_nat d)%Z with (Z.of_nat (2 * k)) by lia.
replace (Z.quot (Z.of_nat (2 * k)) 2 + 1)%Z with (Z.of_nat (k + 1)).
2:{ rewrite Nat2Z.inj_mul. rewrite Z.mul_comm. change (Z.of_nat 2) with 2%Z. rewrite Z.quot_mul by lia. lia. }
rewrite !zeros_ok; cbn [cbind].
destruct (Z.ltb_spec (Z.min (Z.of_nat l) (Z.of_nat lp)) (Z.abs m)) as [_|h]; [reflexivity|lia].
Qed.
End run.

(** ** symmetries *)
Lemma dmin_comm l lp : dmin l lp = dmin lp l.
Proof. unfold dmin; lia. Qed.
Lemma xalpha_comm l lp p : xalpha l lp p = xalpha lp l p.
Proof.
unfold xalpha. replace ((INR lp - INR l) ^ 2) with ((INR l - INR lp) ^ 2) by ring.
replace (INR lp + INR l + 1) with (INR l + INR lp + 1) by ring. reflexivity.
Qed.
Lemma amaxR_comm l lp m : amaxR l lp m = amaxR lp l m.
Proof.
unfold amaxR. rewrite (Nat.add_comm lp l).
rewrite (Rmult_comm (2 * INR lp + 1)). rewrite (Rmult_comm (INR (fact (2 * lp)))), (Rmult_comm (INR (fact lp))).
rewrite (Rmult_comm (INR (fact (Z.to_nat (Z.of_nat lp - m))) * _)). reflexivity.
Qed.
Lemma amaxR_neg l lp m : amaxR l lp (- m) = amaxR l lp m.
Proof.
unfold amaxR. f_equal. f_equal.
replace (Z.of_nat l - - m)%Z with (Z.of_nat l + m)%Z by lia. replace (Z.of_nat lp - - m)%Z with (Z.of_nat lp + m)%Z by lia.
replace (Z.of_nat l + - m)%Z with (Z.of_nat l - m)%Z by lia. replace (Z.of_nat lp + - m)%Z with (Z.of_nat lp - m)%Z by lia.
ring.
Qed.
Lemma ratio_comm l lp m : ratio l lp m = ratio lp l m.
Proof.
unfold ratio. rewrite (Rplus_comm (INR lp)), (Rmult_comm (INR lp) (INR l)), (Rmult_comm (2 * INR lp - 1)). reflexivity.
Qed.
Lemma is_raw_comm l lp m a : is_raw l lp m a -> is_raw lp l m a.
Proof.
unfold is_raw. rewrite (Nat.min_comm lp l), (dmin_comm lp l), (amaxR_comm lp l), (ratio_comm lp l).
intros [h1 [h2 h3]]; repeat split; try assumption.
intros i hi; rewrite !(xalpha_comm lp l); apply h3; exact hi.
Qed.
Lemma is_raw_neg l lp m a : is_raw l lp m a -> is_raw l lp (- m) a.
Proof.
unfold is_raw, ratio. rewrite amaxR_neg, opp_IZR. replace ((- IZR m) ^ 2) with (IZR m ^ 2) by ring. auto.
Qed.

Lemma list_eq_nth (a b : list R) : length a = length b -> (forall i, (i < length a)%nat -> nth i a 0 = nth i b 0) -> a = b.
Proof. intros h1 h2; apply (nth_ext a b 0 0 h1); exact h2. Qed.

Theorem gaunt_swap (l lp : nat) (m : Z) : gaunt (Z.of_nat lp) (Z.of_nat l) m = gaunt (Z.of_nat l) (Z.of_nat lp) m.
Proof.
destruct (Z.lt_ge_cases (Z.of_nat (Nat.min l lp)) (Z.abs m)) as [h|h].
- rewrite !gaunt_zero by lia. rewrite (Nat.min_comm lp l); reflexivity.
- destruct (gaunt_ok l lp m) as [g [a [e [hl [hr hn]]]]]; [lia|].
  destruct (gaunt_ok lp l m) as [g' [a' [e' [hl' [hr' hn']]]]]; [lia|].
  rewrite e, e'. f_equal. apply list_eq_nth; [lia|].
  intros i hi. rewrite hn, hn' by lia. rewrite (dmin_comm lp l). f_equal.
  apply (is_raw_unique l lp m); [apply is_raw_comm; exact hr'|exact hr|lia].
Qed.
Theorem gaunt_neg (l lp : nat) (m : Z) : gaunt (Z.of_nat l) (Z.of_nat lp) (- m) = gaunt (Z.of_nat l) (Z.of_nat lp) m.
Proof.
destruct (Z.lt_ge_cases (Z.of_nat (Nat.min l lp)) (Z.abs m)) as [h|h].
- rewrite !gaunt_zero by lia. reflexivity.
- destruct (gaunt_ok l lp m) as [g [a [e [hl [hr hn]]]]]; [lia|].
  destruct (gaunt_ok l lp (- m)) as [g' [a' [e' [hl' [hr' hn']]]]]; [lia|].
  rewrite e, e'. f_equal. apply list_eq_nth; [lia|].
  intros i hi. rewrite hn, hn' by lia. f_equal.
  apply (is_raw_unique l lp (-m)); [exact hr'|apply is_raw_neg; exact hr|lia].
Qed.
