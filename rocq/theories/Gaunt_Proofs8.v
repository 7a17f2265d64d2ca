(** * The numbers computed by gaunt are the integrals of three spherical harmonics *)
From Coq Require Import Bool Reals ZArith Lia Lra Psatz.
From Coquelicot Require Import Coquelicot.
From Coq Require Import List.
From Verif Require Import Base Gaunt_Model Gaunt_Spec Gaunt_Proofs Gaunt_Proofs7.
Import ListNotations.
Open Scope R_scope.

Lemma xa_xalpha l lp p : xa l lp p = xalpha l lp p.
Proof. reflexivity. Qed.

Section coefs.
Context (l lp m : nat) (hm1 : (m <= l)%nat) (hm2 : (m <= lp)%nat).
Let k := Nat.min l lp.
Let d := dmin l lp.
Let L := (l + lp)%nat.
Let c := cprod l lp m.
Let hsum : (d + 2 * k = L)%nat := dmin_sum l lp.

Lemma c_low p : (p < d)%nat -> c p = 0.
Proof. intro h; apply cprod_low; try assumption; unfold d, dmin in h; lia. Qed.
Lemma c_high p : (L < p)%nat -> c p = 0.
Proof. intro h; apply cprod_high; try assumption. Qed.
Lemma c_rec p : (d <= p < L)%nat ->
  c p = ((4 * INR m ^ 2 + xalpha l lp (INR p + 2) + xalpha l lp (INR p + 3)) * c (p + 2)%nat - xalpha l lp (INR p + 4) * c (p + 4)%nat)
        / xalpha l lp (INR p + 1).
Proof.
intro hp. pose proof (@cprod_rec l lp m p hm1 hm2) as h. fold c in h. change xa with xalpha in h.
assert (nz : xalpha l lp (INR p + 1) <> 0).
{ change 1 with (INR 1); rewrite <- plus_INR; apply xalpha_nonzero; fold d; unfold L in hp; lia. }
rewrite !plus_INR in h. replace (INR 1) with 1 in h by reflexivity. replace (INR 2) with 2 in h by (cbn [INR]; lra).
replace (INR 3) with 3 in h by (cbn [INR]; lra). replace (INR 4) with 4 in h by (cbn [INR]; lra).
apply (Rmult_eq_reg_l (xalpha l lp (INR p + 1))); [|exact nz].
set (al := xalpha l lp (INR p + 1)) in *.
rewrite (Rmult_comm al (_ / al)). unfold Rdiv. rewrite (Rmult_assoc _ (/ al) al), Rinv_l, Rmult_1_r by exact nz. lra.
Qed.
Lemma c_odd : forall j p, (L - p <= j)%nat -> (d <= p)%nat -> (exists i, p = (d + 2 * i + 1)%nat) -> c p = 0.
Proof.
induction j as [j IH] using lt_wf_ind; intros p h1 h2 [i hi].
destruct (Nat.lt_ge_cases L p) as [h|h]; [apply c_high; exact h|].
assert (p <> L) by lia.
rewrite c_rec by lia.
rewrite (IH (j - 2)%nat) with (p := (p + 2)%nat); try lia. 2:{ exists (i + 1)%nat; lia. }
rewrite (IH (j - 2)%nat) with (p := (p + 4)%nat); try lia. 2:{ exists (i + 2)%nat; lia. }
unfold Rdiv; ring.
Qed.

Definition Kn : R := sqrt ((2 * INR l + 1) * (2 * INR lp + 1) / (4 * PI)) *
  sqrt (INR (fact (l - m)) * INR (fact (lp - m)) / (INR (fact (l + m)) * INR (fact (lp + m)))).

Lemma top_amax : Kn * (-1) ^ m * c L = amaxR l lp (Z.of_nat m).
Proof.
unfold c, L. rewrite cprod_top by assumption.
unfold Kn, amaxR.
replace (Z.to_nat (Z.of_nat l - Z.of_nat m)) with (l - m)%nat by lia.
replace (Z.to_nat (Z.of_nat lp - Z.of_nat m)) with (lp - m)%nat by lia.
replace (Z.to_nat (Z.of_nat l + Z.of_nat m)) with (l + m)%nat by lia.
replace (Z.to_nat (Z.of_nat lp + Z.of_nat m)) with (lp + m)%nat by lia.
set (S := sqrt ((2 * INR l + 1) * (2 * INR lp + 1) / (4 * PI))).
set (T := INR (fact (2 * l)) * INR (fact (2 * lp)) * INR (fact (l + lp)) ^ 2 / (INR (fact l) * INR (fact lp) * INR (fact (2 * (l + lp))))).
set (a := INR (fact (l - m))). set (b := INR (fact (lp - m))). set (e := INR (fact (l + m))). set (f := INR (fact (lp + m))).
assert (ha : 0 < a) by apply INR_fact_lt_0. assert (hb : 0 < b) by apply INR_fact_lt_0.
assert (he : 0 < e) by apply INR_fact_lt_0. assert (hf : 0 < f) by apply INR_fact_lt_0.
assert (hab : 0 < a * b) by (apply Rmult_lt_0_compat; assumption). assert (hef : 0 < e * f) by (apply Rmult_lt_0_compat; assumption).
assert (hq : sqrt (a * b / (e * f)) / (a * b) = / sqrt (a * e * (b * f))).
{ replace (a * e * (b * f)) with ((a * b) * (e * f)) by ring.
  rewrite sqrt_mult by lra. rewrite sqrt_div by lra.
  pose proof (sqrt_lt_R0 _ hab) as s1. pose proof (sqrt_lt_R0 _ hef) as s2.
  rewrite <- (sqrt_sqrt (a * b)) at 2 by lra. field; split; lra. }
assert (hm : (-1) ^ m * (-1) ^ m = 1).
{ rewrite <- Rpow_mult_distr. replace (-1 * -1) with 1 by ring. apply pow1. }
transitivity (((-1) ^ m * (-1) ^ m) * T * S * (sqrt (a * b / (e * f)) / (a * b))).
- field; split; lra.
- rewrite hm, hq. unfold Rdiv. ring.
Qed.

Lemma raw_coefs : is_raw l lp (Z.of_nat m) (fun i => Kn * (-1) ^ m * c (d + 2 * i)%nat).
Proof.
unfold is_raw; fold k d. split; [|split].
- rewrite hsum. exact top_amax.
- intro h1. replace (d + 2 * (k - 1))%nat with (L - 2)%nat by lia.
  rewrite <- top_amax. rewrite c_rec by lia.
  replace (L - 2 + 2)%nat with L by lia. rewrite (c_high (L - 2 + 4)) by lia.
  assert (hL : INR (L - 2) = INR l + INR lp - 2) by (rewrite minus_INR by lia; unfold L; rewrite plus_INR; cbn [INR]; ring).
  rewrite hL. unfold xalpha, ratio. rewrite <- INR_IZR_INZ.
  assert (hl : 1 <= INR l) by (change 1 with (INR 1); apply le_INR; lia).
  assert (hlp : 1 <= INR lp) by (change 1 with (INR 1); apply le_INR; lia).
  set (x := INR l) in *. set (y := INR lp) in *.
  assert (A1 : (x + y - 2 + 3) * (x + y - 2 + 3) - (x + y + 1) ^ 2 = 0) by ring. rewrite A1.
  assert (n1 : 2 * (x + y) - 1 <> 0) by lra. assert (n2 : 2 * (x + y) - 3 <> 0 ) by lra.
  assert (n3 : 2 * x - 1 <> 0) by lra. assert (n4 : 2 * y - 1 <> 0) by lra. assert (n5 : x + y <> 0) by lra. assert (n6 : 2 * (x + y) + 1 <> 0) by lra.
  assert (B1 : ((x + y - 2 + 1) * (x + y - 2 + 1) - (x + y + 1) ^ 2) * ((x + y - 2 + 1) * (x + y - 2 + 1) - (x - y) ^ 2) /
     (4 * (x + y - 2 + 1) * (x + y - 2 + 1) - 1) = - 4 * (x + y) * ((2 * x - 1) * (2 * y - 1)) / ((2 * (x + y) - 3) * (2 * (x + y) - 1))).
  { field. repeat split; try assumption; nra. }
  rewrite B1.
  assert (B2 : ((x + y - 2 + 2) * (x + y - 2 + 2) - (x + y + 1) ^ 2) * ((x + y - 2 + 2) * (x + y - 2 + 2) - (x - y) ^ 2) /
     (4 * (x + y - 2 + 2) * (x + y - 2 + 2) - 1) = - 4 * x * y / (2 * (x + y) - 1)).
  { field. repeat split; try assumption; nra. }
  rewrite B2. set (C := c L). set (M := INR m).
  replace (0 * ((x + y - 2 + 3) * (x + y - 2 + 3) - (x - y) ^ 2) / (4 * (x + y - 2 + 3) * (x + y - 2 + 3) - 1)) with 0 by (unfold Rdiv; ring).
  rewrite Rmult_0_r, Rminus_0_r, Rplus_0_r.
  field. repeat split; assumption.
- intros i hi. rewrite <- INR_IZR_INZ. rewrite c_rec by lia.
  replace (d + 2 * i + 2)%nat with (d + 2 * (i + 1))%nat by lia. replace (d + 2 * i + 4)%nat with (d + 2 * (i + 2))%nat by lia.
  replace (INR (d + 2 * i)) with (INR d + 2 * INR i) by (rewrite plus_INR, mult_INR; cbn [INR]; ring).
  unfold Rdiv; ring.
Qed.
End coefs.

Lemma sum_below f d : (forall p, (p < d)%nat -> f p = 0) -> sum_f_R0 f d = f d.
Proof.
induction d as [|d IH]; intro h; [reflexivity|]. cbn [sum_f_R0].
assert (forall n, (n <= d)%nat -> sum_f_R0 f n = 0) as h0.
{ induction n as [|n IHn]; intro hn; cbn [sum_f_R0]; [apply h; lia|]. rewrite IHn, h by lia; ring. }
rewrite h0 by lia; ring.
Qed.
Lemma sum_sparse f d k : (forall p, (p < d)%nat -> f p = 0) -> (forall i, (i < k)%nat -> f (d + 2 * i + 1)%nat = 0) ->
  sum_f_R0 f (d + 2 * k) = sum_f_R0 (fun i => f (d + 2 * i)%nat) k.
Proof.
intros h1; induction k as [|k IH]; intro h2.
- rewrite Nat.mul_0_r, Nat.add_0_r. cbn [sum_f_R0]. rewrite Nat.mul_0_r, Nat.add_0_r. apply sum_below; exact h1.
- replace (d + 2 * S k)%nat with (S (S (d + 2 * k))) by lia. cbn [sum_f_R0].
  rewrite IH by (intros; apply h2; lia).
  replace (S (d + 2 * k)) with (d + 2 * k + 1)%nat by lia. rewrite h2 by lia.
  replace (d + 2 * k + 1)%nat with (d + 2 * k + 1)%nat by lia.
  replace (S (d + 2 * k + 1)) with (d + 2 * S k)%nat by lia. ring.
Qed.

(** ** spherical harmonics *)
Lemma Ylm_pos l m x : Ylm l (Z.of_nat m) x = sqrt ((2 * INR l + 1) / (4 * PI) * (INR (fact (l - m)) / INR (fact (l + m)))) * Pml l m x.
Proof. destruct m as [|m]; cbn [Z.of_nat Ylm Z.to_nat]; [reflexivity|]. rewrite SuccNat2Pos.id_succ. reflexivity. Qed.
Lemma Ylm_neg l m x : Ylm l (- Z.of_nat m) x = sqrt ((2 * INR l + 1) / (4 * PI) * (INR (fact (l + m)) / INR (fact (l - m)))) * Pml_neg l m x.
Proof.
destruct m as [|m]; cbn [Z.of_nat Z.opp Ylm].
- unfold Pml_neg. change (Z.to_nat 0) with 0%nat. rewrite Nat.add_0_r, Nat.sub_0_r. cbn [pow].
  assert (e : INR (fact l) / INR (fact l) = 1) by (field; apply INR_fact_neq_0). rewrite e. ring.
- rewrite SuccNat2Pos.id_succ. reflexivity.
Qed.
Lemma Ylm_0 p x : Ylm p 0 x = sqrt ((2 * INR p + 1) / (4 * PI)) * legendre p x.
Proof.
rewrite (Ylm_pos p 0). rewrite Nat.add_0_r, Nat.sub_0_r. unfold Pml; cbn [pow Derive_n].
assert (e : INR (fact p) / INR (fact p) = 1) by (field; apply INR_fact_neq_0). rewrite e, Rmult_1_r. ring.
Qed.

Lemma Y_product l lp m x : -1 <= x <= 1 ->
  Ylm l (Z.of_nat m) x * Ylm lp (- Z.of_nat m) x = Kn l lp m * (-1) ^ m / sqrt (4 * PI) * prodf l lp m x.
Proof.
intro hx. rewrite Ylm_pos, Ylm_neg. unfold Pml_neg, Pml, prodf, Kn.
assert (hs : sqrt (1 - x ^ 2) ^ m * sqrt (1 - x ^ 2) ^ m = (1 - x ^ 2) ^ m).
{ rewrite <- Rpow_mult_distr, sqrt_sqrt by nra. reflexivity. }
pose proof PI_RGT_0 as hpi. pose proof (pos_INR l) as hl. pose proof (pos_INR lp) as hlp.
set (a := INR (fact (l - m))). set (b := INR (fact (lp - m))). set (e := INR (fact (l + m))). set (f := INR (fact (lp + m))).
assert (ha : 0 < a) by apply INR_fact_lt_0. assert (hb : 0 < b) by apply INR_fact_lt_0.
assert (he : 0 < e) by apply INR_fact_lt_0. assert (hf : 0 < f) by apply INR_fact_lt_0.
assert (hm : (-1) ^ m * (-1) ^ m = 1).
{ rewrite <- Rpow_mult_distr. replace (-1 * -1) with 1 by ring. apply pow1. }
assert (h4 : 0 < 4 * PI) by lra.
set (A := 2 * INR l + 1). set (B := 2 * INR lp + 1). assert (hA : 0 < A) by (unfold A; lra). assert (hB : 0 < B) by (unfold B; lra).
assert (E : sqrt (A / (4 * PI) * (a / e)) * (sqrt (B / (4 * PI) * (f / b)) * (b / f)) = sqrt (A * B / (4 * PI)) * sqrt (a * b / (e * f)) / sqrt (4 * PI)).
{ replace (b / f) with (sqrt b * sqrt b / (sqrt f * sqrt f)) by (rewrite !sqrt_sqrt by lra; reflexivity).
  assert (dv : forall u v, 0 < u -> 0 < v -> 0 <= u / v) by (intros u v hu hv; apply Rlt_le, Rdiv_lt_0_compat; assumption).
  assert (hAB : 0 < A * B) by (apply Rmult_lt_0_compat; assumption). assert (hab : 0 < a * b) by (apply Rmult_lt_0_compat; assumption).
  assert (hef : 0 < e * f) by (apply Rmult_lt_0_compat; assumption).
  rewrite (sqrt_mult (A / (4 * PI))), (sqrt_mult (B / (4 * PI))) by (apply dv; assumption).
  rewrite (sqrt_div A), (sqrt_div B), (sqrt_div a), (sqrt_div f), (sqrt_div (A * B)), (sqrt_div (a * b)) by (lra || assumption).
  rewrite (sqrt_mult A B), (sqrt_mult a b), (sqrt_mult e f) by lra.
  pose proof (sqrt_lt_R0 _ h4). pose proof (sqrt_lt_R0 _ ha). pose proof (sqrt_lt_R0 _ hb). pose proof (sqrt_lt_R0 _ he). pose proof (sqrt_lt_R0 _ hf).
  field. repeat split; lra. }
set (s := sqrt (1 - x ^ 2) ^ m) in *. set (U := Derive_n (legendre l) m x). set (V := Derive_n (legendre lp) m x). set (g := (-1) ^ m) in *.
rewrite <- hs.
transitivity (sqrt (A / (4 * PI) * (a / e)) * (sqrt (B / (4 * PI) * (f / b)) * (b / f)) * (g * g) * g * (s * s * U * V)).
- ring.
- rewrite E, hm. unfold Rdiv; ring.
Qed.
Lemma Kn_comm l lp m : Kn l lp m = Kn lp l m.
Proof.
unfold Kn. rewrite (Rmult_comm (2 * INR lp + 1)), (Rmult_comm (INR (fact (lp - m)))), (Rmult_comm (INR (fact (lp + m)))). reflexivity.
Qed.
Lemma prodf_comm l lp m x : prodf l lp m x = prodf lp l m x.
Proof. unfold prodf; ring. Qed.
Lemma Y_product_Z l lp m x : -1 <= x <= 1 ->
  Ylm l m x * Ylm lp (- m) x = Kn l lp (Z.abs_nat m) * (-1) ^ (Z.abs_nat m) / sqrt (4 * PI) * prodf l lp (Z.abs_nat m) x.
Proof.
intro hx. destruct (Z.le_ge_cases 0 m) as [h|h].
- replace m with (Z.of_nat (Z.abs_nat m)) at 1 2 by lia. apply Y_product; exact hx.
- rewrite Kn_comm, prodf_comm, Rmult_comm. rewrite <- Y_product by exact hx.
  replace (Z.of_nat (Z.abs_nat m)) with (- m)%Z by lia. rewrite Z.opp_involutive. reflexivity.
Qed.

(** ** the main theorem *)
Lemma raw_coefs_Z l lp m : (Z.abs m <= Z.of_nat (Nat.min l lp))%Z ->
  is_raw l lp m (fun i => Kn l lp (Z.abs_nat m) * (-1) ^ (Z.abs_nat m) * cprod l lp (Z.abs_nat m) (dmin l lp + 2 * i)%nat).
Proof.
intro hm. assert (h := raw_coefs l lp (Z.abs_nat m) ltac:(lia) ltac:(lia)).
destruct (Z.le_ge_cases 0 m) as [h0|h0].
- replace (Z.of_nat (Z.abs_nat m)) with m in h by lia. exact h.
- apply is_raw_neg in h. replace (- Z.of_nat (Z.abs_nat m))%Z with m in h by lia. exact h.
Qed.
Lemma gaunt_coefs l lp m g : gaunt (Z.of_nat l) (Z.of_nat lp) m = Def g -> (Z.abs m <= Z.of_nat (Nat.min l lp))%Z ->
  forall i, (i <= Nat.min l lp)%nat ->
  nth i g 0 * sqrt (2 * (INR (dmin l lp) + 2 * INR i) + 1) =
  Kn l lp (Z.abs_nat m) * (-1) ^ (Z.abs_nat m) * cprod l lp (Z.abs_nat m) (dmin l lp + 2 * i)%nat.
Proof.
intros hg hm i hi. destruct (gaunt_ok l lp m hm) as [g' [a [e [hl [hr hn]]]]].
rewrite hg in e; injection e as <-. rewrite hn by exact hi.
rewrite <- (is_raw_unique l lp m _ _ hr (raw_coefs_Z l lp m hm) i hi).
assert (0 < sqrt (2 * (INR (dmin l lp) + 2 * INR i) + 1)).
{ apply sqrt_lt_R0. pose proof (pos_INR (dmin l lp)). pose proof (pos_INR i). lra. }
field; lra.
Qed.

Theorem gaunt_linearizes l lp m g : gaunt (Z.of_nat l) (Z.of_nat lp) m = Def g -> (Z.abs m <= Z.of_nat (Nat.min l lp))%Z ->
  forall x, -1 <= x <= 1 ->
  Ylm l m x * Ylm lp (- m) x = sum_f_R0 (fun i => nth i g 0 * Ylm (dmin l lp + 2 * i) 0 x) (Nat.min l lp).
Proof.
intros hg hm x hx. rewrite Y_product_Z by exact hx.
rewrite prod_expansion by lia. rewrite <- (dmin_sum l lp).
rewrite sum_sparse.
- rewrite scal_sum. apply sum_eq. intros i hi.
  rewrite Ylm_0.
  pose proof (gaunt_coefs l lp m g hg hm i hi) as hc.
  pose proof PI_RGT_0 as hpi. pose proof (pos_INR (dmin l lp)) as hd. pose proof (pos_INR i) as hi0.
  rewrite plus_INR, mult_INR. replace (INR 2) with 2 by (cbn [INR]; lra).
  rewrite sqrt_div by lra.
  assert (0 < sqrt (4 * PI)) by (apply sqrt_lt_R0; lra).
  transitivity (Kn l lp (Z.abs_nat m) * (-1) ^ Z.abs_nat m * cprod l lp (Z.abs_nat m) (dmin l lp + 2 * i) / sqrt (4 * PI) * legendre (dmin l lp + 2 * i) x).
  + field; lra.
  + rewrite <- hc. field; lra.
- intros p hp. rewrite (c_low l lp (Z.abs_nat m)) by lia. ring.
- intros i hi. rewrite (c_odd l lp (Z.abs_nat m) ltac:(lia) ltac:(lia) (l + lp) (dmin l lp + 2 * i + 1)); [ring|lia|lia|]. exists i; reflexivity.
Qed.

(** as integrals *)
Definition triple (p l lp : nat) (m : Z) : R := 2 * PI * RInt (fun x => Ylm l m x * Ylm lp (- m) x * Ylm p 0 x) (-1) 1.
Lemma triple_cprod p l lp m :
  triple p l lp m = Kn l lp (Z.abs_nat m) * (-1) ^ (Z.abs_nat m) * cprod l lp (Z.abs_nat m) p / sqrt (2 * INR p + 1).
Proof.
unfold triple. pose proof PI_RGT_0 as hpi. pose proof (pos_INR p) as hp.
assert (h4 : 0 < sqrt (4 * PI)) by (apply sqrt_lt_R0; lra).
assert (h5 : 0 < sqrt (2 * INR p + 1)) by (apply sqrt_lt_R0; lra).
set (q := Kn l lp (Z.abs_nat m) * (-1) ^ (Z.abs_nat m) / sqrt (4 * PI) * sqrt ((2 * INR p + 1) / (4 * PI))).
assert (hI : RInt (fun x => Ylm l m x * Ylm lp (- m) x * Ylm p 0 x) (-1) 1 = q * RInt (fun x => prodf l lp (Z.abs_nat m) x * legendre p x) (-1) 1).
{ transitivity (RInt (fun x => scal q (prodf l lp (Z.abs_nat m) x * legendre p x)) (-1) 1).
  - apply RInt_ext. intros x hx. rewrite Rmin_left, Rmax_right in hx by lra. rewrite Y_product_Z by lra. rewrite Ylm_0.
    unfold q, scal; cbn; unfold mult; cbn. ring.
  - apply (RInt_scal (V := R_CompleteNormedModule) (fun x => prodf l lp (Z.abs_nat m) x * legendre p x)).
    apply prod_leg_ex_RInt. }
rewrite hI, cprod_integral.
set (I := RInt _ _ _). unfold q. rewrite sqrt_div by lra.
assert (e4 : sqrt (4 * PI) * sqrt (4 * PI) = 4 * PI) by (apply sqrt_sqrt; lra).
assert (e5 : sqrt (2 * INR p + 1) * sqrt (2 * INR p + 1) = 2 * INR p + 1) by (apply sqrt_sqrt; lra).
set (s4 := sqrt (4 * PI)) in *. set (s5 := sqrt (2 * INR p + 1)) in *.
rewrite <- e5. replace (2 * PI) with (s4 * s4 / 2) by (rewrite e4; field).
field; lra.
Qed.
Theorem gaunt_is_triple l lp m g : gaunt (Z.of_nat l) (Z.of_nat lp) m = Def g -> (Z.abs m <= Z.of_nat (Nat.min l lp))%Z ->
  (forall i, (i <= Nat.min l lp)%nat -> nth i g 0 = triple (dmin l lp + 2 * i) l lp m) /\
  (forall p, (forall i, (i <= Nat.min l lp)%nat -> p <> (dmin l lp + 2 * i)%nat) -> triple p l lp m = 0).
Proof.
intros hg hm. split.
- intros i hi. pose proof (gaunt_coefs l lp m g hg hm i hi) as hc. rewrite triple_cprod, <- hc.
  rewrite plus_INR, mult_INR. replace (INR 2) with 2 by (cbn [INR]; lra).
  assert (0 < sqrt (2 * (INR (dmin l lp) + 2 * INR i) + 1)).
  { apply sqrt_lt_R0. pose proof (pos_INR (dmin l lp)). pose proof (pos_INR i). lra. }
  field; lra.
- intros p hp. rewrite triple_cprod.
  replace (cprod l lp (Z.abs_nat m) p) with 0; [unfold Rdiv; ring|]. symmetry.
  destruct (Nat.lt_ge_cases p (dmin l lp)) as [h|h]; [apply c_low; lia|].
  destruct (Nat.lt_ge_cases (l + lp) p) as [h1|h1]; [apply c_high; lia|].
  apply (c_odd l lp (Z.abs_nat m) ltac:(lia) ltac:(lia) (l + lp) p ltac:(lia) h).
  exists ((p - dmin l lp) / 2)%nat.
  pose proof (Nat.div_mod (p - dmin l lp) 2 ltac:(lia)) as hd.
  pose proof (Nat.mod_upper_bound (p - dmin l lp) 2 ltac:(lia)) as hu.
  pose proof (dmin_sum l lp).
  destruct (Nat.eq_dec ((p - dmin l lp) mod 2) 1) as [e|e]; [lia|].
  exfalso. apply (hp ((p - dmin l lp) / 2)%nat); lia.
Qed.
Lemma prodf_high l lp m x : (Nat.min l lp < m)%nat -> prodf l lp m x = 0.
Proof.
intro h. unfold prodf. destruct (Nat.le_ge_cases l lp) as [h1|h1].
- rewrite (@Derive_n_legendre_high l m) by lia. ring.
- rewrite (@Derive_n_legendre_high lp m) by lia. ring.
Qed.
Theorem gaunt_linearizes_all l lp m g : gaunt (Z.of_nat l) (Z.of_nat lp) m = Def g ->
  forall x, -1 <= x <= 1 ->
  Ylm l m x * Ylm lp (- m) x = sum_f_R0 (fun i => nth i g 0 * Ylm (dmin l lp + 2 * i) 0 x) (Nat.min l lp).
Proof.
intros hg x hx. destruct (Z.lt_ge_cases (Z.of_nat (Nat.min l lp)) (Z.abs m)) as [h|h].
- rewrite gaunt_zero in hg by exact h. injection hg as <-.
  rewrite Y_product_Z by exact hx. rewrite prodf_high by lia.
  assert (z : forall f n, (forall i, f i = 0) -> sum_f_R0 f n = 0).
  { intros f n hf; induction n as [|n IH]; cbn [sum_f_R0]; rewrite ?IH, hf; ring. }
  rewrite z; [ring|]. intro i. rewrite nth_repeat. ring.
- apply gaunt_linearizes; [exact hg|lia|exact hx].
Qed.
Theorem gaunt_is_triple_all l lp m g : gaunt (Z.of_nat l) (Z.of_nat lp) m = Def g ->
  (forall i, (i <= Nat.min l lp)%nat -> nth i g 0 = triple (dmin l lp + 2 * i) l lp m) /\
  (forall p, (forall i, (i <= Nat.min l lp)%nat -> p <> (dmin l lp + 2 * i)%nat) -> triple p l lp m = 0).
Proof.
intro hg. destruct (Z.lt_ge_cases (Z.of_nat (Nat.min l lp)) (Z.abs m)) as [h|h].
- rewrite gaunt_zero in hg by exact h. injection hg as <-.
  assert (z : forall p, triple p l lp m = 0).
  { intro p. rewrite triple_cprod, cprod_integral.
    rewrite (RInt_ext _ (fun _ => 0)) by (intros; rewrite prodf_high by lia; apply Rmult_0_l).
    rewrite RInt_const. unfold scal; cbn; unfold mult; cbn. unfold Rdiv; ring. }
  split; [intros i _; rewrite nth_repeat, z; reflexivity|intros; apply z].
- apply gaunt_is_triple; [exact hg|lia].
Qed.
