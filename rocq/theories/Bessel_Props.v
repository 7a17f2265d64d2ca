(** * Properties C24-C28: CasimirRio/bessel_sk.py *)
From Coq Require Import Reals Factorial.
From Coquelicot Require Import Coquelicot.
From Coq Require Import Bool ZArith List Lia Lra Sorted Permutation.
From Verif Require Import Base Bessel_Model Bessel_Spec Bessel_Proofs Bessel_Proofs2 Bessel_Proofs3 Bessel_Proofs4 Bessel_Proofs5 Bessel_Proofs6.
Import ListNotations.
Open Scope R_scope.

(** C24.  lnknu is the logarithm of k_l: column l holds ln k_l of every argument, for all arrays of positive
    arguments and all lmax >= 0; [sph_k] is the closed form, which solves the differential equation. *)
Theorem C24_lnknu_closed_form :
  forall (x : list R) (lmax : nat), (forall t, In t x -> 0 < t) ->
  lnknu x (AnInt (Z.of_nat lmax)) = Ok (map (fun l => map (fun t => ln (sph_k l t)) x) (seq 0 (S lmax))).
Proof. exact lnknu_spec. Qed.
Print Assumptions C24_lnknu_closed_form.
Theorem C24_positive_and_ode :
  forall l, (forall x, 0 < x -> 0 < sph_k l x) /\ bessel_ode l (sph_k l).
Proof. intros l. split; [apply sph_k_pos|apply sph_k_ode]. Qed.
Print Assumptions C24_positive_and_ode.
Theorem C24_order_check :
  forall x, lnknu x NotInt = Err TypeError /\
    forall z, (z < 0)%Z -> lnknu x (AnInt z) = Err (if (z =? -1)%Z then IndexError else ValueError).
Proof. intros x. split; [reflexivity|apply lnknu_negative]. Qed.
Print Assumptions C24_order_check.
Example C24_example : exists c0 c1, lnknu [1; 2] (AnInt 1) = Ok [c0; c1] /\ nth 1 c0 0 = ln (PI / 2 * exp (- 2) / 2).
Proof.
  eexists; eexists. split.
  - apply (C24_lnknu_closed_form [1; 2] 1). intros t [<-|[<-|[]]]; lra.
  - cbn [map nth]. rewrite sph_k_0 by lra. reflexivity.
Qed.

(** C25.  The first two columns: exact from 1e-3 on, Taylor polynomials with a proved error below. *)
Theorem C25_reference_functions :
  (forall x, 0 < x -> sph_i 0 x = sinh x / x /\ sph_i 1 x = (x * cosh x - sinh x) / x ^ 2) /\ (forall l, bessel_ode l (sph_i l)).
Proof. split; [|apply sph_i_ode]. intros x H. split; [now apply sph_i_0|now apply sph_i_1]. Qed.
Print Assumptions C25_reference_functions.
Theorem C25_columns_0_and_1 :
  forall (x : list R) (lmax : nat) lni lnk, x <> [] -> (forall t, In t x -> 0 < t) ->
  (StronglySorted Rle x \/ (forall t, In t x -> 1e-3 <= t) \/ (forall t, In t x -> t < 1e-3)) ->
  lniknu x (AnInt (Z.of_nat (S lmax))) = Ok (lni, lnk) ->
  Forall2 (fun t v => (1e-3 <= t -> v = ln (sinh t / t)) /\
                      (t < 1e-3 -> Rabs (v - ln (sinh t / t)) <= t ^ 6 / 1000)) x (nth 0 lni []) /\
  Forall2 (fun t v => (1e-3 <= t -> v = ln ((t * cosh t - sinh t) / t ^ 2)) /\
                      (t < 1e-3 -> Rabs (v - ln ((t * cosh t - sinh t) / t ^ 2)) <= t ^ 4 / 600)) x (nth 1 lni []).
Proof.
  intros x lmax lni lnk Hx Hp Hs E. rewrite lniknu_spec in E by assumption. injection E as <- <-.
  cbn [lni_all firstn nth]. destruct (i01_accurate x Hp Hs) as [H0 H1].
  assert (G : forall (P Q : R -> R -> Prop) y, (forall t v, In t x -> P t v -> Q t v) -> Forall2 P x y -> Forall2 Q x y).
  { clear. intros P Q y H F. induction F as [|a b x y Hab F IH]; constructor; [apply H; [now left|assumption]|]. apply IH. intros t v Ht. apply H. now right. }
  split; (eapply G; [|eassumption]); intros t v Ht; unfold acc0, acc1; [rewrite sph_i_0|rewrite sph_i_1]; try tauto; now apply Hp.
Qed.
Print Assumptions C25_columns_0_and_1.
Theorem C25_order_0_only :
  forall (x : list R), x <> [] -> (forall t, In t x -> 0 < t) ->
  exists i0 lnk, lniknu x (AnInt 0) = Ok ([i0], lnk) /\
    (forall lmax lni' lnk', lniknu x (AnInt (Z.of_nat lmax)) = Ok (lni', lnk') -> nth 0 lni' [] = i0).
Proof.
  intros x Hx Hp. eexists; eexists. split; [apply (lniknu_spec x 0 Hx Hp)|].
  intros lmax lni' lnk' E. rewrite lniknu_spec in E by assumption. injection E as <- <-. destruct lmax; reflexivity.
Qed.
Print Assumptions C25_order_0_only.
Example C25_example : exists lni lnk, lniknu [1e-4; 1; 2] (AnInt 1) = Ok (lni, lnk) /\ nth 1 (nth 0 lni []) 0 = ln (sinh 1 / 1).
Proof.
  assert (Hx : [1e-4; 1; 2] <> []) by discriminate.
  assert (Hp : forall t, In t [1e-4; 1; 2] -> 0 < t) by (intros t [<-|[<-|[<-|[]]]]; lra).
  assert (Hs : StronglySorted Rle [1e-4; 1; 2]) by (repeat (constructor; [|repeat (constructor; try lra)]); constructor).
  eexists; eexists. split; [apply (lniknu_spec _ 1 Hx Hp)|].
  destruct (C25_columns_0_and_1 _ 0 _ _ Hx Hp (or_introl Hs) (lniknu_spec _ 1 Hx Hp)) as [H _].
  assert (N : forall (P : R -> R -> Prop) x y, Forall2 P x y -> forall i, (i < length x)%nat -> P (nth i x 0) (nth i y 0)).
  { clear. intros P x y F. induction F as [|a b x y Hab F IH]; intros i Hi; [inversion Hi|]. destruct i; [assumption|]. apply IH. cbn in Hi. lia. }
  apply (N _ _ _ H 1%nat); cbn; [lia|lra].
Qed.

(** C26.  Orders l >= 2.  For every argument the value is the Wronskian formula with a fraction of 80 terms, or
    140 terms if the last argument of the array exceeds 100. *)
Theorem C26_orders_from_2 :
  forall (x : list R) (lmax : nat) lni lnk, x <> [] -> (forall t, In t x -> 0 < t) ->
  lniknu x (AnInt (Z.of_nat lmax)) = Ok (lni, lnk) ->
  length lni = S lmax /\ lnk = map (fun l => map (fun t => ln (sph_k l t)) x) (seq 0 (S lmax)) /\
  forall l, (2 <= l <= lmax)%nat ->
    nth l lni [] = map (fun t => ln_i_from_ratio l (cfrac t (S l) (if Rltb 100 (last x 0) then 140 else 80)) t) x.
Proof.
  intros x lmax lni lnk Hx Hp E. rewrite lniknu_spec in E by assumption. injection E as <- <-. unfold lni_all.
  split; [|split; [reflexivity|]].
  - rewrite firstn_length. cbn [length]. rewrite map_length, seq_length. lia.
  - intros l Hl. rewrite firstn_all2 by (cbn [length]; rewrite map_length, seq_length; lia).
    destruct l as [|[|l]]; [lia|lia|]. cbn [nth]. rewrite (nth_indep _ [] (lni_col x 0)) by (rewrite map_length, seq_length; lia).
    rewrite map_nth, seq_nth by lia. reflexivity.
Qed.
Print Assumptions C26_orders_from_2.
Theorem C26_exact_ratio :
  forall l x, 0 < x -> ln_i_from_ratio l (sph_i l x / sph_i (S l) x) x = ln (sph_i l x).
Proof. intros l x H. exact (exact_ratio x H l). Qed.
Print Assumptions C26_exact_ratio.
Theorem C26_fraction_brackets :
  forall l n x, 0 < x -> (1 <= n)%nat ->
  (Nat.odd n = true -> cfrac x (S l) n < sph_i l x / sph_i (S l) x) /\
  (Nat.even n = true -> sph_i l x / sph_i (S l) x < cfrac x (S l) n).
Proof. intros l n x H Hn. destruct n as [|n]; [lia|]. exact (cfrac_side x H n l). Qed.
Print Assumptions C26_fraction_brackets.
Theorem C26_fraction_converges :
  forall l x, 0 < x -> is_lim_seq (fun n => cfrac x (S l) n) (sph_i l x / sph_i (S l) x).
Proof. intros l x H. exact (cfrac_lim x H l). Qed.
Print Assumptions C26_fraction_converges.
(** the computed logarithm is above the exact one, by less than ln 2 for every argument, and by less than 1e-19
    (80 terms, x <= 100) and 1e-14 (140 terms, x <= 300) *)
Theorem C26_one_sided_error :
  forall l k x, 0 < x ->
  0 < ln_i_from_ratio l (cfrac x (S l) (2 * k + 2)) x - ln (sph_i l x) < ln 2.
Proof.
  intros l k x H. split; [apply (err_even x H k l)|]. apply (err_ln2 x H l).
  replace (2 * k + 2)%nat with (S (2 * k + 1)) by lia. now apply cfrac_pos.
Qed.
Print Assumptions C26_one_sided_error.
Theorem C26_accuracy :
  forall l x, (2 <= l)%nat -> 0 < x ->
  (x <= 100 -> ln_i_from_ratio l (cfrac x (S l) 80) x - ln (sph_i l x) <= / 10 ^ 19) /\
  (x <= 300 -> ln_i_from_ratio l (cfrac x (S l) 140) x - ln (sph_i l x) <= / 10 ^ 14).
Proof.
  intros l x Hl Hx. split; intros H.
  - apply Rle_trans with (bound x 39 l); [exact (proj2 (err_even x Hx 39 l))|apply bound_80; [assumption|lra]].
  - apply Rle_trans with (bound x 69 l); [exact (proj2 (err_even x Hx 69 l))|apply bound_140; [assumption|lra]].
Qed.
Print Assumptions C26_accuracy.
(** for ascending arrays up to 300 all columns from order 2 on are ln i_l up to 1e-14 *)
Theorem C26_ascending_arrays :
  forall (x : list R) (lmax : nat) lni lnk, x <> [] -> (forall t, In t x -> 0 < t <= 300) -> StronglySorted Rle x ->
  lniknu x (AnInt (Z.of_nat lmax)) = Ok (lni, lnk) ->
  forall l, (2 <= l <= lmax)%nat -> Forall2 (fun t v => 0 < v - ln (sph_i l t) <= / 10 ^ 14) x (nth l lni []).
Proof.
  intros x lmax lni lnk Hx Hr Hs E l Hl. assert (Hp : forall t, In t x -> 0 < t) by (intros t Ht; apply Hr; assumption).
  destruct (C26_orders_from_2 x lmax lni lnk Hx Hp E) as [_ [_ ->]]; [|assumption]. apply F2_map. intros t Ht.
  assert (T := Hr t Ht). destruct (Rltb_spec 100 (last x 0)) as [L|L].
  - split; [exact (proj1 (C26_one_sided_error l 69 t (proj1 T)))|]. apply C26_accuracy; [lia|lra|lra].
  - split; [exact (proj1 (C26_one_sided_error l 39 t (proj1 T)))|].
    apply Rle_trans with (/ 10 ^ 19).
    + apply C26_accuracy; [lia|lra|]. apply Rle_trans with (last x 0); [|lra].
      clear -Hs Ht. induction Hs as [|a x Hs IH Ha]; [destruct Ht|]. destruct x as [|b x]; [destruct Ht as [->|[]]; cbn; lra|].
      change (t <= last (b :: x) 0). destruct Ht as [->|Ht]; [|now apply IH].
      rewrite Forall_forall in Ha. apply Ha. clear. revert b. induction x as [|c x IH]; intros b; [now left|]. right. apply IH.
    + apply Rinv_le_contravar; [apply pow_lt; lra|]. apply Rle_pow; [lra|lia].
Qed.
Print Assumptions C26_ascending_arrays.
(** defect: the number of terms is fixed, so for large arguments the error approaches ln 2 for every order *)
Theorem C26_large_arguments_refuted :
  forall l k, is_lim (fun x => ln_i_from_ratio l (cfrac x (S l) (2 * k + 2)) x - ln (sph_i l x)) p_infty (ln 2).
Proof. exact err_limit. Qed.
Print Assumptions C26_large_arguments_refuted.
Theorem C26_empty_and_errors :
  (forall lmax, (2 <= lmax)%nat -> lniknu [] (AnInt (Z.of_nat lmax)) = Err IndexError) /\
  (forall x, lniknu x NotInt = Err TypeError) /\
  (forall x z, (z < 0)%Z -> lniknu x (AnInt z) = Err (if (z =? -1)%Z then IndexError else ValueError)).
Proof. split; [exact lniknu_empty|split; [reflexivity|exact lniknu_negative]]. Qed.
Print Assumptions C26_empty_and_errors.
Example C26_example : exists lni lnk, lniknu [1; 150] (AnInt 3) = Ok (lni, lnk) /\
  nth 0 (nth 3 lni []) 0 = ln_i_from_ratio 3 (cfrac 1 4 140) 1.
Proof.
  assert (Hx : [1; 150] <> []) by discriminate. assert (Hp : forall t, In t [1; 150] -> 0 < t) by (intros t [<-|[<-|[]]]; lra).
  eexists; eexists. split; [apply (lniknu_spec _ 3 Hx Hp)|].
  destruct (C26_orders_from_2 _ 3 _ _ Hx Hp (lniknu_spec _ 3 Hx Hp)) as [_ [_ E]]. rewrite E by lia. cbn [map nth last].
  destruct (Rltb_spec 100 150) as [_|H]; [reflexivity|exfalso; lra].
Qed.

(** C27.  Dependence on the other arguments of the array. *)
Theorem C27_orders_0_1_elementwise :
  forall x : list R,
  ((forall t, In t x -> 1e-3 <= t) -> i01 x = (map i0lg x, map i1lg x)) /\
  ((forall t, In t x -> t < 1e-3) -> i01 x = (map i0sm x, map i1sm x)) /\
  ((exists t, In t x /\ t < 1e-3) -> (exists t, In t x /\ 1e-3 <= t) ->
     let f0 t := if is_small t then i0sm_mixed t else i0lg t in
     let f1 t := if is_small t then i1sm_mixed t else i1lg t in
     (exists y, Permutation y x /\ i01 x = (map f0 y, map f1 y)) /\
     (StronglySorted Rle x -> i01 x = (map f0 x, map f1 x))).
Proof.
  intros x. split; [apply i01_large|split; [apply i01_small|]]. intros H1 H2. split.
  - exists (small_first x). split; [apply small_first_perm|now apply i01_mixed].
  - intros Hs. rewrite i01_mixed by assumption. now rewrite small_first_sorted.
Qed.
Print Assumptions C27_orders_0_1_elementwise.
(** the remaining columns are elementwise apart from the number of terms *)
Theorem C27_other_orders_elementwise :
  forall (x y : list R) (lmax : nat) lni lnk lni' lnk', (forall t, In t x -> 0 < t) -> (forall t, In t y -> 0 < t) ->
  lniknu x (AnInt (Z.of_nat lmax)) = Ok (lni, lnk) -> lniknu y (AnInt (Z.of_nat lmax)) = Ok (lni', lnk') ->
  x <> [] -> y <> [] -> (last x 0 <= 100 <-> last y 0 <= 100) ->
  forall i j, (i < length x)%nat -> (j < length y)%nat -> nth i x 0 = nth j y 0 ->
  (forall l, (2 <= l <= lmax)%nat -> nth i (nth l lni []) 0 = nth j (nth l lni' []) 0) /\
  (forall l, (l <= lmax)%nat -> nth i (nth l lnk []) 0 = nth j (nth l lnk' []) 0).
Proof.
  intros x y lmax lni lnk lni' lnk' Hx Hy E E' Nx Ny HL i j Hi Hj Hij.
  destruct (C26_orders_from_2 x lmax lni lnk Nx Hx E) as [_ [-> A1]]. destruct (C26_orders_from_2 y lmax lni' lnk' Ny Hy E') as [_ [-> A2]].
  assert (M : forall (f : R -> R) z k, (k < length z)%nat -> nth k (map f z) 0 = f (nth k z 0)).
  { intros f z k Hk. rewrite (nth_indep _ 0 (f 0)) by (now rewrite map_length). apply map_nth. }
  split; intros l Hl.
  - rewrite A1, A2 by assumption. rewrite !M by assumption. rewrite Hij.
    replace (Rltb 100 (last x 0)) with (Rltb 100 (last y 0)); [reflexivity|].
    destruct (Rltb_spec 100 (last y 0)), (Rltb_spec 100 (last x 0)); try reflexivity; exfalso; lra.
  - rewrite !nth_map_seq by lia. rewrite !M by assumption. now rewrite Hij.
Qed.
Print Assumptions C27_other_orders_elementwise.
(** defect: in a mixed array in descending order the rows of orders 0 and 1 are exchanged *)
Theorem C27_rows_permuted_refuted :
  forall a b, 1e-2 <= a -> 0 < b < 1e-3 ->
  exists lni lnk, lniknu [a; b] (AnInt 0) = Ok (lni, lnk) /\
    nth 0 lni [] = [i0sm_mixed b; i0lg a] /\ 1e-5 < ln (sph_i 0 a) - nth 0 (nth 0 lni []) 0.
Proof.
  intros a b Ha Hb. destruct (permuted_pair a b Ha Hb) as [E H].
  exists [fst (i01 [a; b])]. eexists. split; [apply (lniknu_spec _ 0)|].
  - discriminate.
  - intros t [<-|[<-|[]]]; lra.
  - rewrite E. cbn [fst nth]. split; [reflexivity|assumption].
Qed.
Print Assumptions C27_rows_permuted_refuted.
(** defect: the row of an argument above 100 changes if an argument below 100 follows it *)
Theorem C27_truncation_refuted :
  forall t s l lmax, 100 < t -> 0 < s <= 100 -> (2 <= l <= lmax)%nat ->
  exists lni lnk lni' lnk', lniknu [t] (AnInt (Z.of_nat lmax)) = Ok (lni, lnk) /\ lniknu [t; s] (AnInt (Z.of_nat lmax)) = Ok (lni', lnk') /\
    nth 0 (nth l lni []) 0 < nth 0 (nth l lni' []) 0.
Proof.
  intros t s l lmax Ht Hs Hl.
  assert (P1 : forall u, In u [t] -> 0 < u) by (intros u [<-|[]]; lra).
  assert (P2 : forall u, In u [t; s] -> 0 < u) by (intros u [<-|[<-|[]]]; lra).
  do 4 eexists. split; [apply lniknu_spec; [discriminate|assumption]|]. split; [apply lniknu_spec; [discriminate|assumption]|].
  destruct (C26_orders_from_2 [t] lmax _ _ ltac:(discriminate) P1 (lniknu_spec [t] lmax ltac:(discriminate) P1)) as [_ [_ ->]]; [|assumption].
  destruct (C26_orders_from_2 [t; s] lmax _ _ ltac:(discriminate) P2 (lniknu_spec [t; s] lmax ltac:(discriminate) P2)) as [_ [_ ->]]; [|assumption].
  cbn [map nth last]. destruct (Rltb_spec 100 t) as [_|H]; [|exfalso; lra]. destruct (Rltb_spec 100 s) as [H|_]; [exfalso; lra|].
  now apply truncation_differs.
Qed.
Print Assumptions C27_truncation_refuted.

(** C28.  Orders handed to the Mie and translation coefficients. *)
Theorem C28_mie_bessels :
  forall (kr : list R) (lmin lmax : nat), kr <> [] -> (forall t, In t kr -> 0 < t) -> (lmin <= lmax)%nat ->
  exists lni lnk lni' lnk', lniknu kr (AnInt (Z.of_nat lmax)) = Ok (lni, lnk) /\
    mie_bessels kr lmin (Z.of_nat lmax) = Ok (lni', lnk') /\
    length lni' = (lmax - lmin + 1)%nat /\ length lnk' = (lmax - lmin + 1)%nat /\
    forall l, (lmin <= l <= lmax)%nat -> nth (l - lmin) lni' [] = nth l lni [] /\ nth (l - lmin) lnk' [] = map (fun t => ln (sph_k l t)) kr.
Proof.
  intros kr lmin lmax Hk Hp Hl. assert (E := lniknu_spec kr lmax Hk Hp).
  assert (S1 : forall (x : list (list R)) n k, nth k (skipn n x) [] = nth (n + k) x []).
  { clear. intros x n. revert x. induction n as [|n IH]; intros x k; [reflexivity|]. destruct x; [now destruct k|]. apply IH. }
  do 4 eexists. split; [exact E|]. split; [|split; [|split]].
  - unfold mie_bessels. replace (Z.of_nat lmax <? Z.of_nat lmin)%Z with false by (symmetry; apply Z.ltb_ge; lia). rewrite E. reflexivity.
  - cbn [fst]. rewrite skipn_length, (proj1 (C26_orders_from_2 _ _ _ _ Hk Hp E)). lia.
  - cbn [snd]. rewrite skipn_length, map_length, seq_length. lia.
  - intros l H. cbn [fst snd]. rewrite !S1. replace (lmin + (l - lmin))%nat with l by lia. split; [reflexivity|]. rewrite nth_map_seq by lia. reflexivity.
Qed.
Print Assumptions C28_mie_bessels.
Theorem C28_lmin_above_lmax :
  forall kr lmin lmax, (lmax < Z.of_nat lmin)%Z -> mie_bessels kr lmin lmax = Err ValueError.
Proof. intros kr lmin lmax H. unfold mie_bessels. now replace (lmax <? Z.of_nat lmin)%Z with true by (symmetry; now apply Z.ltb_lt). Qed.
Print Assumptions C28_lmin_above_lmax.
Theorem C28_trans_bessels :
  forall (kr : list R) (lmax : nat), kr <> [] -> (forall t, In t kr -> 0 < t) ->
  trans_bessels kr (AnInt (Z.of_nat lmax)) true = Ok (map (fun l => map (fun t => ln (sph_k l t)) kr) (seq 0 (S lmax))) /\
  exists lni lnk, lniknu kr (AnInt (Z.of_nat lmax)) = Ok (lni, lnk) /\ trans_bessels kr (AnInt (Z.of_nat lmax)) false = Ok lni /\ length lni = S lmax.
Proof.
  intros kr lmax Hk Hp. split; [exact (lnknu_spec kr lmax Hp)|]. do 2 eexists. split; [exact (lniknu_spec kr lmax Hk Hp)|]. split.
  - unfold trans_bessels. rewrite (lniknu_spec kr lmax Hk Hp). reflexivity.
  - apply (C26_orders_from_2 kr lmax _ _ Hk Hp (lniknu_spec kr lmax Hk Hp)).
Qed.
Print Assumptions C28_trans_bessels.
(** i_fraction is the ratio I_{l+1/2}/I_{l+3/2}, approached from above *)
Theorem C28_i_fraction :
  forall (x : list R) (ls : list nat), x <> [] ->
  i_fraction x (map (fun l => INR l + 0.5) ls) =
    Ok (map (fun l => map (fun t => cfrac t (S l) (if Rltb 100 (last x 0) then 140 else 80)) x) ls).
Proof. intros x ls Hx. induction ls as [|l ls IH]; [reflexivity|]. cbn [map i_fraction]. rewrite fnu_spec by assumption. cbn [bind]. rewrite IH. reflexivity. Qed.
Print Assumptions C28_i_fraction.
Example C28_example : exists i k, mie_bessels [1; 2] 1 2 = Ok (i, k) /\ length i = 2%nat.
Proof.
  destruct (C28_mie_bessels [1; 2] 1 2) as [? [? [i [k [_ [H1 [H2 _]]]]]]]; [discriminate|intros t [<-|[<-|[]]]; lra|lia|].
  exists i, k. split; assumption.
Qed.
