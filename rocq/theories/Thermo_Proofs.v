From Coq Require Import Bool Reals List ZArith Lia Lra.
From Verif Require Import Base Thermo_Model Thermo_Spec.
Import ListNotations.
Open Scope R_scope.

(** ** arange *)
Lemma arange_length a b : length (arange a b) = Z.to_nat (b - a).
Proof. unfold arange. now rewrite map_length, seq_length. Qed.

Lemma arange_consecutive a b : arange a b = consecutive a (Z.to_nat (b - a)).
Proof. reflexivity. Qed.

Lemma arange_app a b c : (a <= b <= c)%Z -> arange a c = arange a b ++ arange b c.
Proof.
  intros H. unfold arange.
  replace (Z.to_nat (c - a)) with (Z.to_nat (b - a) + Z.to_nat (c - b))%nat by lia.
  rewrite seq_app, map_app. f_equal.
  rewrite <- (Nat.add_0_r (0 + Z.to_nat (b - a))), <- !Nat.add_assoc, Nat.add_comm.
  simpl. rewrite Nat.add_0_r.
  change (Z.to_nat (b - a)) with (0 + Z.to_nat (b - a))%nat at 1.
  revert b H. intros b H.
  apply nth_ext with (d := 0%Z) (d' := 0%Z).
  - now rewrite !map_length, !seq_length.
  - intros n Hn. rewrite map_length, seq_length in Hn.
    rewrite !(nth_indep _ 0%Z (a + Z.of_nat 0)%Z) by (rewrite map_length, seq_length; lia).
    rewrite (map_nth (fun i => (a + Z.of_nat i)%Z)), seq_nth by lia.
    rewrite (nth_indep _ (a + Z.of_nat 0)%Z (b + Z.of_nat 0)%Z) by (rewrite map_length, seq_length; lia).
    rewrite (map_nth (fun i => (b + Z.of_nat i)%Z)), seq_nth by lia. lia.
Qed.

(** ** slicewise_eval *)
(** The slices that are visited: full ones of size [step], then a shorter one. *)
Fixpoint chunks_of (fuel : nat) (nmin nmax step : Z) : list (list Z) :=
  match fuel with
  | O => []
  | S fuel => if (nmin <=? nmax)%Z then
      let nsl := Z.min (nmin + step - 1) nmax in
      arange nmin (nsl + 1) :: chunks_of fuel (nsl + 1) nmax step
    else []
  end.

Lemma chunks_of_concat : forall fuel nmin nmax step,
  (0 < step)%Z -> (nmin <= nmax + 1)%Z -> (Z.to_nat (nmax - nmin + 1) < fuel)%nat ->
  concat (chunks_of fuel nmin nmax step) = arange nmin (nmax + 1).
Proof.
  induction fuel as [|fuel IH]; intros nmin nmax step Hs Hn Hf; [lia|]. cbn [chunks_of].
  destruct (Z.leb_spec nmin nmax) as [Hle|Hgt].
  - cbn [concat]. rewrite IH by lia. symmetry. apply arange_app. lia.
  - simpl. unfold arange. replace (Z.to_nat (nmax + 1 - nmin)) with 0%nat by lia. reflexivity.
Qed.

Lemma chunks_of_sizes : forall fuel nmin nmax step,
  (0 < step)%Z ->
  Forall (fun c => (1 <= Z.of_nat (length c) <= step)%Z) (chunks_of fuel nmin nmax step).
Proof.
  induction fuel as [|fuel IH]; intros nmin nmax step Hs; cbn [chunks_of]; [constructor|].
  destruct (Z.leb_spec nmin nmax) as [Hle|Hgt]; [|constructor].
  constructor; [|now apply IH]. rewrite arange_length. lia.
Qed.

Section Slice.
  Context {S A : Type} (func : list Z -> M S (list A)).

  Lemma slice_assign_fits (result v : list A) a b :
    (a <= b <= length result)%nat ->
    (exists w, stored_as (b - a) v w /\
       slice_assign result a b v = Ok (firstn a result ++ w ++ skipn b result)) \/
    ((forall w, ~ stored_as (b - a) v w) /\ slice_assign result a b v = Err ValueError).
  Proof.
    intros H. unfold slice_assign, stored_as.
    destruct (Nat.eqb_spec (length v) (b - a)) as [E|E].
    - left. exists v. split; [left; auto|reflexivity].
    - destruct v as [|x [|y v]].
      + right. split; [|reflexivity]. intros w [[H1 _]|[z [H1 _]]]; [lia|discriminate].
      + left. exists (repeat x (b - a)). split; [right; eauto|reflexivity].
      + right. split; [|reflexivity]. intros w [[H1 _]|[z [H1 _]]]; [lia|discriminate].
  Qed.

  Lemma stored_length n (v w : list A) : stored_as n v w -> length w = n.
  Proof.
    intros [[H ->]|[x [-> ->]]]; [exact H|apply repeat_length].
  Qed.

  (** Complete description of the loop: with [done_] the part already written. *)
  Lemma slice_loop_spec : forall fuel n0 nmin nmax step done_ rest s,
    (0 < step)%Z -> (n0 <= nmin <= nmax + 1)%Z ->
    (Z.to_nat (nmax - nmin + 1) < fuel)%nat ->
    length done_ = Z.to_nat (nmin - n0) ->
    length rest = Z.to_nat (nmax - nmin + 1) ->
      ((exists s' out, evaluates func s (chunks_of fuel nmin nmax step) s' out /\
          slice_loop fuel func (- n0) nmin nmax step (done_ ++ rest) s
          = Some (s', Ok (done_ ++ out))) \/
       (exists pre c post s1 s2 out e,
          chunks_of fuel nmin nmax step = pre ++ c :: post /\ evaluates func s pre s1 out /\
          fails_on func c s1 s2 e /\
          slice_loop fuel func (- n0) nmin nmax step (done_ ++ rest) s = Some (s2, Err e))).
  Proof.
    induction fuel as [|fuel IH]; intros n0 nmin nmax step done_ rest s Hs Hn Hf Hd Hr; [lia|].
    cbn [slice_loop chunks_of].
    destruct (Z.leb_spec nmin nmax) as [Hle|Hgt].
    - set (nsl := Z.min (nmin + step - 1) nmax).
      assert (Hnsl : (nmin <= nsl <= nmax)%Z) by lia.
      assert (Hlen : length (arange nmin (nsl + 1)) = Z.to_nat (nsl + 1 - nmin)) by apply arange_length.
      set (c := arange nmin (nsl + 1)) in *.
      assert (Hab : (Z.to_nat (- n0 + nmin) <= Z.to_nat (- n0 + nsl + 1)
                     <= length (done_ ++ rest))%nat) by (rewrite app_length; lia).
      assert (Hcl : length c = (Z.to_nat (- n0 + nsl + 1) - Z.to_nat (- n0 + nmin))%nat) by lia.
      destruct (func c s) as [s1 [v|e]] eqn:Ef.
      + destruct (slice_assign_fits (done_ ++ rest) v _ _ Hab) as [[w [Hw E]]|[Hno E]].
        * rewrite E. clear E.
          rewrite <- Hcl in Hw.
          assert (Hwl := stored_length _ _ _ Hw).
          assert (F1 : firstn (Z.to_nat (- n0 + nmin)) (done_ ++ rest) = done_).
          { rewrite firstn_app. replace (Z.to_nat (- n0 + nmin) - length done_)%nat with 0%nat by lia.
            rewrite firstn_O, app_nil_r. apply firstn_all2. lia. }
          rewrite F1.
          set (rest' := skipn (Z.to_nat (- n0 + nsl + 1)) (done_ ++ rest)).
          rewrite app_assoc.
          destruct (IH n0 (nsl + 1)%Z nmax step (done_ ++ w) rest' s1) as
            [[s' [out [Hev Heq]]]|(pre & c' & post & s1' & s2 & out & e & Hch & Hev & Hfail & Heq)].
          -- exact Hs.
          -- lia.
          -- lia.
          -- rewrite app_length. lia.
          -- unfold rest'. rewrite skipn_length, app_length. lia.
          -- left. exists s', (w ++ out). split; [econstructor; eauto|].
             rewrite Heq, <- app_assoc. reflexivity.
          -- right. exists (c :: pre), c', post, s1', s2, (w ++ out), e.
             split; [now rewrite Hch|]. split; [econstructor; eauto|]. split; assumption.
        * rewrite E. right. rewrite <- Hcl in Hno.
          exists [], c, (chunks_of fuel (nsl + 1) nmax step), s, s1, [], ValueError.
          repeat split; [constructor|]. right. eauto.
      + right.
        exists [], c, (chunks_of fuel (nsl + 1) nmax step), s, s1, [], e.
        repeat split; [constructor|]. left. assumption.
    - left. exists s, []. split; [constructor|].
      destruct rest; [now rewrite !app_nil_r|simpl in Hr; lia].
  Qed.

  Lemma slicewise_eval_chunks (nmin nmax step : Z) garbage s :
    (0 < step)%Z -> (nmin <= nmax + 1)%Z ->
    let chunks := chunks_of (Datatypes.S (Z.to_nat (nmax - nmin + 1))) nmin nmax step in
        (exists s' out, evaluates func s chunks s' out /\
           slicewise_eval garbage func nmin nmax (PyInt step) s = Some (s', Ok out)) \/
        (exists pre c post s1 s2 out e,
           chunks = pre ++ c :: post /\ evaluates func s pre s1 out /\
           fails_on func c s1 s2 e /\
           slicewise_eval garbage func nmin nmax (PyInt step) s = Some (s2, Err e)).
  Proof.
    intros Hs Hn chunks. unfold slicewise_eval. cbn [py_int].
    destruct (Z.leb_spec step 0); [lia|]. destruct (Z.ltb_spec (nmax - nmin + 1) 0); [lia|].
    apply (slice_loop_spec _ nmin nmin nmax step []
               (map garbage (seq 0 (Z.to_nat (nmax - nmin + 1)))) s);
        rewrite ?map_length, ?seq_length; cbn [length]; lia.
  Qed.

  Theorem slicewise_eval_complete (nmin nmax step : Z) :
    (0 < step)%Z -> (nmin <= nmax + 1)%Z ->
    exists chunks,
      concat chunks = consecutive nmin (Z.to_nat (nmax - nmin + 1)) /\
      Forall (fun c => (1 <= Z.of_nat (length c) <= step)%Z) chunks /\
      forall garbage s,
        (exists s' out, evaluates func s chunks s' out /\
           slicewise_eval garbage func nmin nmax (PyInt step) s = Some (s', Ok out)) \/
        (exists pre c post s1 s2 out e,
           chunks = pre ++ c :: post /\ evaluates func s pre s1 out /\
           fails_on func c s1 s2 e /\
           slicewise_eval garbage func nmin nmax (PyInt step) s = Some (s2, Err e)).
  Proof.
    intros Hs Hn.
    exists (chunks_of (Datatypes.S (Z.to_nat (nmax - nmin + 1))) nmin nmax step).
    split; [|split].
    - rewrite chunks_of_concat by lia. rewrite arange_consecutive. f_equal. lia.
    - now apply chunks_of_sizes.
    - intros garbage s. now apply slicewise_eval_chunks.
  Qed.

  Theorem slicewise_eval_bad_step garbage nmin nmax stepsize s :
    (forall z, py_int stepsize = Ok z -> (z <= 0)%Z) ->
    exists e, slicewise_eval garbage func nmin nmax stepsize s = Some (s, Err e) /\
      (is_ok (py_int stepsize) = true -> e = ValueError) /\
      (forall e', py_int stepsize = Err e' -> e = e').
  Proof.
    intros H. unfold slicewise_eval. destruct (py_int stepsize) as [z|e] eqn:E.
    - specialize (H z eq_refl). destruct (Z.leb_spec z 0); [|lia].
      exists ValueError. repeat split; auto. discriminate.
    - exists e. repeat split; auto; [discriminate|]. intros e' [= ->]; reflexivity.
  Qed.

  Theorem slicewise_eval_negative_length garbage nmin nmax step s :
    (0 < step)%Z -> (nmax + 1 < nmin)%Z ->
    slicewise_eval garbage func nmin nmax (PyInt step) s = Some (s, Err ValueError).
  Proof.
    intros Hs Hn. unfold slicewise_eval. cbn [py_int].
    destruct (Z.leb_spec step 0); [lia|]. destruct (Z.ltb_spec (nmax - nmin + 1) 0); [reflexivity|lia].
  Qed.

  Theorem slicewise_eval_int garbage nmin nmax p z s :
    py_int p = Ok z ->
    slicewise_eval garbage func nmin nmax p s = slicewise_eval garbage func nmin nmax (PyInt z) s.
  Proof. intros H. unfold slicewise_eval. now rewrite H. Qed.
End Slice.

Lemma slicewise_terminates {S A} garbage (func : list Z -> M S (list A)) nmin nmax p s :
  slicewise_eval garbage func nmin nmax p s <> None.
Proof.
  destruct (py_int p) as [z|e] eqn:E.
  - rewrite (slicewise_eval_int _ _ _ _ _ _ _ E).
    destruct (Z_le_gt_dec z 0).
    + unfold slicewise_eval; cbn [py_int]. destruct (Z.leb_spec z 0); [discriminate|lia].
    + destruct (Z_le_gt_dec nmin (nmax + 1)).
      * destruct (slicewise_eval_complete func nmin nmax z) as (ch & _ & _ & H); [lia|lia|].
        destruct (H garbage s) as [(s' & out & _ & ->)|(pre & c & post & s1 & s2 & out & e & _ & _ & _ & ->)]; discriminate.
      * rewrite slicewise_eval_negative_length by lia. discriminate.
  - unfold slicewise_eval. rewrite E. discriminate.
Qed.

Lemma evaluates_elementwise {S A} (f : Z -> A) (func : list Z -> M S (list A)) (s : S) chunks s' out :
  (forall xs s, func xs s = (s, Ok (map f xs))) ->
  evaluates func s chunks s' out -> s' = s /\ out = map f (concat chunks).
Proof.
  intros Hf. induction 1 as [s|s c cs s1 v w s2 out Hc Hst Hev IH].
  - auto.
  - rewrite Hf in Hc. injection Hc as <- <-. destruct IH as [-> ->]. split; [reflexivity|].
    simpl. rewrite map_app. f_equal.
    destruct Hst as [[_ ->]|[x [Hx ->]]]; [reflexivity|].
    destruct c as [|y [|z c]]; simpl in *; congruence.
Qed.

Theorem slicewise_eval_elementwise {S A} garbage (f : Z -> A) (nmin nmax step : Z) (s : S) :
  (0 < step)%Z -> (nmin <= nmax + 1)%Z ->
  slicewise_eval garbage (fun xs s => (s, Ok (map f xs))) nmin nmax (PyInt step) s
  = Some (s, Ok (map f (consecutive nmin (Z.to_nat (nmax - nmin + 1))))).
Proof.
  intros Hs Hn.
  destruct (slicewise_eval_complete (fun xs (s : S) => (s, Ok (map f xs))) nmin nmax step Hs Hn)
    as (ch & Hc & _ & H).
  destruct (H garbage s) as [(s' & out & Hev & E)|(pre & c & post & s1 & s2 & out & e & _ & _ & Hf & _)].
  - destruct (evaluates_elementwise f _ _ _ _ _ (fun _ _ => eq_refl) Hev) as [-> ->].
    now rewrite E, Hc.
  - exfalso. destruct Hf as [Hf|(v & Hf & Hno & _)]; [discriminate|].
    injection Hf as _ <-. apply (Hno (map f c)). left. now rewrite map_length.
Qed.

(** ** free energy: strided sums *)
Lemma stride_aux_filter (i : nat) : (0 < i)%nat -> forall (f : list R) (k base : nat),
  (k < i)%nat ->
  (* [k] more entries are skipped; entry j of f has index base+j, with base+k divisible by i *)
  (base + k) mod i = 0%nat ->
  Rsum (stride_aux k i f) =
  Rsum (map (fun n => nth (n - base) f 0)
          (filter (fun n => Nat.eqb (n mod i) 0) (seq base (length f)))).
Proof.
  intros Hi. induction f as [|x f IH]; intros k base Hk Hm; [reflexivity|].
  cbn [length seq filter].
  assert (Hshift : forall k', (k' < i)%nat -> ((Datatypes.S base + k') mod i = 0)%nat ->
     Rsum (stride_aux k' i f) =
     Rsum (map (fun n => nth (n - base) (x :: f) 0)
          (filter (fun n => Nat.eqb (n mod i) 0) (seq (Datatypes.S base) (length f))))).
  { intros k' Hk' Hm'. rewrite (IH k' (Datatypes.S base) Hk' Hm'). f_equal.
    apply map_ext_in. intros n Hn. apply filter_In in Hn. destruct Hn as [Hn _].
    apply in_seq in Hn. replace (n - base)%nat with (Datatypes.S (n - Datatypes.S base)) by lia. reflexivity. }
  destruct k as [|k].
  - rewrite Nat.add_0_r in Hm. rewrite Hm. cbn [Nat.eqb map stride_aux Rsum fold_right].
    rewrite Nat.sub_diag. cbn [nth]. f_equal. apply Hshift; [lia|].
    replace (Datatypes.S base + Nat.pred i)%nat with (base + 1 * i)%nat by lia.
    now rewrite Nat.mod_add by lia.
  - cbn [stride_aux].
    assert (Hne : Nat.eqb (base mod i) 0 = false).
    { apply Nat.eqb_neq. intros H0.
      assert (Nat.divide i (base + Datatypes.S k)) by (apply Nat.mod_divide; lia).
      assert (Nat.divide i base) by (apply Nat.mod_divide; lia).
      assert (Nat.divide i (Datatypes.S k)) by (apply (Nat.divide_add_cancel_r i base); assumption).
      apply Nat.divide_pos_le in H2; lia. }
    rewrite Hne. apply Hshift; [lia|]. now replace (Datatypes.S base + k)%nat with (base + Datatypes.S k)%nat by lia.
Qed.

Lemma stride_sum (i : nat) (f : list R) : (0 < i)%nat -> Rsum (stride i f) = sum_multiples i f.
Proof.
  intros Hi. unfold stride, sum_multiples.
  rewrite (stride_aux_filter i Hi f 0 0); [|assumption|now rewrite Nat.add_0_r, Nat.mod_0_l by lia].
  f_equal. apply map_ext. intros n. now rewrite Nat.sub_0_r.
Qed.

Lemma nth_error_consecutive lo n i : (i < n)%nat -> nth_error (consecutive lo n) i = Some (lo + Z.of_nat i)%Z.
Proof.
  intros H. unfold consecutive. erewrite map_nth_error; [reflexivity|].
  rewrite (nth_error_nth' _ 0%nat) by (rewrite seq_length; lia). now rewrite seq_nth.
Qed.

Lemma temperature_table_length dT ms f : length (temperature_table dT ms f) = Z.to_nat ms.
Proof. unfold temperature_table. rewrite map_length, arange_length. lia. Qed.

Lemma temperature_table_entry dT ms f i :
  (1 <= i <= Z.to_nat ms)%nat ->
  nth_error (temperature_table dT ms f) (i - 1) = Some (INR i * dT * sum_multiples i f).
Proof.
  intros H. unfold temperature_table. rewrite arange_consecutive.
  erewrite map_nth_error by (apply nth_error_consecutive; lia).
  replace (1 + Z.of_nat (i - 1))%Z with (Z.of_nat i) by lia.
  rewrite Nat2Z.id, stride_sum, <- INR_IZR_INZ by lia. f_equal. ring.
Qed.

Lemma pyround_spec x : Rabs (IZR (pyround x) - x) <= 1/2.
Proof.
  unfold pyround. destruct (Int_part_bounds x) as [H1 H2].
  destruct (Rltb_spec (x - IZR (Int_part x)) (1/2)) as [H|H].
  { rewrite Rabs_left1; lra. }
  destruct (Rltb_spec (1/2) (x - IZR (Int_part x))) as [H'|H'].
  { rewrite plus_IZR, Rabs_pos_eq; lra. }
  destruct (Z.even (Int_part x)).
  - rewrite Rabs_left1; lra.
  - rewrite plus_IZR, Rabs_pos_eq; lra.
Qed.

(** ** divisible indices *)
Lemma div_succ (n i : nat) : (0 < i)%nat ->
  (Datatypes.S n / i = n / i + (if Nat.eqb (Datatypes.S n mod i) 0 then 1 else 0))%nat.
Proof.
  intros Hi. pose proof (Nat.div_mod n i ltac:(lia)) as E1.
  pose proof (Nat.mod_upper_bound n i ltac:(lia)) as B1.
  destruct (Nat.eq_dec (Datatypes.S (n mod i)) i) as [E|E].
  - assert (H : Datatypes.S n = (i * Datatypes.S (n / i) + 0)%nat) by lia.
    rewrite <- (Nat.mod_unique (Datatypes.S n) i (Datatypes.S (n / i)) 0 ltac:(lia) H).
    rewrite <- (Nat.div_unique (Datatypes.S n) i (Datatypes.S (n / i)) 0 ltac:(lia) H). simpl. lia.
  - assert (H : Datatypes.S n = (i * (n / i) + Datatypes.S (n mod i))%nat) by lia.
    rewrite <- (Nat.mod_unique (Datatypes.S n) i (n / i) (Datatypes.S (n mod i)) ltac:(lia) H).
    rewrite <- (Nat.div_unique (Datatypes.S n) i (n / i) (Datatypes.S (n mod i)) ltac:(lia) H).
    simpl. lia.
Qed.

Lemma multiples_filter (i : nat) : (0 < i)%nat -> forall N,
  filter (fun n => Nat.eqb (n mod i) 0) (seq 0 (Datatypes.S N))
  = map (fun j => j * i)%nat (seq 0 (Datatypes.S (N / i))).
Proof.
  intros Hi. induction N as [|N IH].
  - rewrite Nat.div_0_l by lia. simpl. rewrite Nat.mod_0_l by lia. reflexivity.
  - rewrite seq_S, filter_app, IH, Nat.add_0_l. cbn [filter].
    rewrite (div_succ N i Hi).
    destruct (Nat.eqb_spec (Datatypes.S N mod i) 0) as [E|E].
    + rewrite Nat.add_1_r, (seq_S (Datatypes.S (N / i)) 0), map_app, Nat.add_0_l. cbn [map].
      apply (f_equal2 (@app nat)); [reflexivity|]. f_equal.
      pose proof (Nat.div_mod (Datatypes.S N) i ltac:(lia)) as E2.
      rewrite div_succ, E in E2 by lia. cbn [Nat.eqb] in E2. nia.
    + now rewrite app_nil_r, Nat.add_0_r.
Qed.

Lemma sum_multiples_primed (g0 : R) (g : R -> R) (dT : R) (i N : nat) :
  (0 < i)%nat ->
  INR i * dT *
  sum_multiples i (0.5 * g0 :: map (fun n => g (dT * IZR n)) (consecutive 1 N))
  = primed_sum g0 g (INR i * dT) (N / i).
Proof.
  intros Hi. unfold primed_sum, sum_multiples. f_equal.
  cbn [length]. rewrite map_length. unfold consecutive. rewrite map_length, seq_length.
  rewrite multiples_filter by exact Hi.
  cbn [seq map Rsum fold_right]. fold Rsum. rewrite Nat.mul_0_l. cbn [nth].
  f_equal; [lra|].
  rewrite map_map. unfold Rsum; f_equal. apply map_ext_in. intros j Hj. apply in_seq in Hj.
  assert (Hji : (1 <= j * i <= N)%nat).
  { split; [nia|]. pose proof (Nat.mul_div_le N i ltac:(lia)). nia. }
  destruct (j * i)%nat as [|n] eqn:En; [lia|]. cbn [nth].
  rewrite map_map.
  rewrite (nth_indep _ 0 ((fun x => g (dT * IZR (1 + Z.of_nat x))) 0%nat))
    by (rewrite map_length, seq_length; lia).
  rewrite (map_nth (fun x => g (dT * IZR (1 + Z.of_nat x)))), seq_nth by lia.
  f_equal. replace (1 + Z.of_nat (0 + n))%Z with (Z.of_nat (j * i)) by lia.
  rewrite <- INR_IZR_INZ, mult_INR. ring.
Qed.

(** ** invariants of the loop *)
Lemma slice_loop_inv {S A} (func : list Z -> M S (list A)) (P : S -> Prop) :
  (forall c s, P s -> P (fst (func c s))) ->
  forall fuel no nmin nmax step res s s' r, P s ->
    slice_loop fuel func no nmin nmax step res s = Some (s', r) -> P s'.
Proof.
  intros HP. induction fuel as [|fuel IH]; intros no nmin nmax step rs s s' r Hs; cbn [slice_loop]; [discriminate|].
  destruct (nmin <=? nmax)%Z.
  - specialize (HP (arange nmin (Z.min (nmin + step - 1) nmax + 1)) s Hs).
    destruct (func _ s) as [s1 [v|e]]; cbn [fst] in HP.
    + destruct (slice_assign _ _ _ v); [apply IH; assumption|intros [= <- _]; assumption].
    + intros [= <- _]; assumption.
  - intros [= <- _]; assumption.
Qed.

Lemma slicewise_eval_inv {S A} garbage (func : list Z -> M S (list A)) (P : S -> Prop) nmin nmax p s s' r :
  (forall c s, P s -> P (fst (func c s))) -> P s ->
  slicewise_eval garbage func nmin nmax p s = Some (s', r) -> P s'.
Proof.
  intros HP Hs. unfold slicewise_eval. destruct (py_int p); [|intros [= <- _]; assumption].
  destruct (_ <=? 0)%Z; [intros [= <- _]; assumption|].
  destruct (_ <? 0)%Z; [intros [= <- _]; assumption|].
  apply slice_loop_inv; assumption.
Qed.

Lemma slicewise_eval_length {S A} garbage (func : list Z -> M S (list A)) nmin nmax p s s' out :
  slicewise_eval garbage func nmin nmax p s = Some (s', Ok out) ->
  length out = Z.to_nat (nmax - nmin + 1).
Proof.
  intros H. destruct (py_int p) as [z|e] eqn:E.
  2:{ unfold slicewise_eval in H. rewrite E in H. discriminate. }
  rewrite (slicewise_eval_int _ _ _ _ _ _ _ E) in H.
  assert (0 < z)%Z.
  { unfold slicewise_eval in H; cbn [py_int] in H. destruct (Z.leb_spec z 0); [discriminate|lia]. }
  assert (nmin <= nmax + 1)%Z.
  { unfold slicewise_eval in H; cbn [py_int] in H. destruct (Z.leb_spec z 0); [discriminate|].
    destruct (Z.ltb_spec (nmax - nmin + 1) 0); [discriminate|lia]. }
  destruct (slicewise_eval_complete func nmin nmax z) as (ch & Hc & _ & Hcase); [lia|lia|].
  destruct (Hcase garbage s) as [(s1 & o & Hev & E1)|(pre & c & post & s1 & s2 & o & e & _ & _ & _ & E1)];
    rewrite E1 in H; [|discriminate].
  injection H as -> ->.
  transitivity (length (concat ch)).
  2:{ rewrite Hc. unfold consecutive. now rewrite map_length, seq_length. }
  clear -Hev. induction Hev as [s|s c cs s1 v w s2 out Hc Hst Hev IH]; [reflexivity|].
  simpl. rewrite !app_length, IH. f_equal. now apply stored_length in Hst.
Qed.

Section FT.
  Context {G : Type} (ops : geo_ops G) (garbage : nat -> R).
  Notation T := (finiteT G).

  (** everything except the geometry's own state *)
  Definition same_but_geom (t t' : T) : Prop :=
    t_deltaT t' = t_deltaT t /\ t_nmax t' = t_nmax t /\ t_Tmax t' = t_Tmax t /\
    t_analytic t' = t_analytic t /\ t_nprocs t' = t_nprocs t /\ t_force t' = t_force t /\
    t_f t' = t_f t /\ t_ff t' = t_ff t.

  Lemma same_refl t : same_but_geom t t. Proof. repeat split. Qed.
  Lemma same_trans a b c : same_but_geom a b -> same_but_geom b c -> same_but_geom a c.
  Proof. unfold same_but_geom. intuition congruence. Qed.

  Lemma on_geom_same {A} (m : M G A) t : same_but_geom t (fst (on_geom m t)).
  Proof. unfold on_geom. destruct (m (t_geom t)). repeat split. Qed.

  Lemma mbind_same {A B} (m : M T A) (f : A -> M T B) t :
    same_but_geom t (fst (m t)) ->
    (forall a t', same_but_geom t' (fst (f a t'))) ->
    same_but_geom t (fst (mbind m f t)).
  Proof.
    intros H1 H2. unfold mbind. destruct (m t) as [t1 [a|e]]; cbn [fst] in *; [|assumption].
    eapply same_trans; [exact H1|apply H2].
  Qed.

  Lemma F_alle_same ks t : same_but_geom t (fst (F_alle ops ks t)).
  Proof.
    unfold F_alle. destruct ks as [|k0 rest]; [apply same_refl|].
    destruct (Reqb k0 0).
    - destruct (negb (t_force t) && t_analytic t).
      + apply mbind_same; [apply on_geom_same|]. intros F0 t'.
        destruct rest as [|k1 rest]; [apply same_refl|].
        apply mbind_same; [apply on_geom_same|]. intros Fa t''. apply same_refl.
      + apply mbind_same; [apply on_geom_same|]. intros F0 t'.
        apply mbind_same; [apply on_geom_same|]. intros Fa t''. apply same_refl.
    - destruct (t_force t); apply on_geom_same.
  Qed.

  Lemma get_f_same nmin p t : same_but_geom t (fst (get_f_matsubaras ops garbage nmin p t)).
  Proof.
    unfold get_f_matsubaras. destruct (t_nprocs t =? 0)%Z; [|apply same_refl].
    destruct (slicewise_eval garbage _ nmin (t_nmax t) p t) as [[t' r]|] eqn:E; [|apply same_refl].
    cbn [fst]. eapply (slicewise_eval_inv _ _ (same_but_geom t)) in E; [exact E| |apply same_refl].
    intros c s Hs. eapply same_trans; [exact Hs|apply F_alle_same].
  Qed.

  Lemma get_f_length nmin p t t' f :
    get_f_matsubaras ops garbage nmin p t = (t', Ok f) ->
    length f = Z.to_nat (t_nmax t - nmin + 1).
  Proof.
    unfold get_f_matsubaras. destruct (t_nprocs t =? 0)%Z; [|discriminate].
    destruct (slicewise_eval garbage _ nmin (t_nmax t) p t) as [[t1 r]|] eqn:E; [|discriminate].
    intros [= -> ->]. eapply slicewise_eval_length; eassumption.
  Qed.

  Lemma ensure_f_ok t t' f : ensure_f ops garbage t = (t', Ok f) ->
    t_f t' = Some f /\ t_deltaT t' = t_deltaT t /\ t_Tmax t' = t_Tmax t /\ t_nmax t' = t_nmax t /\
    t_force t' = t_force t /\ t_ff t' = t_ff t /\ t_analytic t' = t_analytic t /\ t_nprocs t' = t_nprocs t /\
    (t_f t = Some f /\ t' = t \/
     t_f t = None /\ length f = Z.to_nat (t_nmax t + 1)).
  Proof.
    unfold ensure_f. destruct (t_f t) as [f0|] eqn:Ef.
    - intros [= -> ->]. repeat split; auto.
    - unfold mbind. pose proof (get_f_same 0 (PyInt 50) t) as Hs.
      destruct (get_f_matsubaras ops garbage 0 (PyInt 50) t) as [t1 [f1|e]] eqn:E; [|discriminate].
      cbn [fst] in Hs. apply get_f_length in E.
      intros [= <- ->]. destruct Hs as (H1&H2&H3&H4&H5&H6&H7&H8).
      cbn. repeat split; auto. right. split; [reflexivity|]. rewrite E. f_equal. lia.
  Qed.

  (** ** C03 *)
  Lemma free_energy_table t t' F :
    free_energy ops garbage t = (t', Ok F) ->
    exists f, t_f t' = Some f /\
      (t_f t = Some f \/ t_f t = None /\ length f = Z.to_nat (t_nmax t + 1)) /\
      length F = Z.to_nat (pyround (t_Tmax t / t_deltaT t)) /\
      forall i, (1 <= i <= length F)%nat ->
        nth_error F (i - 1) = Some (INR i * t_deltaT t * sum_multiples i f).
  Proof.
    unfold free_energy, mbind.
    destruct (ensure_f ops garbage t) as [t1 [f|e]] eqn:E; [|discriminate].
    apply ensure_f_ok in E. destruct E as (E1&E2&E3&E4&_&_&_&_&E5).
    intros [= <- <-]. exists f. split; [assumption|]. split; [intuition|].
    rewrite temperature_table_length. unfold maxstep. rewrite E2, E3. split; [reflexivity|].
    intros i Hi. now apply temperature_table_entry.
  Qed.

  Lemma sum_multiples_large i f : (length f <= i)%nat -> (0 < i)%nat -> sum_multiples i f = nth 0 f 0.
  Proof.
    intros H Hi. unfold sum_multiples. destruct f as [|x f]; [reflexivity|].
    cbn [length] in *. rewrite multiples_filter by assumption.
    rewrite Nat.div_small by lia. cbn. lra.
  Qed.

  (** ** C08 *)
  Lemma F_alle_analytic k t F0 g1 g2 Fa :
    t_force t = false -> t_analytic t = true ->
    g_mSumme_k0 ops (t_geom t) = (g1, Ok F0) ->
    (k = [] /\ Fa = [] /\ g2 = g1 \/ k <> [] /\ g_mSumme ops k g1 = (g2, Ok Fa)) ->
    F_alle ops (0 :: k) t = (with_geom t g2, Ok (map (fun x => x / 2) F0 ++ Fa)).
  Proof.
    intros Hf Ha H0 Hk. unfold F_alle. destruct (Reqb_spec 0 0); [|lra].
    rewrite Hf, Ha. cbn [negb andb]. unfold mbind, on_geom, ret. rewrite H0.
    assert (Hh : half F0 = map (fun x => x / 2) F0) by (apply map_ext; intros; lra).
    destruct Hk as [(-> & -> & ->)|(Hk & E)].
    - now rewrite app_nil_r, Hh.
    - destruct k; [congruence|]. cbn [t_geom with_geom]. rewrite E, Hh. reflexivity.
  Qed.

  Lemma F_alle_nonanalytic k t F0 g1 g2 Fa :
    t_force t = false -> t_analytic t = false ->
    g_mSumme ops [1e-10] (t_geom t) = (g1, Ok F0) ->
    g_mSumme ops k g1 = (g2, Ok Fa) ->
    F_alle ops (0 :: k) t = (with_geom t g2, Ok (map (fun x => x / 2) F0 ++ Fa)).
  Proof.
    intros Hf Ha H0 E. unfold F_alle. destruct (Reqb_spec 0 0); [|lra].
    rewrite Hf, Ha. cbn [negb andb]. unfold mbind, on_geom, ret. rewrite H0.
    assert (Hh : half F0 = map (fun x => x / 2) F0) by (apply map_ext; intros; lra).
    cbn [t_geom with_geom]. rewrite E, Hh. reflexivity.
  Qed.

  Lemma F_alle_nonzero k0 k t :
    k0 <> 0 -> t_force t = false ->
    F_alle ops (k0 :: k) t = on_geom (g_mSumme ops (k0 :: k)) t.
  Proof.
    intros H Hf. unfold F_alle. destruct (Reqb_spec k0 0); [lra|]. now rewrite Hf.
  Qed.

  (** ** an elementwise geometry *)
  Definition elementwise (g0 : R) (g : R -> R) : Prop :=
    (forall ks st, ks <> [] -> exists st', g_mSumme ops ks st = (st', Ok (map g ks))) /\
    (forall st, exists st', g_mSumme_k0 ops st = (st', Ok [g0])).

  Lemma evaluates_invar {S A} (P : S -> Prop) (f : Z -> A) (Q : list Z -> Prop)
    (func : list Z -> M S (list A)) (s : S) chunks s' out :
    (forall xs s, Q xs -> P s -> exists s', P s' /\ func xs s = (s', Ok (map f xs))) ->
    P s -> Forall Q chunks ->
    evaluates func s chunks s' out -> P s' /\ out = map f (concat chunks).
  Proof.
    intros Hf Hs HQ Hev. revert Hs HQ.
    induction Hev as [s|s c cs s1 v w s2 out Hc Hst Hev IH]; intros Hs HQ.
    - auto.
    - inversion HQ as [|? ? Q1 Q2]; subst.
      destruct (Hf c s Q1 Hs) as (s' & Hs' & E). rewrite E in Hc. injection Hc as <- <-.
      destruct (IH Hs' Q2) as [H1 ->]. split; [assumption|].
      simpl. rewrite map_app. f_equal.
      destruct Hst as [[_ ->]|[x [Hx ->]]]; [reflexivity|].
      destruct c as [|y [|z c]]; simpl in *; congruence.
  Qed.

  (** value of a Matsubara term for an elementwise geometry *)
  Definition term (g0 : R) (g : R -> R) (dT : R) (n : Z) : R :=
    if (n =? 0)%Z then 0.5 * g0 else g (dT * IZR n).

  Definition chunk_ok (analytic : bool) (c : list Z) : Prop :=
    exists a b, c = arange a b /\ (0 <= a < b)%Z /\
      (a = 0%Z -> analytic = true \/ (2 <= b)%Z).

  Lemma chunks_ok an nmax : forall fuel nmin,
    (0 <= nmin)%Z -> (an = true \/ 1 <= nmax)%Z ->
    Forall (chunk_ok an) (chunks_of fuel nmin nmax 50).
  Proof.
    induction fuel as [|fuel IH]; intros nmin Hn Ha; cbn [chunks_of]; [constructor|].
    destruct (Z.leb_spec nmin nmax); [|constructor].
    constructor; [|apply IH; [lia|assumption]].
    exists nmin, (Z.min (nmin + 50 - 1) nmax + 1)%Z. split; [reflexivity|]. split; [lia|].
    intros ->. destruct Ha; [auto|right; lia].
  Qed.

  Lemma arange_cons a b : (a < b)%Z -> arange a b = a :: arange (a + 1) b.
  Proof.
    intros H. rewrite (arange_app a (a + 1) b) by lia.
    unfold arange at 1. replace (Z.to_nat (a + 1 - a)) with 1%nat by lia. cbn. f_equal. lia.
  Qed.

  Lemma arange_nil a b : (b <= a)%Z -> arange a b = [].
  Proof. intros H. unfold arange. replace (Z.to_nat (b - a)) with 0%nat by lia. reflexivity. Qed.

  Lemma arange_in a b x : In x (arange a b) <-> (a <= x < b)%Z.
  Proof.
    unfold arange. rewrite in_map_iff. split.
    - intros (i & <- & Hi). apply in_seq in Hi. lia.
    - intros H. exists (Z.to_nat (x - a)). rewrite in_seq. lia.
  Qed.

  Definition zero_term (an : bool) (g0 : R) (g : R -> R) : R := if an then g0 else g 1e-10.

  Lemma F_alle_elementwise g0 g t c :
    elementwise g0 g -> t_force t = false -> t_deltaT t <> 0 ->
    chunk_ok (t_analytic t) c ->
    exists t', same_but_geom t t' /\
      F_alle ops (map (fun n => t_deltaT t * IZR n) c) t =
      (t', Ok (map (term (zero_term (t_analytic t) g0 g) g (t_deltaT t)) c)).
  Proof.
    intros [Hm H0] Hf Hd (a & b & -> & Hab & Ha0).
    assert (HT : forall x, (x <> 0)%Z -> term (zero_term (t_analytic t) g0 g) g (t_deltaT t) x = g (t_deltaT t * IZR x)).
    { intros x Hx. unfold term. destruct (Z.eqb_spec x 0); [contradiction|reflexivity]. }
    destruct (Z.eq_dec a 0) as [->|Hne].
    - rewrite (arange_cons 0 b) by lia. cbn [map]. rewrite Rmult_0_r.
      set (rest := arange (0 + 1) b).
      assert (ER : map (term (zero_term (t_analytic t) g0 g) g (t_deltaT t)) rest
                   = map g (map (fun n => t_deltaT t * IZR n) rest)).
      { rewrite map_map. apply map_ext_in. intros x Hx. apply HT. apply arange_in in Hx. lia. }
      rewrite ER. unfold term at 1. cbn [Z.eqb].
      destruct (t_analytic t) eqn:Ean; cbn [zero_term].
      + destruct (H0 (t_geom t)) as [g1 E1].
        destruct (map (fun n => t_deltaT t * IZR n) rest) as [|k ks] eqn:Ek.
        * exists (with_geom t g1). split; [repeat split|].
          rewrite (F_alle_analytic [] t [g0] g1 g1 [] Hf Ean E1) by auto.
          cbn. do 3 f_equal. lra.
        * destruct (Hm (k :: ks) g1) as [g2 E2]; [discriminate|].
          exists (with_geom t g2). split; [repeat split|].
          rewrite (F_alle_analytic (k :: ks) t [g0] g1 g2 _ Hf Ean E1) by (right; split; [discriminate|exact E2]).
          cbn. do 3 f_equal. lra.
      + destruct (Hm [1e-10] (t_geom t)) as [g1 E1]; [discriminate|].
        destruct (Hm (map (fun n => t_deltaT t * IZR n) rest) g1) as [g2 E2].
        { unfold rest. rewrite (arange_cons (0 + 1) b); [discriminate|].
          destruct (Ha0 eq_refl); [congruence|lia]. }
        exists (with_geom t g2). split; [repeat split|].
        rewrite (F_alle_nonanalytic _ t _ g1 g2 _ Hf Ean E1 E2).
        cbn. do 3 f_equal. lra.
    - rewrite (map_ext_in (term (zero_term (t_analytic t) g0 g) g (t_deltaT t)) (fun x => g (t_deltaT t * IZR x))) by (intros x Hx; apply HT; apply arange_in in Hx; lia).
      rewrite (arange_cons a b) by lia. cbn [map].
      rewrite F_alle_nonzero; [|apply Rmult_integral_contrapositive; split; [assumption|now apply not_0_IZR]|assumption].
      destruct (Hm (t_deltaT t * IZR a :: map (fun n => t_deltaT t * IZR n) (arange (a + 1) b)) (t_geom t)) as [g1 E1]; [discriminate|].
      unfold on_geom. rewrite E1. exists (with_geom t g1). split; [repeat split|].
      cbn [map]. now rewrite map_map.
  Qed.

  Lemma get_f_elementwise g0 g t :
    elementwise g0 g -> t_nprocs t = 0%Z -> t_force t = false -> t_deltaT t <> 0 ->
    (0 <= t_nmax t)%Z -> (t_analytic t = true \/ 1 <= t_nmax t)%Z ->
    exists t', same_but_geom t t' /\
    get_f_matsubaras ops garbage 0 (PyInt 50) t =
    (t', Ok (map (term (zero_term (t_analytic t) g0 g) g (t_deltaT t))
                 (consecutive 0 (Z.to_nat (t_nmax t + 1))))).
  Proof.
    intros Hel Hnp Hf Hd Hn Han. unfold get_f_matsubaras. rewrite Hnp. cbn [Z.eqb].
    set (func := fun x => F_alle ops (map (fun n => t_deltaT t * IZR n) x)).
    set (tm := term (zero_term (t_analytic t) g0 g) g (t_deltaT t)).
    set (ch := chunks_of (Datatypes.S (Z.to_nat (t_nmax t - 0 + 1))) 0 (t_nmax t) 50).
    assert (Hch : Forall (chunk_ok (t_analytic t)) ch) by (apply chunks_ok; [lia|assumption]).
    assert (Hfunc : forall xs s, chunk_ok (t_analytic t) xs -> same_but_geom t s ->
              exists s', same_but_geom t s' /\ func xs s = (s', Ok (map tm xs))).
    { intros xs s Hxs Hs. destruct Hs as (E1&E2&E3&E4&E5&E6&E7&E8).
      destruct (F_alle_elementwise g0 g s xs Hel) as (s' & Hs' & E).
      - now rewrite E6.
      - now rewrite E1.
      - now rewrite E4.
      - rewrite E1, E4 in E. exists s'. split; [|exact E].
        eapply same_trans; [|exact Hs']. repeat split; assumption. }
    destruct (slicewise_eval_chunks func 0 (t_nmax t) 50 garbage t)
      as [(s' & out & Hev & ->)|(pre & c & post & s1 & s2 & out & e & Hc & Hev & Hfail & _)];
      [lia|lia| |]; fold ch in Hev || (fold ch in Hc).
    - destruct (evaluates_invar (same_but_geom t) tm _ func t ch s' out Hfunc (same_refl t) Hch Hev) as [Hs' ->].
      exists s'. split; [assumption|]. unfold ch. rewrite chunks_of_concat by lia.
      rewrite arange_consecutive. do 4 f_equal. lia.
    - exfalso. rewrite Hc in Hch. apply Forall_app in Hch. destruct Hch as [Hpre Hcp].
      inversion Hcp as [|? ? Hc1 _]; subst.
      destruct (evaluates_invar (same_but_geom t) tm _ func t pre s1 out Hfunc (same_refl t) Hpre Hev) as [Hs1 _].
      destruct (Hfunc c s1 Hc1 Hs1) as (s' & _ & E).
      destruct Hfail as [Hx|(v & Hx & Hno & _)]; rewrite E in Hx; [discriminate|].
      injection Hx as _ <-. apply (Hno (map tm c)). left. now rewrite map_length.
  Qed.

  Lemma terms_primed z g dT N :
    map (term z g dT) (consecutive 0 (Datatypes.S N)) =
    0.5 * z :: map (fun n => g (dT * IZR n)) (consecutive 1 N).
  Proof.
    assert (E : consecutive 0 (Datatypes.S N) = 0%Z :: consecutive 1 N).
    { unfold consecutive. cbn [seq map]. f_equal. rewrite <- seq_shift, map_map.
      apply map_ext. intros; lia. }
    rewrite E. cbn [map]. f_equal. unfold consecutive. rewrite !map_map. apply map_ext.
    intros a. unfold term. destruct (Z.eqb_spec (1 + Z.of_nat a) 0); [lia|reflexivity].
  Qed.

  Theorem free_energy_primed_sum g0 g t :
    elementwise g0 g -> t_nprocs t = 0%Z -> t_force t = false -> t_deltaT t <> 0 ->
    t_f t = None ->
    (0 <= t_nmax t)%Z -> (t_analytic t = true \/ 1 <= t_nmax t)%Z ->
    exists t' F, free_energy ops garbage t = (t', Ok F) /\
      length F = Z.to_nat (pyround (t_Tmax t / t_deltaT t)) /\
      forall i, (1 <= i <= length F)%nat ->
        nth_error F (i - 1) =
        Some (primed_sum (zero_term (t_analytic t) g0 g) g (INR i * t_deltaT t)
                         (Z.to_nat (t_nmax t) / i)).
  Proof.
    intros Hel Hnp Hf Hd Hnone Hn Han.
    destruct (get_f_elementwise g0 g t Hel Hnp Hf Hd Hn Han) as (t1 & Hs & E).
    unfold free_energy, ensure_f, mbind. rewrite Hnone, E.
    eexists _, _. split; [reflexivity|].
    rewrite temperature_table_length. unfold maxstep. cbn.
    destruct Hs as (E1&E2&E3&_). rewrite E1, E3. split; [reflexivity|].
    intros i Hi. rewrite temperature_table_entry by assumption. f_equal.
    replace (Z.to_nat (t_nmax t + 1)) with (Datatypes.S (Z.to_nat (t_nmax t))) by lia.
    rewrite terms_primed. apply sum_multiples_primed. lia.
  Qed.

  (** ** C05: call histories *)
  Inductive call := CallFree | CallForce | CallEntropy.
  Definition run_call (c : call) (t : T) : T :=
    fst (match c with
         | CallFree => free_energy ops garbage t
         | CallForce => force ops garbage t
         | CallEntropy => entropy ops garbage t
         end).

  Lemma free_energy_cached t f : t_f t = Some f ->
    free_energy ops garbage t = (t, Ok (temperature_table (t_deltaT t) (maxstep t) f)).
  Proof. intros H. unfold free_energy, mbind, ensure_f. now rewrite H. Qed.

  Lemma entropy_cached t f : t_f t = Some f -> fst (entropy ops garbage t) = t.
  Proof.
    intros H. unfold entropy, mbind at 1, ensure_f. rewrite H.
    unfold mbind. rewrite (free_energy_cached t f H). reflexivity.
  Qed.

  Lemma force_keeps t f : t_f t = Some f ->
    let t' := fst (force ops garbage t) in
    t_f t' = Some f /\ t_deltaT t' = t_deltaT t /\ t_Tmax t' = t_Tmax t.
  Proof.
    intros H. unfold force, mbind. cbn [t_ff with_force].
    destruct (t_ff t); [cbn; auto|].
    pose proof (get_f_same 0 (PyInt 50) (with_force t true)) as Hs.
    destruct (get_f_matsubaras ops garbage 0 (PyInt 50) (with_force t true)) as [t1 [f1|e]];
      cbn [fst] in *; destruct Hs as (H1&_&H3&_&_&_&H7&_); cbn in *; repeat split; congruence.
  Qed.

  Theorem free_energy_stable t t1 F calls :
    free_energy ops garbage t = (t1, Ok F) ->
    let t2 := fold_left (fun s c => run_call c s) calls t1 in
    free_energy ops garbage t2 = (t2, Ok F) /\
    entropy ops garbage t2 =
      (t2, match np_gradient F (t_deltaT t) with Ok g => Ok (map Ropp g) | Err e => Err e end).
  Proof.
    intros HF.
    assert (H0 : exists f, t_f t1 = Some f /\ t_deltaT t1 = t_deltaT t /\
               F = temperature_table (t_deltaT t1) (maxstep t1) f).
    { unfold free_energy, mbind in HF.
      destruct (ensure_f ops garbage t) as [t' [f|e]] eqn:E; [|discriminate].
      apply ensure_f_ok in E. injection HF as <- <-. exists f. intuition. }
    destruct H0 as (f & Hf & Hd & HF').
    cbn zeta. set (t2 := fold_left _ calls t1).
    assert (H2 : t_f t2 = Some f /\ t_deltaT t2 = t_deltaT t1 /\ t_Tmax t2 = t_Tmax t1).
    { unfold t2. clear t2 HF HF' Hd. revert t1 Hf. induction calls as [|c cs IH]; intros t1 Hf; [auto|].
      cbn [fold_left].
      assert (Hc : t_f (run_call c t1) = Some f /\ t_deltaT (run_call c t1) = t_deltaT t1 /\
                   t_Tmax (run_call c t1) = t_Tmax t1).
      { destruct c; unfold run_call.
        - rewrite (free_energy_cached t1 f Hf). auto.
        - now apply force_keeps.
        - rewrite (entropy_cached t1 f Hf). auto. }
      destruct Hc as (C1 & C2 & C3). destruct (IH _ C1) as (D1 & D2 & D3).
      repeat split; congruence. }
    clearbody t2. destruct H2 as (H21 & H22 & H23).
    assert (EF : free_energy ops garbage t2 = (t2, Ok F)).
    { rewrite (free_energy_cached t2 f H21). unfold maxstep in *. congruence. }
    split; [exact EF|].
    unfold entropy, mbind, ensure_f. rewrite H21, EF. now rewrite H22, Hd.
  Qed.

  (** ** C04 *)
  Definition set_analytic (t : T) (b : bool) : T :=
    {| t_deltaT := t_deltaT t; t_nmax := t_nmax t; t_Tmax := t_Tmax t;
       t_analytic := b; t_nprocs := t_nprocs t; t_force := t_force t;
       t_geom := t_geom t; t_f := t_f t; t_ff := t_ff t |}.

  Lemma single_slice t : (0 <= t_nmax t <= 49)%Z -> t_nprocs t = 0%Z ->
    get_f_matsubaras ops garbage 0 (PyInt 50) t =
    let c := arange 0 (t_nmax t + 1) in
    match F_alle ops (map (fun n => t_deltaT t * IZR n) c) t with
    | (t', Err e) => (t', Err e)
    | (t', Ok v) => if Nat.eqb (length v) (length c) then (t', Ok v)
                    else match v with
                         | [x] => (t', Ok (repeat x (length c)))
                         | _ => (t', Err ValueError)
                         end
    end.
  Proof.
    intros Hn Hp. unfold get_f_matsubaras. rewrite Hp. cbn [Z.eqb].
    unfold slicewise_eval. cbn [py_int Z.leb Z.compare].
    destruct (Z.ltb_spec (t_nmax t - 0 + 1) 0); [lia|].
    cbn [slice_loop]. destruct (Z.leb_spec 0 (t_nmax t)); [|lia].
    rewrite (Z.min_r (0 + 50 - 1) (t_nmax t)) by lia. cbn zeta.
    destruct (F_alle ops _ t) as [t' [v|e]]; [|reflexivity].
    unfold slice_assign. rewrite arange_length.
    replace (Z.to_nat (-0 + 0)) with 0%nat by lia.
    replace (Z.to_nat (-0 + t_nmax t + 1)) with (Z.to_nat (t_nmax t + 1)) by lia.
    replace (t_nmax t + 1 - 0)%Z with (t_nmax t + 1)%Z by lia. rewrite Nat.sub_0_r.
    rewrite (skipn_all2 (n := Z.to_nat (t_nmax t + 1))) by (rewrite map_length, seq_length; lia).
    cbn [firstn app]. rewrite !app_nil_r.
    replace (Z.to_nat (t_nmax t - 0 + 1)) with (Datatypes.S (Z.to_nat (t_nmax t))) by lia.
    assert (HL : forall r, slice_loop (Datatypes.S (Z.to_nat (t_nmax t)))
       (fun x : list Z => F_alle ops (map (fun n : Z => t_deltaT t * IZR n) x)) (-0) (t_nmax t + 1) (t_nmax t) 50 r t' = Some (t', Ok r)).
    { intros r. cbn [slice_loop]. destruct (Z.leb_spec (t_nmax t + 1) (t_nmax t)); [lia|reflexivity]. }
    destruct (Nat.eqb (length v) (Z.to_nat (t_nmax t + 1))); [now rewrite HL|].
    destruct v as [|x [|y v]]; [reflexivity|rewrite ?app_nil_r, HL; reflexivity|reflexivity].
  Qed.

  Lemma F_alle_force_is_free rest t :
    F_alle ops (0 :: rest) (with_force t true) =
    let (t', r) := F_alle ops (0 :: rest) (set_analytic (with_force t false) false) in
    (set_analytic (with_force t' true) (t_analytic t), r).
  Proof.
    unfold F_alle. destruct (Reqb_spec 0 0); [|lra]. cbn [t_force with_force set_analytic t_analytic negb andb].
    unfold mbind, on_geom, ret. cbn [t_geom with_force set_analytic].
    destruct (g_mSumme ops [1e-10] (t_geom t)) as [g1 [F0|ex]]; [|destruct t; reflexivity].
    cbn [t_geom with_geom]. destruct (g_mSumme ops rest g1) as [g2 [Fa|ex]]; destruct t; reflexivity.
  Qed.

  (** force() with fewer than 50 Matsubara terms is the free energy with the
      non-analytic zero frequency term, whatever the force operator is *)
  Theorem force_is_free_energy t :
    (0 <= t_nmax t <= 49)%Z -> t_f t = None -> t_ff t = None ->
    snd (force ops garbage t) =
    snd (free_energy ops garbage (set_analytic (with_force t false) false)).
  Proof.
    intros Hn Hf Hff. unfold force, free_energy, mbind, ensure_f. cbn [t_ff t_f with_force set_analytic].
    rewrite Hff, Hf. unfold mbind.
    destruct (Z.eq_dec (t_nprocs t) 0) as [Hp|Hp].
    2:{ unfold get_f_matsubaras. cbn [t_nprocs with_force set_analytic].
        destruct (Z.eqb_spec (t_nprocs t) 0); [contradiction|reflexivity]. }
    rewrite !single_slice by first [exact Hn|exact Hp]. cbn zeta.
    cbn [t_nmax t_deltaT with_force set_analytic].
    rewrite (arange_cons 0 (t_nmax t + 1)) by lia. cbn [map]. rewrite Rmult_0_r.
    rewrite F_alle_force_is_free.
    pose proof (F_alle_same (0 :: map (fun n => t_deltaT t * IZR n) (arange (0 + 1) (t_nmax t + 1))) (set_analytic (with_force t false) false)) as Hs.
    destruct (F_alle ops _ (set_analytic (with_force t false) false)) as [t' [v|e]]; [|reflexivity].
    cbn [fst] in Hs. destruct Hs as (E1&_&E3&_).
    destruct (Nat.eqb _ _).
    - cbn. unfold maxstep; cbn. reflexivity.
    - destruct v as [|x [|y v]]; reflexivity.
  Qed.

  (** with 50 or more terms every later slice calls the force operator *)
  Theorem force_needs_trace t e g1 F0 g2 Fa :
    (50 <= t_nmax t)%Z -> t_ff t = None -> t_nprocs t = 0%Z -> t_deltaT t <> 0 ->
    g_mSumme ops [1e-10] (t_geom t) = (g1, Ok F0) ->
    g_mSumme ops (map (fun n => t_deltaT t * IZR n) (consecutive 1 49)) g1 = (g2, Ok Fa) ->
    length F0 = 1%nat -> length Fa = 49%nat ->
    (forall ks st, snd (g_trace_dot ops ks st) = Err e) ->
    snd (force ops garbage t) = Err e.
  Proof.
    intros Hn Hff Hp Hd E0 Ea L0 La Htr. unfold force, mbind. cbn [t_ff with_force]. rewrite Hff.
    unfold get_f_matsubaras. cbn [t_nprocs with_force]. rewrite Hp. cbn [Z.eqb t_deltaT with_force t_nmax].
    unfold slicewise_eval. cbn [py_int Z.leb Z.compare].
    destruct (Z.ltb_spec (t_nmax t - 0 + 1) 0); [lia|].
    destruct (Z.to_nat (t_nmax t - 0 + 1)) as [|fuel] eqn:Efuel; [lia|].
    cbn [slice_loop]. destruct (Z.leb_spec 0 (t_nmax t)); [|lia].
    rewrite (Z.min_l (0 + 50 - 1) (t_nmax t)) by lia.
    rewrite (arange_cons 0 (0 + 50 - 1 + 1)) by lia. cbn [map]. rewrite Rmult_0_r.
    unfold F_alle at 1. destruct (Reqb_spec 0 0); [|lra]. cbn [t_force with_force negb andb].
    unfold mbind, on_geom, ret. cbn [t_geom with_force]. rewrite E0. cbn [t_geom with_geom].
    change (arange (0 + 1) (0 + 50 - 1 + 1)) with (consecutive 1 49). rewrite Ea.
    unfold slice_assign.
    replace (Nat.eqb (length (half F0 ++ Fa)) (Z.to_nat (-0 + (0 + 50 - 1) + 1) - Z.to_nat (-0 + 0))) with true.
    2:{ symmetry. apply Nat.eqb_eq. rewrite app_length. unfold half. rewrite map_length, L0, La. reflexivity. }
    set (res' := firstn _ _ ++ _).
    destruct (Z.leb_spec (0 + 50 - 1 + 1) (t_nmax t)); [|lia].
    rewrite (arange_cons (0 + 50 - 1 + 1)) by lia. cbn [map].
    unfold F_alle at 1. destruct (Reqb_spec (t_deltaT t * IZR (0 + 50 - 1 + 1)) 0) as [Z0|_].
    { exfalso. apply Rmult_integral in Z0. destruct Z0 as [Z0|Z0]; [contradiction|].
      cbn in Z0. lra. }
    cbn [t_force with_geom with_force]. unfold on_geom. cbn [t_geom with_geom].
    match goal with |- context [g_trace_dot ops ?ks ?st] => specialize (Htr ks st); destruct (g_trace_dot ops ks st) as [g3 r] end.
    cbn [snd] in Htr. subst r. reflexivity.
  Qed.
End FT.

(** ** C06: finite differences *)
Lemma np_gradient_spec F h :
  (np_gradient F h = Err ValueError /\ (length F < 2)%nat) \/
  ((2 <= length F)%nat /\ exists D, np_gradient F h = Ok D /\ length D = length F /\
   (forall a b t0, h <> 0 -> (forall i, (i < length F)%nat -> nth i F 0 = a + b * (t0 + INR i * h)) ->
      forall i, (i < length F)%nat -> nth i D 0 = b) /\
   (forall a b c t0, h <> 0 ->
      (forall i, (i < length F)%nat -> nth i F 0 = a + b * (t0 + INR i * h) + c * (t0 + INR i * h) ^ 2) ->
      forall i, (0 < i < length F - 1)%nat -> nth i D 0 = b + 2 * c * (t0 + INR i * h)) /\
   nth 0 D 0 = (nth 1 F 0 - nth 0 F 0) / h /\
   nth (length F - 1) D 0 = (nth (length F - 1) F 0 - nth (length F - 2) F 0) / h).
Proof.
  unfold np_gradient. destruct (Nat.ltb_spec (length F) 2) as [H|H]; [left; auto|right].
  split; [assumption|]. eexists. split; [reflexivity|].
  rewrite map_length, seq_length. split; [reflexivity|].
  match goal with |- context [map ?f (seq 0 (length F))] => set (G := f) end.
  assert (HN : forall i, (i < length F)%nat -> nth i (map G (seq 0 (length F))) 0 = G i).
  { intros i Hi. rewrite (nth_indep _ 0 (G 0%nat)) by (rewrite map_length, seq_length; lia).
    rewrite map_nth, seq_nth by lia. reflexivity. }
  split; [|split; [|split]].
  - intros a b t0 Hh HF i Hi. rewrite HN by assumption. unfold G.
    destruct (Nat.eqb_spec i 0); [|destruct (Nat.eqb_spec i (length F - 1))].
    + rewrite !HF by lia. simpl. field. assumption.
    + rewrite !HF by lia. rewrite !minus_INR by lia. simpl (INR 1). replace (INR 2) with 2 by (simpl; lra). field. assumption.
    + rewrite !HF by lia. rewrite plus_INR, minus_INR by lia. simpl (INR 1). field. assumption.
  - intros a b c t0 Hh HF i Hi. rewrite HN by lia. unfold G.
    destruct (Nat.eqb_spec i 0); [lia|destruct (Nat.eqb_spec i (length F - 1)); [lia|]].
    rewrite !HF by lia. rewrite plus_INR, minus_INR by lia. simpl (INR 1). field. assumption.
  - rewrite HN by lia. reflexivity.
  - rewrite HN by lia. unfold G. destruct (Nat.eqb_spec (length F - 1) 0); [lia|].
    rewrite Nat.eqb_refl. reflexivity.
Qed.

(** ** C07 *)
Lemma auto_nmax_pos r1 r2 L dT lm n : auto_nmax r1 r2 L dT lm = Ok n -> (1 <= n)%Z.
Proof.
  unfold auto_nmax. destruct (Reqb (Rmin r1 r2) 0); [discriminate|].
  match goal with |- bind ?c _ = _ -> _ => destruct c; [|discriminate] end. cbn [bind].
  destruct (_ || _); [discriminate|]. intros [= <-]. lia.
Qed.

Lemma auto_nmax_sym r1 r2 L dT lm : auto_nmax r1 r2 L dT lm = auto_nmax r2 r1 L dT lm.
Proof. unfold auto_nmax. now rewrite (Rmin_comm r1 r2), (Rmax_comm r1 r2). Qed.

Lemma Rltb_scale s a b : 0 < s -> Rltb (s * a) (s * b) = Rltb a b.
Proof.
  intros Hs. destruct (Rltb_spec (s * a) (s * b)), (Rltb_spec a b); try reflexivity; exfalso; nra.
Qed.
Lemma Reqb_scale0 s a : 0 < s -> Reqb (s * a) 0 = Reqb a 0.
Proof. intros Hs. destruct (Reqb_spec (s * a) 0), (Reqb_spec a 0); try reflexivity; exfalso; nra. Qed.

Lemma auto_nmax_scale s r1 r2 L dT lm : 0 < s ->
  auto_nmax (s * r1) (s * r2) (s * L) (dT / s) lm = auto_nmax r1 r2 L dT lm.
Proof.
  intros Hs. unfold auto_nmax.
  assert (Hmin : Rmin (s * r1) (s * r2) = s * Rmin r1 r2).
  { unfold Rmin. destruct (Rle_dec (s * r1) (s * r2)), (Rle_dec r1 r2); try reflexivity; exfalso; nra. }
  assert (Hmax : Rmax (s * r1) (s * r2) = s * Rmax r1 r2).
  { unfold Rmax. destruct (Rle_dec (s * r1) (s * r2)), (Rle_dec r1 r2); try reflexivity; exfalso; nra. }
  rewrite Hmin, Hmax. set (rs := Rmin r1 r2). set (rg := Rmax r1 r2).
  rewrite <- Rmult_plus_distr_l, Rltb_scale by assumption.
  rewrite Reqb_scale0 by assumption.
  set (d := if Rltb L (rs + rg) then rg - rs - L else L - rs - rg).
  replace (if Rltb L (rs + rg) then s * rg - s * rs - s * L else s * L - s * rs - s * rg) with (s * d)
    by (unfold d; destruct (Rltb L (rs + rg)); ring).
  destruct (Reqb_spec rs 0) as [|Hrs]; [reflexivity|].
  replace (s * d / (s * rs)) with (d / rs) by (field; split; lra).
  rewrite Reqb_scale0 by assumption.
  replace (s * d * (dT / s)) with (d * dT) by (field; lra).
  destruct (Reqb_spec d 0) as [Hd|Hd].
  - destruct (Rleb (d / rs) 0.5); cbn [bind]; [reflexivity|].
    replace (d * dT) with 0 by (rewrite Hd; ring).
    destruct (Reqb_spec 0 0); [reflexivity|lra].
  - replace (- (s * rs) / (s * d)) with (- rs / d) by (field; split; lra).
    destruct (Rleb (d / rs) 0.5); cbn [bind];
    destruct (Reqb (d * dT) 0 || (lm =? 0)%Z); try reflexivity;
    do 4 f_equal; rewrite <- Rmult_plus_distr_l;
    match goal with |- context [exp ?e * (s * (d + rs)) / (s * rs)] =>
      replace (exp e * (s * (d + rs)) / (s * rs)) with (exp e * (d + rs) / rs) by (field; split; lra) end; reflexivity.
Qed.

(** the auto formula succeeds for separated spheres and gives at least 5 terms below LT = 7 *)
Lemma auto_nmax_ok r1 r2 L dT lm :
  0 < r1 -> 0 < r2 -> r1 + r2 < L -> 0 < dT -> (1 <= lm)%Z ->
  exists n, auto_nmax r1 r2 L dT lm = Ok n /\ (1 <= n)%Z /\
    ((L - r1 - r2) * dT < 7 -> (5 <= n)%Z).
Proof.
  intros H1 H2 HL HT Hlm. unfold auto_nmax.
  assert (Hs : Rmin r1 r2 + Rmax r1 r2 = r1 + r2) by (unfold Rmin, Rmax; destruct (Rle_dec r1 r2); lra).
  assert (Hp : 0 < Rmin r1 r2) by (unfold Rmin; destruct (Rle_dec r1 r2); lra).
  set (rs := Rmin r1 r2) in *. set (rg := Rmax r1 r2) in *.
  destruct (Reqb_spec rs 0); [lra|].
  rewrite Hs. destruct (Rltb_spec L (r1 + r2)); [lra|].
  replace (L - rs - rg) with (L - r1 - r2) by lra. set (d := L - r1 - r2).
  assert (Hd : 0 < d) by (unfold d; lra).
  set (c := if Rleb (d / rs) 0.5 then 0.1 + 2.21 * exp (- rs / d) else 0.4).
  assert (Hc : 0 < c) by (unfold c; destruct (Rleb _ _); [pose proof (exp_pos (- rs / d))|]; lra).
  destruct (Reqb_spec d 0); [lra|].
  replace (if Rleb (d / rs) 0.5 then Ok (0.1 + 2.21 * exp (- rs / d)) else Ok 0.4) with (Ok c)
    by (unfold c; destruct (Rleb _ _); reflexivity).
  cbn [bind]. assert (HdT : 0 < d * dT) by nra.
  destruct (Reqb_spec (d * dT) 0); [lra|]. destruct (Z.eqb_spec lm 0); [lia|]. cbn [orb].
  eexists. split; [reflexivity|]. split; [lia|]. intros H7.
  destruct (Rleb_spec 7 (d * dT)); [lra|].
  apply Z.max_le_iff. left. rewrite <- (trunc_IZR 5). apply trunc_mono.
  assert (HLm : 1 <= IZR lm) by (now apply IZR_le).
  enough (0 <= c * IZR lm / (d * dT) * (exp (- 2 * (d * dT)) * (d + rs) / rs + 1 + d * dT / IZR lm)) by (rewrite ?trunc_IZR; lra).
  apply Rmult_le_pos.
  - apply Rlt_le. apply Rdiv_lt_0_compat; [nra|lra].
  - assert (0 < exp (- 2 * (d * dT)) * (d + rs) / rs).
    { apply Rdiv_lt_0_compat; [|assumption]. apply Rmult_lt_0_compat; [apply exp_pos|lra]. }
    assert (0 < d * dT / IZR lm) by (apply Rdiv_lt_0_compat; lra). lra.
Qed.

(** ** Witnesses for the refutations *)
Lemma pyround_IZR n : pyround (IZR n) = n.
Proof.
  unfold pyround. rewrite Int_part_IZR. destruct (Rltb_spec (IZR n - IZR n) (1/2)); [reflexivity|lra].
Qed.

(** a geometry with constant results: [a] from mSumme, [z] at zero frequency, [b] for the force *)
Definition const_geo (a z b : R) : geo_ops unit :=
  {| g_mSumme := fun ks st => (st, match ks with [] => Err IndexError | _ => Ok (map (fun _ => a) ks) end);
     g_mSumme_k0 := fun st => (st, Ok [z]);
     g_trace_dot := fun ks st => (st, Ok (map (fun _ => b) ks)) |}.

Definition small_T (an : bool) (nmax : Z) : finiteT unit :=
  {| t_deltaT := 1; t_nmax := nmax; t_Tmax := 1; t_analytic := an; t_nprocs := 0;
     t_force := false; t_geom := tt; t_f := None; t_ff := None |}.

Lemma const_geo_elementwise a z b : elementwise (const_geo a z b) z (fun _ => a).
Proof.
  split.
  - intros ks st Hk. exists st. destruct ks; [congruence|reflexivity].
  - intros st. exists st. reflexivity.
Qed.

Lemma force_small a z b garbage :
  exists F, snd (force (const_geo a z b) garbage (small_T true 1)) = Ok F /\
            nth_error F 0 = Some (a / 2 + a).
Proof.
  rewrite force_is_free_energy by (cbn; auto; lia).
  destruct (free_energy_primed_sum (const_geo a z b) garbage z (fun _ => a)
    (set_analytic (with_force (small_T true 1) false) false) (const_geo_elementwise a z b))
    as (t' & F & E & HL & HF); try (cbn; auto; lra || lia).
  exists F. rewrite E. split; [reflexivity|].
  cbn [t_Tmax t_deltaT small_T set_analytic with_force] in HL.
  replace (1 / 1) with (IZR 1) in HL by lra. rewrite pyround_IZR in HL.
  change (nth_error F 0) with (nth_error F (1 - 1)). rewrite HF by (rewrite HL; cbn; lia).
  cbn [t_analytic t_deltaT t_nmax small_T set_analytic with_force zero_term].
  replace (Z.to_nat 1 / 1)%nat with 1%nat by reflexivity.
  unfold primed_sum. cbn. f_equal. lra.
Qed.

Lemma free_small a z b garbage :
  exists F, snd (free_energy (const_geo a z b) garbage (small_T true 1)) = Ok F /\
            nth_error F 0 = Some (z / 2 + a).
Proof.
  destruct (free_energy_primed_sum (const_geo a z b) garbage z (fun _ => a)
    (small_T true 1) (const_geo_elementwise a z b))
    as (t' & F & E & HL & HF); try (cbn; auto; lra || lia).
  exists F. rewrite E. split; [reflexivity|].
  cbn [t_Tmax t_deltaT small_T] in HL.
  replace (1 / 1) with (IZR 1) in HL by lra. rewrite pyround_IZR in HL.
  change (nth_error F 0) with (nth_error F (1 - 1)). rewrite HF by (rewrite HL; cbn; lia).
  cbn [t_analytic t_deltaT t_nmax small_T zero_term].
  replace (Z.to_nat 1 / 1)%nat with 1%nat by reflexivity.
  unfold primed_sum. cbn. f_equal. lra.
Qed.

(** the first use of the force flag makes a later free_energy() identical to force() *)
Lemma free_energy_after_force {G} (ops : geo_ops G) garbage t :
  t_f t = None -> t_ff t = None ->
  snd (free_energy ops garbage (fst (force ops garbage t))) =
  let t1 := fst (force ops garbage t) in
  match get_f_matsubaras ops garbage 0 (PyInt 50) t1 with
  | (_, Ok f) => Ok (temperature_table (t_deltaT t) (maxstep t) f)
  | (_, Err e) => Err e
  end.
Proof.
  intros Hf Hff. cbn zeta.
  assert (H : t_f (fst (force ops garbage t)) = None /\ t_deltaT (fst (force ops garbage t)) = t_deltaT t
              /\ t_Tmax (fst (force ops garbage t)) = t_Tmax t).
  { unfold force, mbind. cbn [t_ff with_force]. rewrite Hff.
    pose proof (get_f_same ops garbage 0 (PyInt 50) (with_force t true)) as Hs.
    destruct (get_f_matsubaras ops garbage 0 (PyInt 50) (with_force t true)) as [t1 [f1|e]];
      cbn [fst] in *; destruct Hs as (H1&_&H3&_&_&_&H7&_); cbn in *; repeat split; congruence. }
  destruct H as (H1 & H2 & H3).
  unfold free_energy, ensure_f, mbind at 1. rewrite H1. unfold mbind.
  pose proof (get_f_same ops garbage 0 (PyInt 50) (fst (force ops garbage t))) as Hs.
  destruct (get_f_matsubaras ops garbage 0 (PyInt 50) (fst (force ops garbage t))) as [t2 [f|e]]; [|reflexivity].
  cbn [fst] in Hs. destruct Hs as (E1&_&E3&_). cbn. unfold maxstep. cbn. now rewrite E1, E3, H2, H3.
Qed.

Lemma free_after_force_small a z b garbage :
  exists F, snd (free_energy (const_geo a z b) garbage
                   (fst (force (const_geo a z b) garbage (small_T true 1)))) = Ok F /\
            nth_error F 0 = Some (a / 2 + a).
Proof.
  rewrite free_energy_after_force by reflexivity. cbn zeta.
  set (t1 := fst (force _ _ _)).
  assert (Ht1 : t_nmax t1 = 1%Z /\ t_nprocs t1 = 0%Z /\ t_force t1 = true /\ t_deltaT t1 = 1 /\ t_geom t1 = tt).
  { unfold t1, force, mbind. cbn [t_ff with_force small_T].
    pose proof (get_f_same (const_geo a z b) garbage 0 (PyInt 50) (with_force (small_T true 1) true)) as Hs.
    change (with_force (small_T true 1) true) with
      {| t_deltaT := 1; t_nmax := 1; t_Tmax := 1; t_analytic := true; t_nprocs := 0;
         t_force := true; t_geom := tt; t_f := None; t_ff := None |} in *.
    destruct (get_f_matsubaras _ _ _ _ _) as [t2 [f2|e]];
      cbn [fst] in *; destruct Hs as (H1&H2&H3&H4&H5&H6&H7&H8);
      cbn [t_deltaT t_nmax t_nprocs t_force] in *; destruct (t_geom t2) eqn:Eg; cbn; repeat split; assumption. }
  clearbody t1. destruct Ht1 as (E1 & E2 & E3 & E4 & E5).
  rewrite single_slice by (rewrite ?E1, ?E2; lia). rewrite E1, E4. cbn zeta.
  change (arange 0 (1 + 1)) with [0%Z; 1%Z]. cbn [map].
  rewrite Rmult_0_r. unfold F_alle. destruct (Reqb_spec 0 0); [|lra]. rewrite E3. cbn [negb andb].
  unfold mbind, on_geom, ret. cbn [t_geom with_geom const_geo g_mSumme map half length app Nat.eqb t_deltaT small_T].
  eexists. split; [reflexivity|]. change 0%nat with (1 - 1)%nat.
  rewrite temperature_table_entry.
  - unfold sum_multiples. cbn. f_equal. lra.
  - unfold maxstep. cbn [t_Tmax t_deltaT small_T].
    replace (1 / 1) with (IZR 1) by lra. rewrite pyround_IZR. cbn. lia.
Qed.

(** ** forms used in Thermo_Props.v *)
Lemma slicewise_elementwise_pointwise (S A : Type) (garbage : nat -> A) (f : Z -> A) (nmin nmax step : Z) (s : S) :
  (0 < step)%Z -> (nmin <= nmax + 1)%Z ->
  exists out,
    slicewise_eval garbage (fun xs s => (s, Ok (map f xs))) nmin nmax (PyInt step) s
      = Some (s, Ok out) /\
    Z.of_nat (length out) = (nmax - nmin + 1)%Z /\
    forall n, (nmin <= n <= nmax)%Z -> nth_error out (Z.to_nat (n - nmin)) = Some (f n).
Proof.
  intros Hs Hn. eexists. split; [now apply slicewise_eval_elementwise|]. split.
  - unfold consecutive. rewrite !map_length, seq_length. lia.
  - intros n H. erewrite map_nth_error by (apply nth_error_consecutive; lia). do 2 f_equal. lia.
Qed.

Lemma force_refuted :
  exists (ops : geo_ops unit) (h : R -> R) (t : finiteT unit),
    (forall ks st, g_trace_dot ops ks st = (st, Ok (map h ks))) /\
    t_f t = None /\ t_ff t = None /\
    forall garbage, exists F v,
      snd (force ops garbage t) = Ok F /\ nth_error F 0 = Some v /\
      v <> primed_sum (h 1e-10) h (t_deltaT t) (Z.to_nat (t_nmax t)) /\
      v <> - primed_sum (h 1e-10) h (t_deltaT t) (Z.to_nat (t_nmax t)).
Proof.
  exists (const_geo 3 1 7), (fun _ => 7), (small_T true 1).
  split; [reflexivity|]. split; [reflexivity|]. split; [reflexivity|]. intros garbage.
  destruct (force_small 3 1 7 garbage) as (F & E & E2).
  exists F, (3 / 2 + 3). split; [assumption|]. split; [assumption|].
  unfold primed_sum. change (Z.to_nat (t_nmax (small_T true 1))) with 1%nat. cbn. split; intros E3; lra.
Qed.

Lemma force_first_refuted :
  exists (ops : geo_ops unit) t, forall garbage, exists F1 F2,
    snd (free_energy ops garbage t) = Ok F1 /\
    is_ok (snd (force ops garbage t)) = true /\
    snd (free_energy ops garbage (fst (force ops garbage t))) = Ok F2 /\
    F1 <> F2.
Proof.
  exists (const_geo 3 1 7), (small_T true 1). intros garbage.
  destruct (free_small 3 1 7 garbage) as (F1 & E1 & N1).
  destruct (free_after_force_small 3 1 7 garbage) as (F2 & E2 & N2).
  destruct (force_small 3 1 7 garbage) as (F3 & E3 & _).
  exists F1, F2. split; [assumption|]. split; [now rewrite E3|]. split; [assumption|].
  intros ->. rewrite N1 in N2. injection N2. lra.
Qed.

Lemma entropy_spec {G : Type} (ops : geo_ops G) garbage t t1 F :
  free_energy ops garbage t = (t1, Ok F) ->
  let h := t_deltaT t in
  ((length F < 2)%nat -> snd (entropy ops garbage t) = Err ValueError) /\
  ((2 <= length F)%nat -> h <> 0 ->
   exists S, snd (entropy ops garbage t) = Ok S /\ length S = length F /\
   (forall a b, (forall i, (i < length F)%nat -> nth i F 0 = a + b * (INR (i + 1) * h)) ->
      forall i, (i < length F)%nat -> nth i S 0 = - b) /\
   (forall a b c, (forall i, (i < length F)%nat ->
        nth i F 0 = a + b * (INR (i + 1) * h) + c * (INR (i + 1) * h) ^ 2) ->
      forall i, (0 < i < length F - 1)%nat -> nth i S 0 = - (b + 2 * c * (INR (i + 1) * h))) /\
   nth 0 S 0 = - ((nth 1 F 0 - nth 0 F 0) / h) /\
   nth (length F - 1) S 0 = - ((nth (length F - 1) F 0 - nth (length F - 2) F 0) / h)).
Proof.
  intros HF h.
  assert (ES : snd (entropy ops garbage t) =
          match np_gradient F h with Ok g => Ok (map Ropp g) | Err e => Err e end).
  { unfold entropy, mbind. unfold free_energy, mbind in HF.
    destruct (ensure_f ops garbage t) as [t' [f|e]] eqn:E; [|discriminate].
    apply ensure_f_ok in E. destruct E as (E1&E2&_).
    rewrite (free_energy_cached ops garbage t' f E1). injection HF as <- <-. cbn. now rewrite E2. }
  rewrite ES. clear ES HF.
  assert (Hop : forall D, length D = length F -> forall i, nth i (map Ropp D) 0 = - nth i D 0).
  { intros D _ i. rewrite <- (map_nth Ropp D 0 i). rewrite Ropp_0. reflexivity. }
  assert (HI : forall i, INR (i + 1) * h = h + INR i * h) by (intros i; rewrite plus_INR; simpl; ring).
  destruct (np_gradient_spec F h) as [[-> Hl]|(Hl & D & -> & HL & H1 & H2 & H3 & H4)].
  - split; [reflexivity|lia].
  - split; [lia|]. intros _ Hh. exists (map Ropp D). split; [reflexivity|].
    split; [now rewrite map_length|]. split; [|split; [|split]].
    + intros a b Hab i Hi. rewrite Hop by assumption. f_equal. apply (H1 a b h); [assumption| |assumption].
      intros j Hj. rewrite Hab by assumption. now rewrite HI.
    + intros a b c Hab i Hi. rewrite Hop by assumption. f_equal. rewrite HI.
      apply (H2 a b c h); [assumption| |assumption].
      intros j Hj. rewrite Hab by assumption. now rewrite HI.
    + rewrite Hop by assumption. now rewrite H3.
    + rewrite Hop by assumption. now rewrite H4.
Qed.

Lemma auto_init_pos {G} deltaT Tmax ga (geom : G) an np t :
  finiteT_init deltaT NmaxAuto Tmax ga geom an np = Ok t -> (1 <= t_nmax t)%Z.
Proof.
  unfold finiteT_init.
  match goal with |- bind ?c _ = _ -> _ => destruct c; [|discriminate] end. cbn [bind].
  destruct (outer (ga_r1 ga)) as [r1|]; [|discriminate]. cbn [bind].
  destruct (outer (ga_r2 ga)) as [r2|]; [|discriminate]. cbn [bind].
  destruct (auto_nmax r1 r2 (ga_L ga) deltaT (ga_lmax ga)) as [n|] eqn:E; [|discriminate]. cbn [bind].
  destruct (ga_isinstance ga); [|discriminate]. destruct (Reqb deltaT 0); [discriminate|].
  intros [= <-]. cbn. now apply auto_nmax_pos in E.
Qed.

Lemma explicit_nmax {G} deltaT n Tmax ga (geom : G) an np t :
  finiteT_init deltaT (NmaxInt n) Tmax ga geom an np = Ok t -> t_nmax t = n.
Proof.
  unfold finiteT_init.
  match goal with |- bind ?c _ = _ -> _ => destruct c; [|discriminate] end. cbn [bind].
  destruct (ga_isinstance ga); [|discriminate]. destruct (Reqb deltaT 0); [discriminate|].
  intros [= <-]. reflexivity.
Qed.

Lemma F_alle_nonzero' {G} (ops : geo_ops G) k0 k t g1 r :
  k0 <> 0 -> t_force t = false ->
  g_mSumme ops (k0 :: k) (t_geom t) = (g1, r) ->
  F_alle ops (k0 :: k) t = (with_geom t g1, r).
Proof.
  intros H Hf E. rewrite F_alle_nonzero by assumption. unfold on_geom. now rewrite E.
Qed.

Lemma F_alle_single_zero {G} (ops : geo_ops G) t F0 g1 g2 :
  t_force t = false -> t_analytic t = false ->
  g_mSumme ops [1e-10] (t_geom t) = (g1, Ok F0) ->
  g_mSumme ops [] g1 = (g2, Err IndexError) ->
  snd (F_alle ops [0] t) = Err IndexError.
Proof.
  intros Hf Ha E1 E2. unfold F_alle. destruct (Reqb_spec 0 0); [|lra]. rewrite Hf, Ha.
  cbn [negb andb]. unfold mbind, on_geom. rewrite E1. cbn [t_geom with_geom]. rewrite E2. reflexivity.
Qed.
