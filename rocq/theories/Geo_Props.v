(** * Properties C09-C12, C22, C23, C52: CasimirRio/geometry.py *)
From Coq Require Import Bool Reals List ZArith Lia Lra.
From Verif Require Import Base Thermo_Model Geo_Model Geo_Spec Geo_Proofs.
Import ListNotations.
Open Scope R_scope.

(** C09.  If mSumme returns [r] for an array not starting with 0, then r is the m=0 array
    plus twice the arrays for m = 1..M, evaluated once each in this order, M <= lmax; the
    loop went on exactly as long as the sum so far had a nonzero entry and the last step was not
    small, and if M < lmax then either the sum is identically zero or the last step changed
    the largest entry by less than precision/10. *)
Theorem C09_mSumme_partial_sum :
  forall (S : Type) (term : nat -> list R -> M S (list xr)) (term0 : nat -> M S xr)
         (lmax : nat) (precision : R) ks k0 s s' r,
  hd_error ks = Some k0 -> k0 <> 0 ->
  (forall m s s1 t, term m ks s = (s1, Ok t) -> t <> []) ->
  mSumme term term0 lmax precision ks s = (s', Ok r) ->
  exists t0 ts,
    let M := length ts in
    (M <= lmax)%nat /\ runs (fun m => term m ks) s 0 s' (t0 :: ts) /\
    Forall (fun t => length t = length t0) ts /\
    r = partial t0 ts M /\
    (forall j, (j < M)%nat ->
       (exists i, (i < length t0)%nat /\ nth i (partial t0 ts j) NaN <> Fin 0) /\
       ((0 < j)%nat -> forall i, largest_at (partial t0 ts (j - 1)) i ->
          ~ rel_close (nth i (partial t0 ts j) NaN) (nth i (partial t0 ts (j - 1)) NaN) (precision / 10))) /\
    ((M < lmax)%nat ->
       (forall i, (i < length t0)%nat -> nth i r NaN = Fin 0) \/
       ((0 < M)%nat /\ exists i, largest_at (partial t0 ts (M - 1)) i /\
          rel_close (nth i r NaN) (nth i (partial t0 ts (M - 1)) NaN) (precision / 10))).
Proof. exact @mSumme_spec. Qed.
Print Assumptions C09_mSumme_partial_sum.

(** mSumme fails only if the evaluation of one of the terms fails. *)
Theorem C09_mSumme_errors :
  forall (S : Type) (term : nat -> list R -> M S (list xr)) (term0 : nat -> M S xr)
         (lmax : nat) (precision : R) ks k0 s s' e,
  hd_error ks = Some k0 -> k0 <> 0 ->
  (forall m s s1 t, term m ks s = (s1, Ok t) -> length t = length ks) ->
  mSumme term term0 lmax precision ks s = (s', Err e) ->
  exists m s1, (m <= lmax)%nat /\ term m ks s1 = (s', Err e).
Proof. exact @mSumme_errors. Qed.
Print Assumptions C09_mSumme_errors.

(** The zero-frequency sum; its stopping rule compares old/new instead of new/old and has
    no special case for a vanishing sum. *)
Theorem C09_mSumme_k0_partial_sum :
  forall (S : Type) (term0 : nat -> M S xr) (lmax : nat) (precision : R) s s' r,
  mSumme_k0 term0 lmax precision s = (s', Ok r) ->
  exists t0 ts, (length ts <= lmax)%nat /\ runs term0 s 0 s' (t0 :: ts) /\
    r = [weighted t0 ts] /\
    (forall j, (0 < j < length ts)%nat ->
       ~ rel_close (weighted t0 (firstn (j - 1) ts)) (weighted t0 (firstn j ts)) (precision / 10)) /\
    ((length ts < lmax)%nat -> (0 < length ts)%nat /\
       rel_close (weighted t0 (firstn (length ts - 1) ts)) (weighted t0 ts) (precision / 10)).
Proof. exact @mSumme_k0_spec. Qed.
Print Assumptions C09_mSumme_k0_partial_sum.

(** a run of two terms that stops early (the second term vanishes) *)
Example C09_instance :
  mSumme (S := unit) (fun m ks => ret (map (fun _ => Fin (if Nat.eqb m 0 then -1 else 0)) ks)) (fun _ => ret (Fin 0))
         5 0.0001 [1; 2] tt = (tt, Ok [Fin (-1 + 2 * 0); Fin (-1 + 2 * 0)]).
Proof.
  cbn. destruct (Reqb_spec 1 0); [lra|]. cbn.
  destruct (Rltb_spec (Rabs (-1)) (Rabs (-1))); [lra|]. cbn.
  destruct (Reqb_spec (-1) 0); [lra|]. cbn.
  destruct (Reqb_spec (-1) 0); [lra|]. cbn.
  destruct (Rltb_spec (Rabs (Rabs ((-1 + 2 * 0) / -1) + - (1))) (0.0001 / 10)) as [|H]; [reflexivity|].
  exfalso. apply H. replace ((-1 + 2 * 0) / -1) with 1 by lra.
  rewrite Rabs_R1. replace (1 + -(1)) with 0 by ring. rewrite Rabs_R0. lra.
Qed.

(** C10.  A leading zero frequency is evaluated by the zero-frequency sum and prepended. *)
Theorem C10_leading_zero :
  forall (S : Type) (term : nat -> list R -> M S (list xr)) (term0 : nat -> M S xr)
         (lmax : nat) (precision : R) rest s,
  mSumme term term0 lmax precision (0 :: rest) s =
  match mSumme_k0 term0 lmax precision s with
  | (s1, Err e) => (s1, Err e)
  | (s1, Ok z) =>
      match rest with
      | [] => (s1, Ok z)
      | _ => match mSumme term term0 lmax precision rest s1 with
             | (s2, Ok r) => (s2, Ok (z ++ r))
             | (s2, Err e) => (s2, Err e)
             end
      end
  end.
Proof. exact @mSumme_zero_prefix. Qed.
Print Assumptions C10_leading_zero.

Theorem C10_empty :
  forall (S : Type) (term : nat -> list R -> M S (list xr)) (term0 : nat -> M S xr)
         (lmax : nat) (precision : R) s,
  mSumme term term0 lmax precision [] s = (s, Err IndexError).
Proof. exact @mSumme_empty. Qed.
Print Assumptions C10_empty.

(** C11.  Whatever was requested before, a request (m, k) yields the coefficients of
    l = max(1,m)..lmax, if m <= 1 or the preceding request was for the same k ... *)
Theorem C11_cache_right :
  forall (A B V : Type) (fA : list R -> nat -> A) (fB : list R -> nat -> B) (trans : nat -> list R -> V)
         (lmax lssmax : nat) h m k,
  (m <= 1)%nat \/ (exists h' m', h = h' ++ [(m', k)]) ->
  snd (roundTrip_elements (fun k => per_l (fA k) lmax 1) (fun k => per_l (fB k) lssmax 1) trans m k
    (after_requests (fun k => per_l (fA k) lmax 1) (fun k => per_l (fB k) lssmax 1) trans h empty_cache)) =
  (per_l (fA k) lmax (Nat.max 1 m), per_l (fB k) lssmax (Nat.max 1 m), trans m k).
Proof. exact @cache_right. Qed.
Print Assumptions C11_cache_right.

(** ... in particular for every request made by a sum over m = 0, 1, 2, ... *)
Theorem C11_cache_right_in_sums :
  forall (A B V : Type) (fA : list R -> nat -> A) (fB : list R -> nat -> B) (trans : nat -> list R -> V)
         (lmax lssmax : nat) h k m,
  snd (roundTrip_elements (fun k => per_l (fA k) lmax 1) (fun k => per_l (fB k) lssmax 1) trans m k
    (after_requests (fun k => per_l (fA k) lmax 1) (fun k => per_l (fB k) lssmax 1) trans
       (h ++ map (fun i => (i, k)) (seq 0 m)) empty_cache)) =
  (per_l (fA k) lmax (Nat.max 1 m), per_l (fB k) lssmax (Nat.max 1 m), trans m k).
Proof. exact @cache_sum_right. Qed.
Print Assumptions C11_cache_right_in_sums.

(** ... but for m >= 2 after a request for another k (or none) it yields l = 1..lmax,
    which is m - 1 entries too many. *)
Theorem C11_cache_history_refuted :
  forall (A B V : Type) (fA : list R -> nat -> A) (fB : list R -> nat -> B) (trans : nat -> list R -> V)
         (lmax lssmax : nat) h m k,
  (2 <= m)%nat -> (forall h' m', h <> h' ++ [(m', k)]) ->
  snd (roundTrip_elements (fun k => per_l (fA k) lmax 1) (fun k => per_l (fB k) lssmax 1) trans m k
    (after_requests (fun k => per_l (fA k) lmax 1) (fun k => per_l (fB k) lssmax 1) trans h empty_cache)) =
  (per_l (fA k) lmax 1, per_l (fB k) lssmax 1, trans m k).
Proof. exact @cache_wrong_l. Qed.
Print Assumptions C11_cache_history_refuted.

Example C11_instance :
  let f (k : list R) (l : nat) := l in let tr (m : nat) (k : list R) := m in
  let mA k := per_l (f k) 4 1 in
  snd (roundTrip_elements mA mA tr 3 [1] (after_requests mA mA tr [] empty_cache)) = ([1; 2; 3; 4], [1; 2; 3; 4], 3)%nat /\
  snd (roundTrip_elements mA mA tr 3 [1] (after_requests mA mA tr [(0%nat, [1])] empty_cache)) = ([3; 4], [3; 4], 3)%nat.
Proof.
  cbn zeta. split; [reflexivity|].
  cbn. unfold roundTrip_elements. cbn. destruct (Reqb_spec 1 1); [reflexivity|lra].
Qed.

(** C12.  Zero frequency: the result does not depend on the history if the first request
    ever made had m <= 1; otherwise every later request m <= lmax gets the wrong coefficients:
    those of l = m0 + max(1,m) - 1, ... instead of l = max(1,m), ... *)
Theorem C12_k0_cache_right :
  forall (A B V : Type) (fA : nat -> A) (fB : nat -> B) (lmax lssmax : nat) (trans : nat -> V) h m,
  (forall m0, hd_error h = Some m0 -> (m0 <= 1)%nat) ->
  snd (roundTrip_elements_k0 (per_l fA lmax) (per_l fB lssmax) trans m
         (after_requests_k0 (per_l fA lmax) (per_l fB lssmax) trans h empty_zcache)) =
  (per_l fA lmax (Nat.max 1 m), per_l fB lssmax (Nat.max 1 m), trans m).
Proof.
  intros. rewrite k0_transparent by assumption. reflexivity.
Qed.
Print Assumptions C12_k0_cache_right.

Theorem C12_k0_cache_history :
  forall (A B V : Type) (fA : nat -> A) (fB : nat -> B) (lmax lssmax : nat) (trans : nat -> V) m0 h m,
  snd (roundTrip_elements_k0 (per_l fA lmax) (per_l fB lssmax) trans m
         (after_requests_k0 (per_l fA lmax) (per_l fB lssmax) trans (m0 :: h) empty_zcache)) =
  (map fA (seq (Nat.max 1 m0 + Nat.max 1 m - 1) (lmax + 2 - Nat.max 1 m0 - Nat.max 1 m)),
   map fB (seq (Nat.max 1 m0 + Nat.max 1 m - 1) (lssmax + 2 - Nat.max 1 m0 - Nat.max 1 m)), trans m).
Proof. exact @k0_result. Qed.
Print Assumptions C12_k0_cache_history.

Theorem C12_k0_cache_refuted :
  forall (A B V : Type) (fA : nat -> A) (fB : nat -> B) (lmax lssmax : nat) (trans : nat -> V) m0 h m,
  (2 <= m0)%nat -> (m <= lmax)%nat -> (1 <= lmax)%nat ->
  snd (roundTrip_elements_k0 (per_l fA lmax) (per_l fB lssmax) trans m
         (after_requests_k0 (per_l fA lmax) (per_l fB lssmax) trans (m0 :: h) empty_zcache)) <>
  snd (roundTrip_elements_k0 (per_l fA lmax) (per_l fB lssmax) trans m empty_zcache).
Proof. exact @k0_not_transparent. Qed.
Print Assumptions C12_k0_cache_refuted.

Example C12_instance :
  let f := per_l (fun l => l) 5 in
  snd (roundTrip_elements_k0 f f (fun m => m) 2 (after_requests_k0 f f (fun m => m) [2; 1]%nat empty_zcache)) = ([3; 4; 5], [3; 4; 5], 2)%nat /\
  snd (roundTrip_elements_k0 f f (fun m => m) 2 empty_zcache) = ([2; 3; 4; 5], [2; 3; 4; 5], 2)%nat.
Proof. split; reflexivity. Qed.

(** C22.  Automatic cutoff *)
Theorem C22_lmax_exists :
  forall r1 r2 L p o, 0 < r1 -> 0 < r2 -> 0 < gap r1 r2 L -> 0 < p ->
  exists n, get_lmax r1 r2 L p o = Ok n /\ (1 <= n)%Z.
Proof.
  intros. destruct (get_lmax_ok r1 r2 L p o) as [n Hn]; try assumption.
  exists n. split; [assumption|]. eapply get_lmax_pos; exact Hn.
Qed.
Print Assumptions C22_lmax_exists.

Theorem C22_lmax_positive :
  forall r1 r2 L p o n, get_lmax r1 r2 L p o = Ok n -> (1 <= n)%Z.
Proof. exact get_lmax_pos. Qed.
Print Assumptions C22_lmax_positive.

Theorem C22_lmax_symmetric :
  forall r1 r2 L p o, get_lmax r1 r2 L p o = get_lmax r2 r1 L p o.
Proof. exact get_lmax_sym. Qed.
Print Assumptions C22_lmax_symmetric.

Theorem C22_lmax_scale_invariant :
  forall s r1 r2 L p o, 0 < s -> get_lmax (s * r1) (s * r2) (s * L) p o = get_lmax r1 r2 L p o.
Proof. exact get_lmax_scale. Qed.
Print Assumptions C22_lmax_scale_invariant.

(** smaller gap, higher precision, larger offset: never fewer multipoles *)
Theorem C22_lmax_monotone :
  forall r1 r2 L L' p p' o o' n n',
  0 < r1 -> 0 < r2 -> 0 < gap r1 r2 L' -> gap r1 r2 L' <= gap r1 r2 L ->
  0 < p' -> p' <= p -> (o <= o')%Z ->
  get_lmax r1 r2 L p o = Ok n -> get_lmax r1 r2 L' p' o' = Ok n' -> (n <= n')%Z.
Proof. exact get_lmax_mono. Qed.
Print Assumptions C22_lmax_monotone.

Theorem C22_lmax_far :
  forall r1 r2 L p o, 0 < r1 -> 0 < r2 -> 30 * Rmin r1 r2 <= gap r1 r2 L -> get_lmax r1 r2 L p o = Ok 1%Z.
Proof. exact get_lmax_far. Qed.
Print Assumptions C22_lmax_far.

Theorem C22_lssmax_at_least_lmax :
  forall r1 r2 L lmax off p f ev a o1 o2,
  sphere_init r1 r2 L lmax off Automatic p f ev = Ok a ->
  outer r1 = Ok o1 -> outer r2 = Ok o2 -> 0 < o1 -> 0 < o2 -> (0 <= s_lmax a)%Z ->
  (s_lmax a <= s_lssmax a)%Z.
Proof. exact lssmax_ge_lmax. Qed.
Print Assumptions C22_lssmax_at_least_lmax.

(** spheres in contact: division by zero *)
Example C22_contact : get_lmax 1 2 3 0.001 5 = Err ZeroDivisionError.
Proof.
  unfold get_lmax. rewrite Rmin_left, Rmax_right by lra.
  destruct (Reqb_spec 1 0); [lra|]. replace (Rabs (2 - 3)) with 1 by (rewrite Rabs_left; lra).
  destruct (Rleb_spec 30 ((1 - 1) / 1)); [lra|]. destruct (Reqb_spec (1 - 1) 0); [reflexivity|lra].
Qed.

(** C23.  What a successful construction guarantees. *)
Theorem C23_constructor :
  forall r1 r2 L lmax off lss p f ev a,
  sphere_init r1 r2 L lmax off lss p f ev = Ok a ->
  exists o1 o2, outer r1 = Ok o1 /\ outer r2 = Ok o2 /\
    (ev = EvLndet /\ s_trace a = false \/ ev = EvTrace /\ s_trace a = true) /\
    (s_ext a = true <-> o1 + o2 < L) /\
    s_r1 a = r1 /\ s_r2 a = r2 /\ s_L a = L /\ s_precision a = p /\ s_force a = f /\ s_l_offset a = off /\
    (match lmax with Given n => s_lmax a = n | Automatic => get_lmax o1 o2 L p off = Ok (s_lmax a) end) /\
    (match lss with
     | Given n => s_lssmax a = n
     | Automatic => s_lssmax a = trunc (Rmax o1 o2 / Rmin o1 o2 * IZR (s_lmax a))
     end).
Proof. exact sphere_init_spec. Qed.
Print Assumptions C23_constructor.

Theorem C23_bad_evaluation :
  forall r1 r2 L lmax off lss p f, sphere_init r1 r2 L lmax off lss p f EvOther = Err ValueError.
Proof. exact sphere_init_bad_evaluation. Qed.
Print Assumptions C23_bad_evaluation.

(** Overlapping spheres (neither outside nor inside each other) are accepted. *)
Theorem C23_overlap_refuted :
  forall r1 r2 L n ns p, 0 < r1 -> 0 < r2 -> Rabs (r1 - r2) < L < r1 + r2 ->
  exists a, sphere_init (RSolid r1) (RSolid r2) L (Given n) 0 (Given ns) p false EvLndet = Ok a /\ s_ext a = false.
Proof.
  intros. eexists. split; [reflexivity|]. cbn. destruct (Rltb_spec (r1 + r2) L); [lra|reflexivity].
Qed.
Print Assumptions C23_overlap_refuted.

(** CoatedSphereSphere(…, lmax, lssmax, forceFlag): the requested lssmax is used as offset, the
    force flag as lssmax, and the force flag itself is dropped. *)
Theorem C23_coated_arguments_refuted :
  forall r1 r2 L lmax lssmax forceFlag a,
  coated_init r1 r2 L lmax lssmax forceFlag = Ok a ->
  s_lmax a = lmax /\ s_l_offset a = lssmax /\ s_lssmax a = forceFlag /\ s_force a = false.
Proof. intros until a. intros [= <-]. repeat split. Qed.
Print Assumptions C23_coated_arguments_refuted.

Example C23_instance :
  exists a, sphere_init (RSolid 1) (RShells [0.5; 2]) 4 (Given 7) 5 Automatic 0.001 false EvTrace = Ok a /\
    s_ext a = true /\ s_lssmax a = 14%Z /\ s_trace a = true.
Proof.
  eexists. split.
  - cbn. rewrite Rmin_left, Rmax_right by lra. destruct (Reqb_spec 1 0); [lra|]. cbn. reflexivity.
  - cbn. split; [|split].
    + destruct (Rltb_spec (1 + 2) 4); [reflexivity|lra].
    + replace (2 / 1 * 7) with (IZR 14) by lra. apply trunc_IZR.
    + reflexivity.
Qed.

(** C52.  Trace evaluation: for finite contributions of one sign (as for ln det of attractive
    configurations) the sum over m always runs up to lmax, for every precision <= 1: the ratio
    |new/old| is compared where the relative change is meant. *)
Theorem C52_trace_never_stops_early :
  forall (S : Type) precision (tr : nat -> list R -> M S (list xr)) lmax m ks acc s s' r,
  precision <= 1 -> Forall nonpos acc ->
  (forall m s s1 t, tr m ks s = (s1, Ok t) -> Forall nonpos t) ->
  rloop precision tr lmax m ks acc s = (s', Ok r) ->
  exists ts, length ts = lmax /\ runs (fun m => tr m ks) s m s' ts /\
    Forall (fun t => length t = length acc) ts /\
    (forall i, (i < length acc)%nat -> nth i r NaN = weighted (nth i acc NaN) (column i ts)).
Proof. exact @rloop_same_sign. Qed.
Print Assumptions C52_trace_never_stops_early.

(** In contrast, contributions that cancel make it stop, however large the last step was. *)
Theorem C52_trace_stops_on_cancellation_refuted :
  forall precision (x : R) n, 0 < precision -> x <> 0 ->
  mSum_roundtrips (S := unit) (Datatypes.S n) precision
    (fun m _ => ret [Fin (if Nat.eqb m 0 then x else - x / 2)]) [1] tt
  = (tt, Ok [Fin (x + 2 * (- x / 2))]).
Proof.
  intros p x n Hp Hx. unfold mSum_roundtrips, mbind, ret. cbn.
  destruct (Reqb_spec x 0); [contradiction|]. cbn [xabs xltb].
  destruct (Rltb_spec (Rabs ((x + 2 * (- x / 2)) / x)) p) as [|H]; [reflexivity|].
  exfalso. apply H. replace ((x + 2 * (- x / 2)) / x) with 0 by (field; assumption). now rewrite Rabs_R0.
Qed.
Print Assumptions C52_trace_stops_on_cancellation_refuted.
