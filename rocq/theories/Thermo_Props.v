(** * Properties C01-C08: CasimirRio/thermodynamics.py *)
From Coq Require Import Bool Reals List ZArith Lia Lra.
From Verif Require Import Base Thermo_Model Thermo_Spec Thermo_Proofs.
Import ListNotations.
Open Scope R_scope.

(** C01.  For an elementwise function the result is [f nmin; ...; f nmax],
    whatever the stepsize and the initial content of the result array. *)
Theorem C01_slicewise_elementwise :
  forall (S A : Type) (garbage : nat -> A) (f : Z -> A) (nmin nmax step : Z) (s : S),
  (0 < step)%Z -> (nmin <= nmax + 1)%Z ->
  exists out,
    slicewise_eval garbage (fun xs s => (s, Ok (map f xs))) nmin nmax (PyInt step) s
      = Some (s, Ok out) /\
    Z.of_nat (length out) = (nmax - nmin + 1)%Z /\
    forall n, (nmin <= n <= nmax)%Z -> nth_error out (Z.to_nat (n - nmin)) = Some (f n).
Proof. exact slicewise_elementwise_pointwise. Qed.
Print Assumptions C01_slicewise_elementwise.

Example C01_instance :
  slicewise_eval (S := unit) (fun _ => 0%Z) (fun xs s => (s, Ok (map (fun n => n * n)%Z xs))) 3 9 (PyInt 4) tt
  = Some (tt, Ok [9; 16; 25; 36; 49; 64; 81]%Z).
Proof. reflexivity. Qed.

(** C02.  For an arbitrary (stateful, failing) function: the slices visited depend only
    on nmin, nmax, stepsize; they are non-empty, at most stepsize long and partition
    nmin..nmax in order; the outcome is the concatenation of what was stored, or the
    first failure, all earlier slices having been evaluated exactly once. *)
Theorem C02_slicewise_partition :
  forall (S A : Type) (func : list Z -> S -> S * res (list A)) (nmin nmax step : Z),
  (0 < step)%Z -> (nmin <= nmax + 1)%Z ->
  exists chunks,
    concat chunks = consecutive nmin (Z.to_nat (nmax - nmin + 1)) /\
    Forall (fun c => (1 <= Z.of_nat (length c) <= step)%Z) chunks /\
    forall garbage s,
      (exists s' out, evaluates func s chunks s' out /\
         slicewise_eval garbage func nmin nmax (PyInt step) s = Some (s', Ok out)) \/
      (exists pre c post s1 s2 out e,
         chunks = pre ++ c :: post /\ evaluates func s pre s1 out /\
         fails_on func c s1 s2 e /\
         slicewise_eval garbage func nmin nmax (PyInt step) s = Some (s2, Err e)).
Proof. intros S A. exact slicewise_eval_complete. Qed.
Print Assumptions C02_slicewise_partition.

Theorem C02_slicewise_bad_step :
  forall (S A : Type) (func : list Z -> S -> S * res (list A)) garbage nmin nmax stepsize s,
  (forall z, py_int stepsize = Ok z -> (z <= 0)%Z) ->
  exists e, slicewise_eval garbage func nmin nmax stepsize s = Some (s, Err e) /\
    (is_ok (py_int stepsize) = true -> e = ValueError) /\
    (forall e', py_int stepsize = Err e' -> e = e').
Proof. intros S A. exact slicewise_eval_bad_step. Qed.
Print Assumptions C02_slicewise_bad_step.

Theorem C02_slicewise_negative_length :
  forall (S A : Type) (func : list Z -> S -> S * res (list A)) garbage nmin nmax step s,
  (0 < step)%Z -> (nmax + 1 < nmin)%Z ->
  slicewise_eval garbage func nmin nmax (PyInt step) s = Some (s, Err ValueError).
Proof. intros S A. exact slicewise_eval_negative_length. Qed.
Print Assumptions C02_slicewise_negative_length.

(** a non-integer stepsize behaves like its truncation *)
Theorem C02_slicewise_int_step :
  forall (S A : Type) (func : list Z -> S -> S * res (list A)) garbage nmin nmax p z s,
  py_int p = Ok z ->
  slicewise_eval garbage func nmin nmax p s = slicewise_eval garbage func nmin nmax (PyInt z) s.
Proof. intros S A. exact slicewise_eval_int. Qed.
Print Assumptions C02_slicewise_int_step.

Theorem C02_slicewise_terminates :
  forall (S A : Type) garbage (func : list Z -> S -> S * res (list A)) nmin nmax p s,
  slicewise_eval garbage func nmin nmax p s <> None.
Proof. intros S A. exact slicewise_terminates. Qed.
Print Assumptions C02_slicewise_terminates.

(** logging the slices: 0..6 in steps of 3; and a wrong-length result *)
Example C02_instance :
  slicewise_eval (S := list (list Z)) (fun _ => 0%Z) (fun xs s => (s ++ [xs], Ok xs)) 0 6 (PyInt 3) []
  = Some ([[0; 1; 2]; [3; 4; 5]; [6]]%Z, Ok [0; 1; 2; 3; 4; 5; 6]%Z).
Proof. reflexivity. Qed.
Example C02_instance_bad :
  slicewise_eval (S := unit) (fun _ => 0%Z) (fun xs s => (s, Ok (tl xs))) 0 6 (PyInt 3) tt
  = Some (tt, Err ValueError).
Proof. reflexivity. Qed.

(** C03.  Whatever the stored Matsubara terms are, the table holds the strided sums. *)
Theorem C03_free_energy_table :
  forall (G : Type) (ops : geo_ops G) garbage t t' F,
  free_energy ops garbage t = (t', Ok F) ->
  exists f, t_f t' = Some f /\
    (t_f t = Some f \/ t_f t = None /\ length f = Z.to_nat (t_nmax t + 1)) /\
    length F = Z.to_nat (pyround (t_Tmax t / t_deltaT t)) /\
    forall i, (1 <= i <= length F)%nat ->
      nth_error F (i - 1) = Some (INR i * t_deltaT t * sum_multiples i f).
Proof. intros G ops. exact (free_energy_table ops). Qed.
Print Assumptions C03_free_energy_table.

(** above nmax only the zeroth term is left *)
Theorem C03_beyond_nmax : forall i f, (length f <= i)%nat -> (0 < i)%nat -> sum_multiples i f = nth 0 f 0.
Proof. exact sum_multiples_large. Qed.
Print Assumptions C03_beyond_nmax.

Theorem C03_table_length : forall x, Rabs (IZR (pyround x) - x) <= 1/2.
Proof. exact pyround_spec. Qed.
Print Assumptions C03_table_length.

(** For a geometry whose terms are computed frequency by frequency (g0 at zero frequency,
    g elsewhere), entry i is the primed Matsubara sum at temperature i*deltaT. *)
Theorem C03_free_energy_primed_sum :
  forall (G : Type) (ops : geo_ops G) garbage (g0 : R) (g : R -> R) t,
  (forall ks st, ks <> [] -> exists st', g_mSumme ops ks st = (st', Ok (map g ks))) /\
  (forall st, exists st', g_mSumme_k0 ops st = (st', Ok [g0])) ->
  t_nprocs t = 0%Z -> t_force t = false -> t_deltaT t <> 0 -> t_f t = None ->
  (0 <= t_nmax t)%Z -> (t_analytic t = true \/ 1 <= t_nmax t)%Z ->
  exists t' F, free_energy ops garbage t = (t', Ok F) /\
    length F = Z.to_nat (pyround (t_Tmax t / t_deltaT t)) /\
    forall i, (1 <= i <= length F)%nat ->
      nth_error F (i - 1) =
      Some (primed_sum (if t_analytic t then g0 else g 1e-10) g (INR i * t_deltaT t)
                       (Z.to_nat (t_nmax t) / i)).
Proof. intros G ops. exact (free_energy_primed_sum ops). Qed.
Print Assumptions C03_free_energy_primed_sum.

Example C03_instance : forall garbage,
  exists F, snd (free_energy (const_geo 3 1 7) garbage (small_T true 1)) = Ok F /\
            nth_error F 0 = Some (1 / 2 + 3).
Proof. exact (free_small 3 1 7). Qed.

(** C04 (refuted).  force() does not evaluate the force operator: with fewer than 50
    Matsubara terms its result is that of free_energy() with analytic_n0=False, for
    every geometry, and from 50 terms on it fails whenever the force operator does. *)
Theorem C04_force_refuted :
  exists (ops : geo_ops unit) (h : R -> R) (t : finiteT unit),
    (forall ks st, g_trace_dot ops ks st = (st, Ok (map h ks))) /\
    t_f t = None /\ t_ff t = None /\
    forall garbage, exists F v,
      snd (force ops garbage t) = Ok F /\ nth_error F 0 = Some v /\
      v <> primed_sum (h 1e-10) h (t_deltaT t) (Z.to_nat (t_nmax t)) /\
      v <> - primed_sum (h 1e-10) h (t_deltaT t) (Z.to_nat (t_nmax t)).
Proof. exact force_refuted. Qed.
Print Assumptions C04_force_refuted.

Theorem C04_force_is_free_energy :
  forall (G : Type) (ops : geo_ops G) garbage t,
  (0 <= t_nmax t <= 49)%Z -> t_f t = None -> t_ff t = None ->
  snd (force ops garbage t) =
  snd (free_energy ops garbage (set_analytic (with_force t false) false)).
Proof. intros G ops. exact (force_is_free_energy ops). Qed.
Print Assumptions C04_force_is_free_energy.

Theorem C04_force_fails_from_50_terms :
  forall (G : Type) (ops : geo_ops G) garbage t e g1 F0 g2 Fa,
  (50 <= t_nmax t)%Z -> t_ff t = None -> t_nprocs t = 0%Z -> t_deltaT t <> 0 ->
  g_mSumme ops [1e-10] (t_geom t) = (g1, Ok F0) ->
  g_mSumme ops (map (fun n => t_deltaT t * IZR n) (consecutive 1 49)) g1 = (g2, Ok Fa) ->
  length F0 = 1%nat -> length Fa = 49%nat ->
  (forall ks st, snd (g_trace_dot ops ks st) = Err e) ->
  snd (force ops garbage t) = Err e.
Proof. intros G ops. exact (force_needs_trace ops). Qed.
Print Assumptions C04_force_fails_from_50_terms.

(** C05.  After one successful free_energy() any history of calls, force() included,
    leaves both results unchanged. *)
Theorem C05_history_independence :
  forall (G : Type) (ops : geo_ops G) garbage t t1 F calls,
  free_energy ops garbage t = (t1, Ok F) ->
  let t2 := fold_left (fun s c => run_call ops garbage c s) calls t1 in
  free_energy ops garbage t2 = (t2, Ok F) /\
  entropy ops garbage t2 =
    (t2, match np_gradient F (t_deltaT t) with Ok g => Ok (map Ropp g) | Err e => Err e end).
Proof. intros G ops. exact (free_energy_stable ops). Qed.
Print Assumptions C05_history_independence.

(** but a force() before the first free_energy() changes the free energy *)
Theorem C05_force_first_refuted :
  exists (ops : geo_ops unit) t, forall garbage, exists F1 F2,
    snd (free_energy ops garbage t) = Ok F1 /\
    is_ok (snd (force ops garbage t)) = true /\
    snd (free_energy ops garbage (fst (force ops garbage t))) = Ok F2 /\
    F1 <> F2.
Proof. exact force_first_refuted. Qed.
Print Assumptions C05_force_first_refuted.

(** C06.  entropy() is minus numpy's gradient of the free energy table. *)
Theorem C06_entropy :
  forall (G : Type) (ops : geo_ops G) garbage t t1 F,
  free_energy ops garbage t = (t1, Ok F) ->
  let h := t_deltaT t in
  ((length F < 2)%nat -> snd (entropy ops garbage t) = Err ValueError) /\
  ((2 <= length F)%nat -> h <> 0 ->
   exists S, snd (entropy ops garbage t) = Ok S /\ length S = length F /\
   (forall a b, (forall i, (i < length F)%nat -> nth i F 0 = a + b * (INR (i + 1) * h)) ->
      forall i, (i < length F)%nat -> nth i S 0 = - b) /\
   (forall a b c, (forall i, (i < length F)%nat ->
        nth i F 0 = a + b * (INR (i + 1) * h) + c * (INR (i + 1) * h) ^ 2) ->
      forall i, (0 < i < length F - 1)%nat -> nth i S 0 = - (b + 2 * c * (INR (i + 1) * h))) /\
   nth 0 S 0 = - ((nth 1 F 0 - nth 0 F 0) / h) /\
   nth (length F - 1) S 0 = - ((nth (length F - 1) F 0 - nth (length F - 2) F 0) / h)).
Proof. intros G ops. exact (entropy_spec ops). Qed.
Print Assumptions C06_entropy.

(** C07. *)
Theorem C07_auto_nmax :
  forall G deltaT Tmax ga (geom : G) an np t,
  finiteT_init deltaT NmaxAuto Tmax ga geom an np = Ok t -> (1 <= t_nmax t)%Z.
Proof. exact @auto_init_pos. Qed.
Print Assumptions C07_auto_nmax.

Theorem C07_auto_nmax_exists :
  forall r1 r2 L dT lm,
  0 < r1 -> 0 < r2 -> r1 + r2 < L -> 0 < dT -> (1 <= lm)%Z ->
  exists n, auto_nmax r1 r2 L dT lm = Ok n /\ (1 <= n)%Z /\
    ((L - r1 - r2) * dT < 7 -> (5 <= n)%Z).
Proof. exact auto_nmax_ok. Qed.
Print Assumptions C07_auto_nmax_exists.

Theorem C07_auto_nmax_scale :
  forall s r1 r2 L dT lm, 0 < s ->
  auto_nmax (s * r1) (s * r2) (s * L) (dT / s) lm = auto_nmax r1 r2 L dT lm.
Proof. exact auto_nmax_scale. Qed.
Print Assumptions C07_auto_nmax_scale.

Theorem C07_auto_nmax_symmetric :
  forall r1 r2 L dT lm, auto_nmax r1 r2 L dT lm = auto_nmax r2 r1 L dT lm.
Proof. exact auto_nmax_sym. Qed.
Print Assumptions C07_auto_nmax_symmetric.

Theorem C07_explicit_nmax_kept :
  forall G deltaT n Tmax ga (geom : G) an np t,
  finiteT_init deltaT (NmaxInt n) Tmax ga geom an np = Ok t -> t_nmax t = n.
Proof. exact @explicit_nmax. Qed.
Print Assumptions C07_explicit_nmax_kept.

(** C08. *)
Theorem C08_half_weight_analytic :
  forall (G : Type) (ops : geo_ops G) k t F0 g1 g2 Fa,
  t_force t = false -> t_analytic t = true ->
  g_mSumme_k0 ops (t_geom t) = (g1, Ok F0) ->
  (k = [] /\ Fa = [] /\ g2 = g1 \/ k <> [] /\ g_mSumme ops k g1 = (g2, Ok Fa)) ->
  F_alle ops (0 :: k) t = (with_geom t g2, Ok (map (fun x => x / 2) F0 ++ Fa)).
Proof. intros G ops. exact (F_alle_analytic ops). Qed.
Print Assumptions C08_half_weight_analytic.

Theorem C08_half_weight_nonanalytic :
  forall (G : Type) (ops : geo_ops G) k t F0 g1 g2 Fa,
  t_force t = false -> t_analytic t = false ->
  g_mSumme ops [1e-10] (t_geom t) = (g1, Ok F0) ->
  g_mSumme ops k g1 = (g2, Ok Fa) ->
  F_alle ops (0 :: k) t = (with_geom t g2, Ok (map (fun x => x / 2) F0 ++ Fa)).
Proof. intros G ops. exact (F_alle_nonanalytic ops). Qed.
Print Assumptions C08_half_weight_nonanalytic.

Theorem C08_no_zero_unweighted :
  forall (G : Type) (ops : geo_ops G) k0 k t g1 r,
  k0 <> 0 -> t_force t = false ->
  g_mSumme ops (k0 :: k) (t_geom t) = (g1, r) ->
  F_alle ops (k0 :: k) t = (with_geom t g1, r).
Proof. intros G ops. exact (F_alle_nonzero' ops). Qed.
Print Assumptions C08_no_zero_unweighted.

(** which of the two modes a new object is in: the analytic one exactly if it was asked for and neither sphere is stratified *)
Theorem C08_zero_mode :
  forall (G : Type) deltaT nmax Tmax ga (geom : G) analytic_n0 nprocs t,
  finiteT_init deltaT nmax Tmax ga geom analytic_n0 nprocs = Ok t ->
  (t_analytic t = true <-> analytic_n0 = true /\ ga_mat1_list ga = false /\ ga_mat2_list ga = false) /\
  t_force t = false /\ t_geom t = geom.
Proof.
  intros G deltaT nmax Tmax ga geom a np t H. unfold finiteT_init in H.
  destruct (match np with NprocsInt n => Ok n | NprocsFloat x => if Rleb 0 x then Err ValueError else Ok (-1)%Z end) as [p|]; [|discriminate]. cbn [bind] in H.
  match type of H with bind ?x _ = _ => destruct x as [n|]; [|discriminate] end. cbn [bind] in H.
  destruct (ga_isinstance ga); [|discriminate]. destruct (Reqb deltaT 0); [discriminate|]. injection H as <-. cbn [t_analytic t_force t_geom].
  split; [|split; reflexivity]. destruct (ga_mat1_list ga), (ga_mat2_list ga), a; cbn; intuition congruence.
Qed.
Print Assumptions C08_zero_mode.

(** [0] alone fails in the non-analytic mode: the empty remainder is passed on to
    mSumme, which raises IndexError on it. *)
Theorem C08_single_zero_refuted :
  forall (G : Type) (ops : geo_ops G) t F0 g1 g2,
  t_force t = false -> t_analytic t = false ->
  g_mSumme ops [1e-10] (t_geom t) = (g1, Ok F0) ->
  g_mSumme ops [] g1 = (g2, Err IndexError) ->
  snd (F_alle ops [0] t) = Err IndexError.
Proof. intros G ops. exact (F_alle_single_zero ops). Qed.
Print Assumptions C08_single_zero_refuted.

Example C08_instance :
  F_alle (const_geo 3 1 7) [0; 2; 5] (small_T true 1) = (small_T true 1, Ok [1 / 2; 3; 3]).
Proof.
  rewrite (C08_half_weight_analytic _ (const_geo 3 1 7) [2; 5] (small_T true 1) [1] tt tt [3; 3]);
    [reflexivity|reflexivity|reflexivity|reflexivity|right; split; [discriminate|reflexivity]].
Qed.
