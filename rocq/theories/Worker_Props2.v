(** * Property C83 (second part): what worker.py writes for two solid spheres *)
From Coq Require Import Reals.
From Coq Require Import String List Lia Lra ZArith.
From mathcomp Require Import all_ssreflect ssralg matrix mxalgebra poly mxpoly.
From Verif Require Import Base RStruct Mat_Model Mat_Spec Thermo_Model Thermo_Spec Thermo_Proofs Geo_Model Geo_Spec Bessel_Model Scat_Model Scat_Spec Scat_Proofs Scat_Proofs7 Scat_Proofs9 Scat_Proofs10 Scat_Props2 Trans_Model Trans_Spec
  Lin_Model Lin_Spec Lin_Proofs Lin_Proofs2 RT_Model RT_Spec RT_Spec2 RT_Proofs2 RT_Proofs3 RT_Proofs4 RT_Props RT_Props2 RT_Props3 RT_Props5 RT_Props7
  Run_Model Run_Spec Run_Proofs Run_Proofs2 Run_Proofs3 Run_Proofs4 Run_Props Run_Props5 Misc_Model Worker_Model Worker_Spec Worker_Proofs Worker_Props.
Set Implicit Arguments.
Unset Strict Implicit.
Import GRing.Theory.
Local Open Scope ring_scope.
Delimit Scope R_scope with Re.

(** the two spheres of a job *)
Definition spheres_of (j : job) (m1 m2 med : material) : RT_Model.config :=
  {| c_1 := Solid m1 (j_ra j); c_2 := Solid m2 (j_rb j); c_med := med; c_L := j_L j; c_lmax := j_lmax j; c_lssmax := j_lssmax j;
     c_ext := Rltb (j_ra j + j_rb j) (j_L j); c_mat := fun=> med |}.

Lemma job_ready mieb j m1 m2 med : (0 < j_dT j)%Re -> ready mieb (spheres_of j m1 m2 med) (object (thermo_of j) (Z.of_nat (j_nmax j))) (j_nmax j).
Proof. by move=> h; split=> //; split=> //; split=> //; split=> //; split=> //; split=> //; split. Qed.

(** Spheres side by side: the numbers written are the Matsubara sums of the logarithms of the determinants of 1 - round trip,
    with the limit for frequency zero, for every temperature of the grid. *)
Theorem C83_free_energy : forall to_float eval_mat mieb argv s j m1 m2 med e b d0,
  describes to_float argv s j "free_energy()" ->
  eval_mat (j_v1 j) = Ok (OneMat m1) -> eval_mat (j_v2 j) = Ok (OneMat m2) -> eval_mat (j_v3 j) = Ok (OneMat med) ->
  static_sphere m1 -> static_sphere m2 -> insulator med e b -> mu_val b 0 = 1%Re ->
  (0 < j_ra j)%Re -> (0 < j_rb j)%Re -> (j_ra j + j_rb j < j_L j)%Re -> (0 < j_dT j)%Re ->
  (1 <= j_lmax j)%coq_nat -> (j_lmax j <= j_lssmax j)%coq_nat ->
  let c := spheres_of j m1 m2 med in
  (forall q, freqs (j_dT j) (j_nmax j) q <> nil -> elementwise_at mieb c (freqs (j_dT j) (j_nmax j) q)) ->
  (forall m, (m <= j_lmax j)%coq_nat -> limit0 (fun k => \det (1%:M - trip mie_bessels c (Z.of_nat m) k)) (d0 m) /\ (0 < d0 m)%Re) ->
  (forall n m : nat, (1 <= n)%coq_nat /\ (n <= j_nmax j)%coq_nat -> (m <= j_lmax j)%coq_nat -> \det (1%:M - trip mieb c (Z.of_nat m) (j_dT j * INR n)%Re) <> 0) ->
  exists cut0 cut N, [/\ stops_at_k0 (j_precision j) (j_lmax j) (fun m => Fin (ln (d0 m))) cut0,
    forall q, freqs (j_dT j) (j_nmax j) q <> nil ->
      stops_at (j_precision j) (j_lmax j) (fun m k => ln_abs_det (1%:M - trip mieb c (Z.of_nat m) k)) (freqs (j_dT j) (j_nmax j) q) (cut q) &
    forall fuel, (N <= fuel)%N -> forall other trips unk garbage empty fs, exists h F,
      [/\ worker to_float eval_mat other trips unk fuel garbage empty mieb argv s fs =
            (write fs (target fs (List.nth 2 argv EmptyString)) (Opened (Some h) F), Done tt), tells to_float argv s h,
          List.length F = Z.to_nat (pyround (j_Tmax j / j_dT j)) &
          forall i : nat, (1 <= i)%coq_nat /\ (i <= List.length F)%coq_nat -> List.nth_error F (i - 1)%coq_nat =
            Some (sliced_sum (rsum (fun m => ln (d0 m)) cut0)
                    (fun q k => rsum (fun m => ln (Rabs (\det (1%:M - trip mieb c (Z.of_nat m) k)))) (cut q)) (j_dT j) (j_nmax j) i)]].
Proof.
move=> to_float eval_mat mieb argv s j m1 m2 med e b d0 D E1 E2 E3 S1 S2 hm hmu ha hb hL hT hl hls c hel hd hreg.
have HC : two_spheres c m1 m2 (j_ra j) (j_rb j) e b.
  by rewrite /two_spheres; do 5 (split=> //); rewrite /c /=; lra.
have hx : c_ext c = true by rewrite /c /=; case: Rltb_spec.
have hc : (conv09 < 1)%Re by rewrite /conv09; lra.
have [cut0 [cut [N [h1 h2 h3]]]] := @C66_free_energy mieb c m1 m2 (j_ra j) (j_rb j) e b (j_precision j) conv09 d0
  (object (thermo_of j) (Z.of_nat (j_nmax j))) (j_nmax j) HC S1 S2 hx hmu hl hls hc (job_ready mieb m1 m2 med hT) erefl hel hd hreg.
exists cut0, cut, N; split=> // fuel hf other trips unk garbage empty fs.
have [t' [F [EF _ LF NF]]] := h3 fuel hf unk garbage empty.
have hT0 : j_dT j <> 0%Re by lra.
have hr : quantity_run empty "free_energy()" (ops unk fuel mieb trans_bessels (config_of j m1 m2 med) (j_precision j) conv09 false garbage)
            (object (thermo_of j) (Z.of_nat (j_nmax j))) = Some (Ok F).
  by rewrite /quantity_run String.eqb_refl -/c EF.
have [h [Th W]] := @job_run to_float eval_mat other trips unk fuel garbage empty mieb argv s j "free_energy()"%string m1 m2 med (Ok F) fs D hT0 E1 E2 E3 hr.
by exists h, F; split.
Qed.
Print Assumptions C83_free_energy.

(** A sphere inside another one, or touching spheres, with more than one pair of orders: the script always demands the analytic
    zero-frequency term (whatever the option analytic_n0 says), so free energies and entropies are never written. *)
Theorem C83_enclosed_refuted : forall to_float eval_mat argv s j q m1 m2 med e b,
  describes to_float argv s j q -> q = "free_energy()"%string \/ q = "entropy()"%string ->
  eval_mat (j_v1 j) = Ok (OneMat m1) -> eval_mat (j_v2 j) = Ok (OneMat m2) -> eval_mat (j_v3 j) = Ok (OneMat med) ->
  static_sphere m1 -> static_sphere m2 -> insulator med e b ->
  (0 < j_ra j)%Re -> (0 < j_rb j)%Re -> (0 < j_L j)%Re -> (j_L j <= j_ra j + j_rb j)%Re -> (0 < j_dT j)%Re -> (j_lmax j * j_lssmax j)%N <> 1%N ->
  forall other trips unk fuel garbage empty mieb fs,
    worker to_float eval_mat other trips unk fuel garbage empty mieb argv s fs = (fs, Fails (Raised TypeError)).
Proof.
move=> to_float eval_mat argv s j q m1 m2 med e b D hq E1 E2 E3 S1 S2 hm ha hb hL0 hL hT hn other trips unk fuel garbage empty mieb fs.
pose c := spheres_of j m1 m2 med.
have HC : two_spheres c m1 m2 (j_ra j) (j_rb j) e b by rewrite /two_spheres; do 5 (split=> //).
have hx : c_ext c = false by rewrite /c /=; case: Rltb_spec => //; lra.
have [t' [F1 F2 _]] := @C72_analytic_refuted mieb c m1 m2 (j_ra j) (j_rb j) e b (j_precision j) conv09
  (object (thermo_of j) (Z.of_nat (j_nmax j))) (j_nmax j) HC S1 S2 hx hn (job_ready mieb m1 m2 med hT) erefl unk fuel false garbage empty.
have hT0 : j_dT j <> 0%Re by lra.
have hr : quantity_run empty q (ops unk fuel mieb trans_bessels (config_of j m1 m2 med) (j_precision j) conv09 false garbage)
            (object (thermo_of j) (Z.of_nat (j_nmax j))) = Some (Err TypeError).
  by rewrite /quantity_run -/c; case: hq => ->; rewrite /= -/c ?F1 ?F2.
exact: (@job_run to_float eval_mat other trips unk fuel garbage empty mieb argv s j q m1 m2 med (Err TypeError) fs D hT0 E1 E2 E3 hr).
Qed.
Print Assumptions C83_enclosed_refuted.

(** ** Non-vacuity *)
(** a drop-sized bubble in water inside a metal cavity *)
Definition cavity_options : sections := fun a =>
  match the_options a with
  | Some f => Some (fun o => if String.eqb o "quantity" then Some (CStr "free_energy()") else if String.eqb o "rb" then Some (CInt 4)
                             else if String.eqb o "d" then Some (CInt 1) else if String.eqb o "matmd" then Some (CStr "Water") else f o)
  | None => None
  end.
Definition two_materials (v : cfgval) : res matarg := match v with CStr t => Ok (OneMat (if String.eqb t "PEC" then PEC else Lorentz e_Water None)) | _ => Err TypeError end.
Definition cavity_job : job :=
  {| j_ra := 1; j_rb := 4; j_L := 1; j_precision := 0.0001; j_lmax := 2; j_lssmax := 3; j_nmax := 4; j_dT := 0.5; j_Tmax := 2;
     j_v1 := CStr "PEC"; j_v2 := CStr "PEC"; j_v3 := CStr "Water" |}.
Lemma cavity_described : describes (fun=> None) the_argv cavity_options cavity_job "free_energy()".
Proof.
rewrite /describes /opt /number /cavity_options /=.
split; first by left.
do 4 (split; first by (left + (right; eexists; split; reflexivity))).
do 2 split=> //.
split; first by eexists; reflexivity.
split=> //; split=> //; do 3 split=> //.
split; first by left.
split; last by [].
by right; eexists; split; reflexivity.
Qed.
Example C83_cavity : forall other trips unk fuel garbage empty mieb fs,
  worker (fun=> None) two_materials other trips unk fuel garbage empty mieb the_argv cavity_options fs = (fs, Fails (Raised TypeError)).
Proof.
apply: (@C83_enclosed_refuted _ _ _ _ cavity_job "free_energy()"%string PEC PEC (Lorentz e_Water None) e_Water None) => //; rewrite /cavity_job /=; try lra.
- exact: cavity_described.
- by left.
- by left.
- by left.
- exact: water_insulator.
Qed.
