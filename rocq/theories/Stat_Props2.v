(** * Property C88 (second part): what worker.py writes for growing orders *)
From Coq Require Import Reals.
From Coq Require Import String List Lia Lra ZArith.
From mathcomp Require Import all_ssreflect ssralg ssrnum fingroup perm matrix mxalgebra poly mxpoly.
From Verif Require Import Base RStruct Mat_Model Mat_Spec Mat_Proofs Thermo_Model Thermo_Proofs Geo_Model Geo_Spec Bessel_Model Scat_Model Scat_Spec Scat_Proofs Scat_Proofs4 Scat_Proofs7 Scat_Proofs8 Scat_Proofs9 Scat_Proofs10 Scat_Props2 Trans_Model Trans_Spec Trans_Proofs3
  Lin_Model Lin_Spec Bal_Proofs Lin_Proofs Trip_Proofs Lin_Proofs2 RT_Model RT_Spec RT_Spec2 RT_Proofs RT_Proofs2 RT_Proofs3 RT_Proofs4 RT_Proofs6 RT_Proofs7 RT_Proofs8 RT_Proofs9 RT_Proofs10
  RT_Props RT_Props2 RT_Props3 RT_Props5 Exp_Proofs2 Lap_Proofs2 Mono_Proofs Mono_Proofs2 Mono_Proofs3 RT_Props8 Cut_Proofs RT_Props9 RT_Props10
  Run_Model Run_Spec Run_Proofs Run_Proofs2 Run_Proofs3 Run_Proofs4 Run_Proofs5 Run_Proofs9 Run_Props Run_Props2 Run_Props7 Conv_Spec Conv_Spec2 Conv_Proofs3 Conv_Proofs4 Conv_Proofs5 Conv_Proofs6 Conv_Proofs8 Conv_Proofs9 Conv_Props Conv_Props2
  Far_Proofs3 Lim_Proofs Lim_Proofs2 Lim_Proofs3 Lim_Props Rep_Spec Rep_Proofs Rep_Props Thermo_Spec Misc_Model Worker_Model Worker_Spec Worker_Proofs Worker_Props Worker_Props2 Far_Proofs2 Far_Props Far_Props2 Stat_Spec Stat_Proofs Stat_Props.
Set Implicit Arguments.
Unset Strict Implicit.
Import GRing.Theory.
Local Open Scope ring_scope.
Delimit Scope R_scope with Re.

(** the physical part of a job: radii, distance, temperatures *)
Definition setting (j : job) (ra rb L dT Tmax : R) : Prop := j_ra j = ra /\ j_rb j = rb /\ j_L j = L /\ j_dT j = dT /\ j_Tmax j = Tmax.
Definition bare (m1 m2 med : material) (ra rb L : R) : RT_Model.config :=
  {| c_1 := Solid m1 ra; c_2 := Solid m2 rb; c_med := med; c_L := L; c_lmax := 1; c_lssmax := 1; c_ext := Rltb (ra + rb) L; c_mat := fun=> med |}.
Lemma bare_job j m1 m2 med ra rb L dT Tmax : setting j ra rb L dT Tmax -> truncated (bare m1 m2 med ra rb L) (j_lmax j) (j_lssmax j) = config_of j m1 m2 med.
Proof. by move=> [<- [<- [<- _]]]. Qed.
Lemma worker_from to_float eval_mat argv s j m1 m2 med (P : list R -> Prop) :
  describes to_float argv s j "free_energy()" -> eval_mat (j_v1 j) = Ok (OneMat m1) -> eval_mat (j_v2 j) = Ok (OneMat m2) -> eval_mat (j_v3 j) = Ok (OneMat med) -> (0 < j_dT j)%Re ->
  (exists N, forall fuel, (N <= fuel)%N -> forall unk garbage empty, exists t' F,
    free_energy (ops unk fuel exact_bessels trans_bessels (config_of j m1 m2 med) (j_precision j) conv09 false garbage) empty (object (thermo_of j) (Z.of_nat (j_nmax j))) = (t', Ok F) /\ P F) ->
  exists N, forall fuel, (N <= fuel)%N -> forall other trips unk garbage empty fs, exists h F,
      [/\ worker to_float eval_mat other trips unk fuel garbage empty exact_bessels argv s fs =
            (write fs (target fs (List.nth 2 argv EmptyString)) (Opened (Some h) F), Done tt), tells to_float argv s h & P F].
Proof.
move=> D E1 E2 E3 hT [N hN]; exists N => fuel hf other trips unk garbage empty fs; have [t' [F [EF PF]]] := hN fuel hf unk garbage empty.
have hT0 : j_dT j <> 0%Re by lra.
have hr : quantity_run empty "free_energy()" (ops unk fuel exact_bessels trans_bessels (config_of j m1 m2 med) (j_precision j) conv09 false garbage)
            (object (thermo_of j) (Z.of_nat (j_nmax j))) = Some (Ok F).
  by rewrite /quantity_run String.eqb_refl EF.
have [h [Th W]] := @job_run to_float eval_mat other trips unk fuel garbage empty exact_bessels argv s j "free_energy()"%string m1 m2 med (Ok F) fs D hT0 E1 E2 E3 hr.
by exists h, F; split.
Qed.

(** For fixed materials, radii, distance and temperatures there is one table of numbers w to which the contents of the files converge,
    whatever the configuration files that describe the calculation look like. *)
Theorem C88_worker : forall m1 m2 med ra rb L dT Tmax e b sg, static_sphere m1 -> static_sphere m2 -> insulator med e b -> (forall k, (0 <= k)%Re -> mu_val b k = 1%Re) ->
  (0 < ra)%Re -> (0 < rb)%Re -> (5 * (ra + rb) <= L)%Re -> (0 < dT)%Re -> (forall k, (0 < k)%Re -> sharp sg m1 (eps_spec e) (mu_val b) k /\ sharp sg m2 (eps_spec e) (mu_val b) k) ->
  exists w : nat -> R, (forall i, let T := INR i.+1 * dT in let r := exp (- (L / 70 * T)) in - (T * (2 + 4 * (r / (1 - r)))) <= w i < 0)%Re /\
    forall eps, (0 < eps)%Re -> exists N0, forall to_float eval_mat argv s j, describes to_float argv s j "free_energy()" ->
    eval_mat (j_v1 j) = Ok (OneMat m1) -> eval_mat (j_v2 j) = Ok (OneMat m2) -> eval_mat (j_v3 j) = Ok (OneMat med) ->
    setting j ra rb L dT Tmax -> (j_precision j <= 0)%Re -> (1 <= j_lmax j)%coq_nat -> (j_lmax j <= j_lssmax j)%coq_nat ->
    exists N, forall fuel, (N <= fuel)%N -> forall other trips unk garbage empty fs, exists h F,
      [/\ worker to_float eval_mat other trips unk fuel garbage empty exact_bessels argv s fs =
            (write fs (target fs (List.nth 2 argv EmptyString)) (Opened (Some h) F), Done tt), tells to_float argv s h &
          List.length F = Z.to_nat (pyround (Tmax / dT)) /\
          forall i : nat, (i < List.length F)%coq_nat -> exists x, [/\ List.nth_error F i = Some x, (w i <= x <= 0)%Re, ((i < j_nmax j)%coq_nat -> (x < 0)%Re) &
            ((N0 <= j_lmax j)%coq_nat -> (N0 <= j_nmax j)%coq_nat -> (x < w i + eps)%Re)]].
Proof.
move=> m1 m2 med ra rb L dT Tmax e b sg S1 S2 hm hmu ha hb hL hT hcon; pose c := bare m1 m2 med ra rb L.
have HC : two_spheres c m1 m2 ra rb e b by rewrite /two_spheres; do 5 (split=> //); rewrite /c /=; lra.
have hx : c_ext c = true by rewrite /c /=; case: Rltb_spec => //; lra.
have hc : (conv09 < 1)%Re by rewrite /conv09; lra.
have [w [w0 hw]] := @C88_attraction c m1 m2 ra rb e b sg dT Tmax HC S1 S2 hx hmu hL hcon hT.
exists w; split; first exact: w0.
move=> eps /hw [N0 h]; exists N0 => to_float eval_mat argv s j D E1 E2 E3 st hp hl hls; have [_ [_ [_ [eT eM]]]] := st.
have hT' : (0 < j_dT j)%Re by rewrite eT.
apply: (@worker_from to_float eval_mat argv s j m1 m2 med _ D E1 E2 E3 hT').
have [|Nf hNf] := h (j_lmax j) (j_lssmax j) (j_nmax j) (object (thermo_of j) (Z.of_nat (j_nmax j))) hl hls _ eT eM erefl (j_precision j) conv09 hc hp.
  by rewrite (bare_job _ _ _ st); exact: job_ready.
exists Nf => fuel hf unk garbage empty; have [t1 [F [F1 F2 F3]]] := hNf fuel hf unk garbage empty.
by exists t1, F; split; [rewrite -(bare_job _ _ _ st); exact: F1|].
Qed.
Print Assumptions C88_worker.

(** Spheres on opposite sides of the medium: for each number of frequencies the numbers written rise with the orders to a limit. *)
Theorem C88_worker_repulsion : forall m1 m2 med ra rb L dT Tmax e b sg, static_sphere m1 -> static_sphere m2 -> insulator med e b -> (forall k, (0 <= k)%Re -> mu_val b k = 1%Re) ->
  (0 < ra)%Re -> (0 < rb)%Re -> (ra + rb < L)%Re -> (0 < dT)%Re -> (forall k, (0 < k)%Re -> sharp sg m1 (eps_spec e) (mu_val b) k /\ sharp (- sg) m2 (eps_spec e) (mu_val b) k) ->
  exists w : nat -> nat -> R, (forall n i, (0 <= w n i <= matsubara_static (total0 ra rb L) (fun k => total 1 (eps_spec e) (mu_val b) k ra rb L) dT n i.+1)%Re) /\ (forall n n' i, (n <= n')%coq_nat -> (w n i <= w n' i)%Re) /\
    forall nmax eps, (0 < eps)%Re -> exists N0, forall to_float eval_mat argv s j, describes to_float argv s j "free_energy()" ->
    eval_mat (j_v1 j) = Ok (OneMat m1) -> eval_mat (j_v2 j) = Ok (OneMat m2) -> eval_mat (j_v3 j) = Ok (OneMat med) ->
    setting j ra rb L dT Tmax -> (j_precision j <= 0)%Re -> (1 <= j_lmax j)%coq_nat -> (j_lmax j <= j_lssmax j)%coq_nat -> j_nmax j = nmax ->
    exists N, forall fuel, (N <= fuel)%N -> forall other trips unk garbage empty fs, exists h F,
      [/\ worker to_float eval_mat other trips unk fuel garbage empty exact_bessels argv s fs =
            (write fs (target fs (List.nth 2 argv EmptyString)) (Opened (Some h) F), Done tt), tells to_float argv s h &
          List.length F = Z.to_nat (pyround (Tmax / dT)) /\
          forall i : nat, (i < List.length F)%coq_nat -> exists x, [/\ List.nth_error F i = Some x, (0 <= x <= w nmax i)%Re, ((i < nmax)%coq_nat -> (0 < x)%Re) &
            ((N0 <= j_lmax j)%coq_nat -> (w nmax i - eps < x)%Re)]].
Proof.
move=> m1 m2 med ra rb L dT Tmax e b sg S1 S2 hm hmu ha hb hL hT hcon; pose c := bare m1 m2 med ra rb L.
have HC : two_spheres c m1 m2 ra rb e b by rewrite /two_spheres; do 5 (split=> //); rewrite /c /=; lra.
have hx : c_ext c = true by rewrite /c /=; case: Rltb_spec => //; lra.
have hc : (conv09 < 1)%Re by rewrite /conv09; lra.
have [w [w0 [w1 hw]]] := @C88_orders c m1 m2 ra rb e b sg dT Tmax HC S1 S2 hx hmu hL hcon hT.
exists w; split; first exact: w0.
split; first exact: w1.
move=> nmax eps /(hw nmax) [N0 h]; exists N0 => to_float eval_mat argv s j D E1 E2 E3 st hp hl hls hn; have [_ [_ [_ [eT eM]]]] := st.
have hT' : (0 < j_dT j)%Re by rewrite eT.
apply: (@worker_from to_float eval_mat argv s j m1 m2 med _ D E1 E2 E3 hT').
have [|Nf hNf] := h (j_lmax j) (j_lssmax j) (object (thermo_of j) (Z.of_nat (j_nmax j))) hl hls _ eT eM erefl (j_precision j) conv09 hc hp.
  by rewrite (bare_job _ _ _ st) -hn; exact: job_ready.
exists Nf => fuel hf unk garbage empty; have [t1 [F [F1 F2 F3]]] := hNf fuel hf unk garbage empty.
by exists t1, F; split; [rewrite -(bare_job _ _ _ st); exact: F1|].
Qed.
Print Assumptions C88_worker_repulsion.

(** ** Non-vacuity *)
Example C88_gold : exists w : nat -> R, (forall i, (w i < 0)%Re) /\ forall eps, (0 < eps)%Re -> exists N0, forall N nmax, (1 <= N)%coq_nat ->
    exists Nf, forall fuel, (Nf <= fuel)%N -> forall unk garbage empty, exists t1 F,
      [/\ free_energy (ops unk fuel exact_bessels trans_bessels (truncated (at_distance gold_in_vacuum 20) N N) 0 1e-10 false garbage) empty (task (1 / 10) 3 nmax true) = (t1, Ok F), List.length F = Z.to_nat (pyround (3 / (1 / 10))) &
          forall i : nat, (i < List.length F)%coq_nat -> exists x, List.nth_error F i = Some x /\ (w i <= x)%Re /\ ((N0 <= N)%coq_nat -> (N0 <= nmax)%coq_nat -> (x < w i + eps)%Re)].
Proof.
have [HC S1] := far_gold; have S2 : static_sphere PEC by left.
have [||k hk||w [w0 h]] := @C88_attraction (at_distance gold_in_vacuum 20) _ _ 1%Re 2%Re _ _ 1%Re (1 / 10)%Re 3%Re HC S1 S2 erefl; try (rewrite /=; lra).
- by [].
- by split; [exact: gold_sharp|left].
exists w; split; first by move=> i; have [] := w0 i.
move=> eps /h [N0 h']; exists N0 => N nmax a1.
have hc : (1e-10 < 1)%Re by lra.
have [|Nf hNf] := h' N N nmax (task (1 / 10) 3 nmax true) a1 (le_n N) _ erefl erefl erefl 0%Re 1e-10%Re hc (Rle_refl 0); first by apply: task_ready; lra.
exists Nf => fuel hf unk garbage empty; have [t1 [F [E1 E2 E3]]] := hNf fuel hf unk garbage empty.
by exists t1, F; split=> // i hi; have [x [z1 [z2 _] _ z3]] := E3 i hi; exists x.
Qed.
Example C88_bubble : exists w : nat -> R, (forall i, (0 < w i)%Re) /\ forall eps, (0 < eps)%Re -> exists N0, forall N nmax, (1 <= N)%coq_nat ->
    exists Nf, forall fuel, (Nf <= fuel)%N -> forall unk garbage empty, exists t1 F,
      [/\ free_energy (ops unk fuel exact_bessels trans_bessels (truncated (at_distance bubble_in_water 20) N N) 0 1e-10 false garbage) empty (task (1 / 10) 3 nmax true) = (t1, Ok F), List.length F = Z.to_nat (pyround (3 / (1 / 10))) &
          forall i : nat, (i < List.length F)%coq_nat -> exists x, List.nth_error F i = Some x /\ (0 <= x <= w i)%Re /\ ((N0 <= N)%coq_nat -> (N0 <= nmax)%coq_nat -> (w i - eps < x)%Re)].
Proof.
have hw := water_insulator.
have HC : two_spheres (at_distance bubble_in_water 20) (Lorentz [::] None) PEC 1 2 e_Water None by rewrite /two_spheres /=; do 2 split=> //; split; [exact hw|lra].
have S1 : static_sphere (Lorentz [::] None) by right; left; exists [::], None; split.
have S2 : static_sphere PEC by left.
have [||k hk||w [w0 h]] := @C88_limit (at_distance bubble_in_water 20) _ _ 1%Re 2%Re _ _ (-1)%Re (1 / 10)%Re 3%Re HC S1 S2 erefl; try (rewrite /=; lra).
- by [].
- exact: bubble_sharp.
exists w; split; first by move=> i; have [] := w0 i.
move=> eps /h [N0 h']; exists N0 => N nmax a1.
have hc : (1e-10 < 1)%Re by lra.
have [|Nf hNf] := h' N N nmax (task (1 / 10) 3 nmax true) a1 (le_n N) _ erefl erefl erefl 0%Re 1e-10%Re hc (Rle_refl 0); first by apply: task_ready; lra.
exists Nf => fuel hf unk garbage empty; have [t1 [F [E1 E2 E3]]] := hNf fuel hf unk garbage empty.
by exists t1, F; split=> // i hi; have [x [z1 z2 _ z3]] := E3 i hi; exists x.
Qed.
Example C88_near_bubble : exists w : nat -> nat -> R, (forall n n' i, (n <= n')%coq_nat -> (w n i <= w n' i)%Re) /\ forall nmax eps, (0 < eps)%Re -> exists N0, forall N, (1 <= N)%coq_nat ->
    exists Nf, forall fuel, (Nf <= fuel)%N -> forall unk garbage empty, exists t1 F,
      [/\ free_energy (ops unk fuel exact_bessels trans_bessels (truncated bubble_in_water N N) 0 1e-10 false garbage) empty (task (1 / 10) 3 nmax true) = (t1, Ok F), List.length F = Z.to_nat (pyround (3 / (1 / 10))) &
          forall i : nat, (i < List.length F)%coq_nat -> exists x, List.nth_error F i = Some x /\ (0 <= x <= w nmax i)%Re /\ ((N0 <= N)%coq_nat -> (w nmax i - eps < x)%Re)].
Proof.
have hw := water_insulator.
have HC : two_spheres bubble_in_water (Lorentz [::] None) PEC 1 2 e_Water None by rewrite /two_spheres /=; do 2 split=> //; split; [exact hw|lra].
have S1 : static_sphere (Lorentz [::] None) by right; left; exists [::], None; split.
have S2 : static_sphere PEC by left.
have [||k hk||w [_ [w1 h]]] := @C88_orders bubble_in_water _ _ 1%Re 2%Re _ _ (-1)%Re (1 / 10)%Re 3%Re HC S1 S2 erefl; try (rewrite /=; lra).
- by [].
- exact: bubble_sharp.
exists w; split=> // nmax eps /(h nmax) [N0 h']; exists N0 => N a1.
have hc : (1e-10 < 1)%Re by lra.
have [|Nf hNf] := h' N N (task (1 / 10) 3 nmax true) a1 (le_n N) _ erefl erefl erefl 0%Re 1e-10%Re hc (Rle_refl 0); first by apply: task_ready; lra.
exists Nf => fuel hf unk garbage empty; have [t1 [F [E1 E2 E3]]] := hNf fuel hf unk garbage empty.
by exists t1, F; split=> // i hi; have [x [z1 z2 _ z3]] := E3 i hi; exists x.
Qed.
(** two perfect reflectors in water; the precision of the m sum set to zero *)
Definition exact_options : sections := fun a =>
  match far_options a with Some f => Some (fun o => if String.eqb o "precision" then Some (CInt 0) else f o) | None => None end.
Definition exact_job : job :=
  {| j_ra := 1; j_rb := 4; j_L := 25; j_precision := 0; j_lmax := 2; j_lssmax := 3; j_nmax := 4; j_dT := 0.5; j_Tmax := 2;
     j_v1 := CStr "PEC"; j_v2 := CStr "PEC"; j_v3 := CStr "Water" |}.
Lemma exact_described : describes (fun=> None) the_argv exact_options exact_job "free_energy()".
Proof.
rewrite /describes /opt /number /exact_options /far_options /cavity_options /=.
split; first by left.
do 4 (split; first by (left + (right; eexists; split; reflexivity))).
do 2 split=> //.
split; first by eexists; reflexivity.
split=> //; split=> //; do 3 split=> //.
split; first by left.
split; last by [].
by right; eexists; split; reflexivity.
Qed.
Example C88_mirrors : exists w : nat -> R, (forall i, (w i < 0)%Re) /\ exists N, forall fuel, (N <= fuel)%N -> forall other trips unk garbage empty fs, exists h F,
  [/\ worker (fun=> None) two_materials other trips unk fuel garbage empty exact_bessels the_argv exact_options fs = (write fs (target fs "out") (Opened (Some h) F), Done tt),
      List.length F = Z.to_nat (pyround (2 / 0.5)) & forall i : nat, (i < List.length F)%coq_nat -> exists x, List.nth_error F i = Some x /\ (w i <= x)%Re].
Proof.
have sh k : (0 < k)%Re -> sharp 1 PEC (eps_spec e_Water) (mu_val None) k /\ sharp 1 PEC (eps_spec e_Water) (mu_val None) k by move=> _; split; left.
have st : static_sphere PEC by left.
have [||||w [w0 h]] := @C88_worker PEC PEC (Lorentz e_Water None) 1%Re 4%Re 25%Re 0.5%Re 2%Re e_Water None 1%Re st st water_insulator (fun _ _ => erefl) _ _ _ _ sh; try lra.
exists w; split; first by move=> i; have [] := w0 i.
have [N0 h'] := h 1%Re Rlt_0_1.
have r1 : (j_precision exact_job <= 0)%Re by rewrite /=; lra.
have r2 : (1 <= j_lmax exact_job)%coq_nat by rewrite /=; lia.
have r3 : (j_lmax exact_job <= j_lssmax exact_job)%coq_nat by rewrite /=; lia.
have st' : setting exact_job 1 4 25 0.5 2 by [].
have [N hN] := h' (fun=> None) two_materials the_argv exact_options exact_job exact_described erefl erefl erefl st' r1 r2 r3.
exists N => fuel hf other trips unk garbage empty fs; have [hh [F [W _ [LF NF]]]] := hN fuel hf other trips unk garbage empty fs.
by exists hh, F; split=> // i hi; have [x [z1 [z2 _] _ _]] := NF i hi; exists x.
Qed.
