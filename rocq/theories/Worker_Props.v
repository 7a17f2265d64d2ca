(** * Property C83 (first part): the script worker.py from the command line to the result file *)
From Coq Require Import Bool Reals ZArith String List Lia Lra.
From Verif Require Import Base Thermo_Model Geo_Model Bessel_Model Scat_Model Misc_Model Lin_Model Trans_Model RT_Model Run_Model Worker_Model Worker_Spec Worker_Proofs.
Import ListNotations.
Open Scope R_scope.

Lemma append_one_neq f : (f ++ "1")%string <> f.
Proof. induction f as [|a f IH]; cbn; [discriminate|]. intros H. injection H as H. now apply IH. Qed.

Section Statements.
  Context (to_float : string -> option R) (eval_mat : cfgval -> res matarg).
  Context (other : cfgval -> wgeom -> wthermo -> outcome value) (trips : list (nat * nat)).
  Context (unk : exn) (fuel : nat) (garbage : nat -> mat) (empty : nat -> R).
  Context (mieb : list R -> nat -> Z -> res (list (list R) * list (list R))).
  Notation run := (worker to_float eval_mat other trips unk fuel garbage empty mieb).

  (** A run changes at most one file, the target; a file with the name given is never changed; a run without error
      writes header and numbers, and the header tells what was configured. *)
  Theorem C83_files : forall argv s fs fs' r, run argv s fs = (fs', r) ->
    let f := nth 2 argv ""%string in
    (forall g, g <> target fs f -> fs' g = fs g) /\ (forall x, fs f = Some x -> fs' f = Some x) /\
    (r = Done tt -> exists h l, fs' (target fs f) = Some (Opened (Some h) l) /\ tells to_float argv s h) /\
    (forall e, r = Fails e -> fs' = fs \/ exists h, fs' (target fs f) = Some (Opened h []) /\ forall h', h = Some h' -> tells to_float argv s h').
  Proof.
    intros argv s fs fs' r H f. destruct (worker_cases to_float eval_mat other trips unk fuel garbage empty mieb argv s fs) as [[e E]|(w & x & v & Hl & Hg & Hc & E)];
      rewrite E in H; clear E.
    - injection H as <- <-. split; [reflexivity|]. split; [auto|]. split; [discriminate|]. auto.
    - fold f in H. unfold worker_save in H. fold (target fs f) in H.
      assert (W : forall y, (forall g, g <> target fs f -> write fs (target fs f) y g = fs g) /\ (forall x0, fs f = Some x0 -> write fs (target fs f) y f = Some x0) /\
                            write fs (target fs f) y (target fs f) = Some y).
      { intros y. unfold write. split; [|split].
        - intros g Hn. apply String.eqb_neq in Hn. now rewrite Hn.
        - intros x0 Hx. unfold target. rewrite Hx. pose proof (append_one_neq f) as N. apply not_eq_sym, String.eqb_neq in N. now rewrite N.
        - now rewrite String.eqb_refl. }
      destruct (job_infos trips argv s w v) as [h|e] eqn:Ej.
      + assert (T : tells to_float argv s h) by (eapply header_tells; eauto; lia). destruct x as [l|]; injection H as <- <-.
        * destruct (W (Opened (Some h) l)) as (A & B & C). split; [exact A|]. split; [exact B|]. split; [eauto|discriminate].
        * destruct (W (Opened (Some h) [])) as (A & B & C). split; [exact A|]. split; [exact B|]. split; [discriminate|].
          intros e _. right. exists (Some h). split; [exact C|]. intros h' Eh. now injection Eh as <-.
      + injection H as <- <-. destruct (W (Opened None [])) as (A & B & C). split; [exact A|]. split; [exact B|]. split; [discriminate|].
        intros e' _. right. exists None. split; [exact C|]. discriminate.
  Qed.

  (** Free energy, entropy and force of two solid spheres with integers for lmax, lssmax, nmax: a run that fails writes nothing. *)
  Theorem C83_all_or_nothing : forall argv s fs j q m1 m2 m3,
    describes to_float argv s j q -> q = "free_energy()"%string \/ q = "entropy()"%string \/ q = "force()"%string -> j_dT j <> 0 ->
    eval_mat (j_v1 j) = Ok (OneMat m1) -> eval_mat (j_v2 j) = Ok (OneMat m2) -> eval_mat (j_v3 j) = Ok (OneMat m3) ->
    (exists e, run argv s fs = (fs, Fails (Raised e))) \/
    exists h l, run argv s fs = (write fs (target fs (nth 2 argv ""%string)) (Opened (Some h) l), Done tt) /\ tells to_float argv s h.
  Proof.
    intros argv s fs j q m1 m2 m3 D Hq HT E1 E2 E3.
    assert (exists r, quantity_run empty q (ops unk fuel mieb trans_bessels (config_of j m1 m2 m3) (j_precision j) conv09 false garbage)
                        (object (thermo_of j) (Z.of_nat (j_nmax j))) = Some r) as [r Hr].
    { unfold quantity_run. destruct Hq as [-> |[-> | ->]]; cbn [String.eqb Ascii.eqb Bool.eqb]; eauto. }
    pose proof (job_run to_float eval_mat other trips unk fuel garbage empty mieb argv s j q m1 m2 m3 r fs D HT E1 E2 E3 Hr) as R.
    destruct r as [l|e]; [|left; eauto]. destruct R as (h & Th & R). right. eauto.
  Qed.

  (** deltaT is printed with four decimals: two jobs that differ only in Tmin, both below 0.00005 (with a number of
      frequencies given as integer), write the same header. *)
  Theorem C83_header_refuted : forall argv s s' fs fs1 fs2 x y n,
    agree_but s s' "thermodynamics" "Tmin" -> number (opt s "thermodynamics" "Tmin") x -> number (opt s' "thermodynamics" "Tmin") y ->
    0 <= x < 1 / 20000 -> 0 <= y < 1 / 20000 -> opt s "thermodynamics" "nmax" = Some (CInt n) ->
    run argv s fs = (fs1, Done tt) -> run argv s' fs = (fs2, Done tt) ->
    exists h l1 l2, fs1 (target fs (nth 2 argv ""%string)) = Some (Opened (Some h) l1) /\
                    fs2 (target fs (nth 2 argv ""%string)) = Some (Opened (Some h) l2) /\ h_dT h = 0%Z.
  Proof.
    intros argv s s' fs fs1 fs2 x y n [A0 A] Hx Hy Bx By Hn R1 R2.
    assert (G : forall o, opt s "geometry" o = opt s' "geometry" o) by (intros o; destruct (A "geometry"%string o) as [[? _]|]; [discriminate|assumption]).
    assert (Mt : forall o, opt s "materials" o = opt s' "materials" o) by (intros o; destruct (A "materials"%string o) as [[? _]|]; [discriminate|assumption]).
    assert (Q : opt s "thermodynamics" "quantity" = opt s' "thermodynamics" "quantity") by (destruct (A "thermodynamics"%string "quantity"%string) as [[_ ?]|]; [discriminate|assumption]).
    assert (N' : opt s "thermodynamics" "nmax" = opt s' "thermodynamics" "nmax") by (destruct (A "thermodynamics"%string "nmax"%string) as [[_ ?]|]; [discriminate|assumption]).
    assert (TM : opt s "thermodynamics" "Tmax" = opt s' "thermodynamics" "Tmax") by (destruct (A "thermodynamics"%string "Tmax"%string) as [[_ ?]|]; [discriminate|assumption]).
    assert (UN : forall o a b, number o a -> number o b -> a = b).
    { intros o a b [-> |(z & -> & ->)] [Hb|(z' & Hb & Hb')]; try discriminate; injection Hb as Hb; congruence. }
    destruct (worker_cases to_float eval_mat other trips unk fuel garbage empty mieb argv s fs) as [[e E]|(w & r & v & Hl & Hg & Hc & E)]; [rewrite E in R1; discriminate|].
    destruct (worker_cases to_float eval_mat other trips unk fuel garbage empty mieb argv s' fs) as [[e E']|(w' & r' & v' & Hl' & Hg' & Hc' & E')]; [rewrite E' in R2; discriminate|].
    rewrite <- (worker_geometry_ext to_float eval_mat argv s s' A0 G Mt) in Hg'. rewrite Hg in Hg'. injection Hg' as <-.
    rewrite E in R1. rewrite E' in R2.
    destruct (worker_calculation_full _ _ _ _ _ _ _ _ _ _ Hc) as (q1 & a1 & _ & V1 & D1 & T1 & N1 & _).
    destruct (worker_calculation_full _ _ _ _ _ _ _ _ _ _ Hc') as (q2 & a2 & _ & V2 & D2 & T2 & N2 & _).
    assert (K : forall (a : thermo_args) o, o = Some (CInt n) ->
      match Misc_Model.t_nmax a with AInteger z => o = Some (CInt z) | AAutomatic => o = Some CAuto | AOther => True end ->
      Misc_Model.t_nmax a = AInteger n \/ Misc_Model.t_nmax a = AOther).
    { intros a o -> Ha. destruct (Misc_Model.t_nmax a); [left|discriminate|now right]. now injection Ha as <-. }
    assert (B : forall v0 a0, construct_T w a0 = Ok v0 -> Misc_Model.t_nmax a0 = AInteger n \/ Misc_Model.t_nmax a0 = AOther ->
      v_nmax v0 = Int n \/ v_nmax v0 = Text).
    { intros v0 a0 Hv0 Ha0. apply construct_T_values in Hv0. destruct Hv0 as (_ & _ & _ & H4). destruct (v_nmax v0) as [z|]; [left|now right].
      destruct H4 as [H4|[H4 _]]; destruct Ha0 as [Ha0|Ha0]; rewrite Ha0 in H4; try discriminate. now injection H4 as ->. }
    pose proof (B _ _ V1 (K _ _ Hn N1)) as B1. rewrite N' in Hn. pose proof (B _ _ V2 (K _ _ Hn N2)) as B2. clear B K N1 N2.
    apply construct_T_values in V1, V2. destruct V1 as (P1 & P2 & _ & _), V2 as (P3 & P4 & _ & _).
    rewrite <- TM in T2. pose proof (UN _ _ _ T1 T2) as ET. pose proof (UN _ _ _ D1 Hx) as Ex. pose proof (UN _ _ _ D2 Hy) as Ey.
    assert (F1 : four_decimals (v_dT v) = 0%Z) by (rewrite P1, Ex; now apply four_decimals_small).
    assert (F2 : four_decimals (v_dT v') = 0%Z) by (rewrite P3, Ey; now apply four_decimals_small).
    assert (J : forall h, job_infos trips argv s w v = Ok h -> job_infos trips argv s' w v' = Ok h \/ exists e, job_infos trips argv s' w v' = Err e).
    { intros h. unfold job_infos, cget. change (options s) with (opt s). change (options s') with (opt s'). rewrite !Mt, Q.
      destruct (opt s' "materials" "mata"); [|discriminate]. destruct (opt s' "materials" "matb"); [|discriminate]. destruct (opt s' "materials" "matmd"); [|discriminate]. cbn [bind].
      destruct (w_lmax w); cbn [percent_i bind]; [|discriminate]. destruct (w_lssmax w); cbn [percent_i bind]; [|discriminate].
      destruct B1 as [-> | ->]; cbn [percent_i bind]; [|discriminate]. destruct (opt s' "thermodynamics" "quantity"); [|discriminate]. cbn [bind].
      rewrite F1, F2, P2, P4, ET. destruct B2 as [-> | ->]; cbn [percent_i bind]; eauto. }
    unfold worker_save in R1, R2. fold (target fs (nth 2 argv ""%string)) in R1, R2.
    destruct (job_infos trips argv s w v) as [h|] eqn:Ej; [|discriminate]. destruct r as [l1|]; [|discriminate]. injection R1 as <-.
    destruct (J h eq_refl) as [Ej'|[e Ej']]; rewrite Ej' in R2; [|discriminate]. destruct r' as [l2|]; [|discriminate]. injection R2 as <-.
    exists h, l1, l2. unfold write. rewrite String.eqb_refl. split; [reflexivity|]. split; [reflexivity|].
    unfold job_infos in Ej. repeat match type of Ej with bind ?a _ = _ => destruct a; [cbn [bind] in Ej|discriminate] end. injection Ej as <-. exact F1.
  Qed.

  (** Repeating a job: the second result goes to the second name, the third replaces the second, whatever it was. *)
  Theorem C83_repeated_refuted : forall argv1 argv2 argv3 s1 s2 s3 fs fs1 fs2 fs3 f,
    nth 2 argv1 ""%string = f -> nth 2 argv2 ""%string = f -> nth 2 argv3 ""%string = f -> fs f = None ->
    run argv1 s1 fs = (fs1, Done tt) -> run argv2 s2 fs1 = (fs2, Done tt) -> run argv3 s3 fs2 = (fs3, Done tt) ->
    exists h1 l1 h2 l2 h3 l3,
      fs1 f = Some (Opened (Some h1) l1) /\ fs2 f = Some (Opened (Some h1) l1) /\ fs2 (f ++ "1")%string = Some (Opened (Some h2) l2) /\
      fs3 f = Some (Opened (Some h1) l1) /\ fs3 (f ++ "1")%string = Some (Opened (Some h3) l3) /\
      (forall g, g <> f -> g <> (f ++ "1")%string -> fs3 g = fs g).
  Proof.
    intros argv1 argv2 argv3 s1 s2 s3 fs fs1 fs2 fs3 f E1 E2 E3 Hf R1 R2 R3.
    destruct (C83_files _ _ _ _ _ R1) as (A1 & _ & B1 & _). destruct (C83_files _ _ _ _ _ R2) as (A2 & K2 & B2 & _).
    destruct (C83_files _ _ _ _ _ R3) as (A3 & K3 & B3 & _). rewrite E1 in A1, B1. rewrite E2 in A2, K2, B2. rewrite E3 in A3, K3, B3.
    destruct (B1 eq_refl) as (h1 & l1 & F1 & _). destruct (B2 eq_refl) as (h2 & l2 & F2 & _). destruct (B3 eq_refl) as (h3 & l3 & F3 & _).
    unfold target in A1, F1. rewrite Hf in A1, F1. unfold target in A2, F2. rewrite F1 in A2, F2. pose proof (K2 _ F1) as G2.
    unfold target in A3, F3. rewrite G2 in A3, F3. pose proof (K3 _ G2) as G3.
    exists h1, l1, h2, l2, h3, l3. repeat (split; [assumption|]). intros g N1 N2. rewrite A3, A2, A1; auto.
  Qed.
End Statements.
Print Assumptions C83_files.
Print Assumptions C83_all_or_nothing.
Print Assumptions C83_header_refuted.
Print Assumptions C83_repeated_refuted.

(** ** a concrete job *)
Definition the_argv : list string := ["worker.py"; "INPUT"; "out"]%string.
Definition the_options : sections := fun a =>
  if String.eqb a "geometry" then Some (fun o =>
    if String.eqb o "ra" then Some (CInt 1) else if String.eqb o "rb" then Some (CFloat 1.5) else if String.eqb o "d" then Some (CInt 3)
    else if String.eqb o "precision" then Some (CFloat 0.0001) else if String.eqb o "lmax" then Some (CInt 2) else if String.eqb o "lssmax" then Some (CInt 3)
    else if String.eqb o "l_offset" then Some (CInt 0) else if String.eqb o "evaluation" then Some (CStr "lndet")
    else if String.eqb o "analytic_n0" then Some (CStr "True") else None)
  else if String.eqb a "materials" then Some (fun _ => Some (CStr "PEC"))
  else if String.eqb a "thermodynamics" then Some (fun o =>
    if String.eqb o "Tmin" then Some (CFloat 0.5) else if String.eqb o "Tmax" then Some (CInt 2) else if String.eqb o "nmax" then Some (CInt 4)
    else if String.eqb o "quantity" then Some (CStr "free_energy") else None)
  else None.
Definition the_files : files := fun g => if String.eqb g "out" then Some (Foreign "yesterday") else if String.eqb g "out1" then Some (Foreign "today") else None.

(** The quantity without parentheses is a method, not an array: the run fails, and the file with the appended 1 (here with
    results of other origin) is replaced by a file without numbers. *)
Theorem C83_partial_file_refuted : exists to_float eval_mat other trips argv s fs h,
  forall unk fuel garbage empty mieb fs' r,
    worker to_float eval_mat other trips unk fuel garbage empty mieb argv s fs = (fs', r) ->
    r = Fails (Raised ValueError) /\ fs "out1"%string = Some (Foreign "today") /\ fs' "out1"%string = Some (Opened (Some h) []).
Proof.
  exists (fun _ => None), (fun _ => Ok (OneMat PEC)), (fun _ _ _ => Done NotArray), [], the_argv, the_options, the_files.
  eexists. intros unk fuel garbage empty mieb fs' r H.
  unfold worker, worker_geometry, worker_calculation in H. cbn -[Rltb Reqb four_decimals] in H.
  destruct (Reqb_spec 0.5 0); [lra|]. cbn -[Rltb Reqb four_decimals] in H. injection H as <- <-.
  split; [reflexivity|]. split; [reflexivity|]. unfold write. cbn [String.eqb Ascii.eqb Bool.eqb append]. reflexivity.
Qed.
Print Assumptions C83_partial_file_refuted.

(** the hypotheses of C83_header_refuted and C83_all_or_nothing are met *)
Example C83_described : exists s j, describes (fun _ => None) the_argv s j "free_energy()" /\ j_dT j = 0.5 /\ j_ra j = 1 /\ j_L j = 3.
Proof.
  exists (fun a => match the_options a with Some f => Some (fun o => if String.eqb o "quantity" then Some (CStr "free_energy()") else f o) | None => None end),
    {| j_ra := 1; j_rb := 1.5; j_L := 3; j_precision := 0.0001; j_lmax := 2; j_lssmax := 3; j_nmax := 4; j_dT := 0.5; j_Tmax := 2;
       j_v1 := CStr "PEC"; j_v2 := CStr "PEC"; j_v3 := CStr "PEC" |}.
  split; [|auto]. unfold describes, opt, number. cbn -[IZR].
  repeat match goal with |- _ /\ _ => split end; try (left; reflexivity); try (right; eexists; split; reflexivity); try reflexivity; try discriminate. eexists; reflexivity.
Qed.
