(** * Proofs about the script worker.py *)
From Coq Require Import Bool Reals ZArith String List Lia Lra.
From Verif Require Import Base Thermo_Model Thermo_Proofs Geo_Model Bessel_Model Scat_Model Misc_Model Misc_Proofs Lin_Model Trans_Model RT_Model Run_Model Worker_Model Worker_Spec.
Import ListNotations.
Open Scope R_scope.

Lemma options_opt s a o : options s a o = opt s a o.
Proof. reflexivity. Qed.

Lemma getfloat_number c a o x : getfloat c a o = Ok x <-> number (c a o) x.
Proof.
  unfold getfloat, cget, number. destruct (c a o) as [[z|r|l| |t]|]; cbn; split; intros H; try discriminate;
    try (destruct H as [H|(z' & H & H')]; try discriminate).
  - injection H as <-. right. eauto.
  - injection H as ->. subst. reflexivity.
  - injection H as <-. now left.
  - now injection H as ->.
Qed.

Lemma assign_radius_is c o r : assign_radius c o = Ok r -> radius_is (c "geometry"%string o) r.
Proof.
  unfold assign_radius. destruct (getfloat c "geometry" o) as [x|e] eqn:E.
  - intros H. injection H as <-. left. exists x. split; [now apply getfloat_number|reflexivity].
  - destruct e; try discriminate; destruct (c "geometry"%string o) as [[]|] eqn:Ec; try discriminate; intros H; injection H as <-; right; eauto.
Qed.

Lemma int_or_string_is c a o i : int_or_string c a o = Ok i ->
  match i with AInteger z => c a o = Some (CInt z) | AAutomatic => c a o = Some CAuto | AOther => True end.
Proof.
  unfold int_or_string, getint, cget. destruct (c a o) as [[z|r|l| |t]|]; cbn; intros H; try discriminate; injection H as <-; auto.
Qed.

Lemma get_lmax_ge r1 r2 L p off z : get_lmax r1 r2 L p off = Ok z -> (1 <= z)%Z.
Proof.
  unfold get_lmax. cbv zeta. destruct (Reqb _ 0); [discriminate|]. destruct (Rleb 30 _); [intros H; injection H as <-; lia|].
  destruct (Reqb _ 0); [discriminate|]. destruct (Reqb _ 0); [discriminate|]. destruct (Rltb p 0); [discriminate|].
  intros H. injection H as <-. lia.
Qed.
Lemma auto_nmax_ge r1 r2 L dT l z : auto_nmax r1 r2 L dT l = Ok z -> (1 <= z)%Z.
Proof.
  unfold auto_nmax. cbv zeta. destruct (Reqb _ 0); [discriminate|].
  match goal with |- bind ?x _ = _ -> _ => destruct x as [c|]; [|discriminate] end. cbn [bind].
  destruct (_ || _)%bool; [discriminate|]. intros H. injection H as <-. lia.
Qed.

Lemma four_decimals_shown x : shown (four_decimals x) x.
Proof.
  unfold shown, four_decimals. pose proof (pyround_spec (x * 10000)) as H.
  replace (IZR (pyround (x * 10000)) / 10000 - x) with ((IZR (pyround (x * 10000)) - x * 10000) * / 10000) by field.
  rewrite Rabs_mult, (Rabs_pos_eq (/ 10000)) by lra. lra.
Qed.
Lemma four_decimals_small x : 0 <= x < 1 / 20000 -> four_decimals x = 0%Z.
Proof.
  intros H. unfold four_decimals. pose proof (pyround_spec (x * 10000)) as P.
  assert (B : -1 < IZR (pyround (x * 10000)) < 1).
  { revert P. unfold Rabs. destruct (Rcase_abs _); intros P; lra. }
  destruct B as [B1 B2]. apply lt_IZR in B2. change (-1) with (IZR (-1)) in B1. apply lt_IZR in B1. lia.
Qed.

(** ** the parts *)
Lemma eval_kind_is v e : eval_kind v = e -> match e with EvLndet => v = CStr "lndet" | EvTrace => v = CStr "trace" | EvOther => True end.
Proof.
  intros <-. unfold eval_kind. destruct v as [| | | |t]; auto.
  destruct (String.eqb_spec t "lndet"); [now subst|]. destruct (String.eqb_spec t "trace"); [now subst|exact I].
Qed.
Lemma construct_values g m1 m2 m3 w : construct g m1 m2 m3 = Ok w ->
  w_r1 w = g_r1 g /\ w_r2 w = g_r2 g /\ w_L w = g_L g /\ w_mat1 w = m1 /\ w_mat2 w = m2 /\ w_mat3 w = m3 /\ w_offset w = g_offset g /\
  w_precision w = g_precision g /\
  (if w_trace w then g_eval g = CStr "trace" else g_eval g = CStr "lndet") /\
  match w_lmax w with Int z => g_lmax g = AInteger z \/ (g_lmax g = AAutomatic /\ (1 <= z)%Z) | Text => g_lmax g = AOther end /\
  match w_lssmax w with Int z => g_lssmax g = AInteger z \/ g_lssmax g = AAutomatic | Text => g_lssmax g = AOther end.
Proof.
  unfold construct. destruct (eval_kind (g_eval g)) eqn:Ek; cbn [bind]; try discriminate.
  all: destruct (outer (to_radius (g_r1 g))) as [o1|]; [|discriminate]; destruct (outer (to_radius (g_r2 g))) as [o2|]; [|discriminate]; cbn [bind];
    destruct (g_lmax g) as [z| |]; cbn [bind];
    try (destruct (get_lmax o1 o2 (g_L g) (g_precision g) (g_offset g)) as [zl|] eqn:El; [apply get_lmax_ge in El|discriminate]; cbn [bind]);
    destruct (g_lssmax g) as [z'| |]; cbn [bind]; try (destruct (Reqb (Rmin o1 o2) 0); [discriminate|]; cbn [bind]); try discriminate;
    intros H; injection H as <-; cbn; repeat split; auto; apply eval_kind_is in Ek; exact Ek.
Qed.

Lemma construct_T_values w a v : construct_T w a = Ok v ->
  v_dT v = t_dT a /\ v_Tmax v = t_Tmax a /\ t_dT a <> 0 /\
  match v_nmax v with Int z => t_nmax a = AInteger z \/ (t_nmax a = AAutomatic /\ (1 <= z)%Z) | Text => t_nmax a = AOther end.
Proof.
  unfold construct_T. cbv zeta. destruct (t_nmax a) as [z| |]; cbn [bind].
  - destruct (Reqb_spec (t_dT a) 0); [discriminate|]. intros H. injection H as <-. cbn. auto.
  - destruct (outer (to_radius (w_r1 w))) as [r1|]; [|discriminate]. destruct (outer (to_radius (w_r2 w))) as [r2|]; [|discriminate]. cbn [bind].
    destruct (w_lmax w) as [zl|].
    + destruct (auto_nmax r1 r2 (w_L w) (t_dT a) zl) as [z|] eqn:Ea; [|discriminate]. apply auto_nmax_ge in Ea. cbn [bind].
      destruct (Reqb_spec (t_dT a) 0); [discriminate|]. intros H. injection H as <-. cbn [v_dT v_Tmax v_nmax].
      split; [reflexivity|]. split; [reflexivity|]. split; [assumption|]. right. auto.
    + destruct (Reqb _ 0); [discriminate|]. destruct (_ && _)%bool; discriminate.
  - destruct (Reqb_spec (t_dT a) 0); [discriminate|]. intros H. injection H as <-. cbn. auto.
Qed.

Lemma return_geometry_full c arg3 g : return_geometry c arg3 = Ok g ->
  radius_is (c "geometry" "ra")%string (g_r1 g) /\ radius_is (c "geometry" "rb")%string (g_r2 g) /\
  match arg3 with Some x => x = Ok (g_L g) | None => number (c "geometry" "d")%string (g_L g) end /\
  number (c "geometry" "precision")%string (g_precision g) /\
  match g_lmax g with AInteger z => c "geometry"%string "lmax"%string = Some (CInt z) | AAutomatic => c "geometry"%string "lmax"%string = Some CAuto | AOther => True end /\
  match g_lssmax g with AInteger z => c "geometry"%string "lssmax"%string = Some (CInt z) | AAutomatic => c "geometry"%string "lssmax"%string = Some CAuto | AOther => True end /\
  (c "geometry"%string "l_offset"%string = Some (CInt (g_offset g)) \/ (c "geometry"%string "l_offset"%string = None /\ g_offset g = 0%Z)) /\
  (c "geometry"%string "evaluation"%string = Some (g_eval g) \/ (c "geometry"%string "evaluation"%string = None /\ g_eval g = CStr "lndet")).
Proof.
  unfold return_geometry. intros H.
  destruct (assign_radius c "ra") as [r1|] eqn:E1; [|discriminate].
  destruct (assign_radius c "rb") as [r2|] eqn:E2; [|discriminate]. cbn [bind] in H.
  destruct (match arg3 with Some x => x | None => getfloat c "geometry" "d" end) as [L|] eqn:EL; [|discriminate]. cbn [bind] in H.
  destruct (getfloat c "geometry" "precision") as [pr|e] eqn:Ep; cbn [bind] in H; [|destruct e; discriminate].
  destruct (int_or_string c "geometry" "lmax") as [lm|] eqn:E5; [|discriminate]. cbn [bind] in H.
  destruct (match lm with AAutomatic => _ | _ => _ end) as [[]|]; [|discriminate]. cbn [bind] in H.
  destruct (int_or_string c "geometry" "lssmax") as [ls|] eqn:E6; [|discriminate]. cbn [bind] in H.
  destruct (match getint c "geometry" "l_offset" with Err NoOptionError => Ok 0%Z | x => x end) as [off|] eqn:Eo; [|discriminate]. cbn [bind] in H.
  destruct (match cget c "geometry" "evaluation" with Err NoOptionError => Ok (CStr "lndet") | x => x end) as [ev|] eqn:Ee; [|discriminate]. cbn [bind] in H.
  injection H as <-. cbn.
  split; [now apply assign_radius_is|]. split; [now apply assign_radius_is|]. split.
  { destruct arg3 as [x|]; [exact EL|]. now apply getfloat_number. }
  split; [now apply getfloat_number|]. split; [now apply int_or_string_is in E5|]. split; [now apply int_or_string_is in E6|]. split.
  - unfold getint, cget in Eo. destruct (c "geometry"%string "l_offset"%string) as [[]|]; cbn in Eo; try discriminate; injection Eo as <-; auto.
  - unfold cget in Ee. destruct (c "geometry"%string "evaluation"%string); injection Ee as <-; auto.
Qed.

Lemma do_calculation_full c g t : do_calculation c g = Ok t ->
  number (c "thermodynamics" "Tmin")%string (t_dT t) /\ number (c "thermodynamics" "Tmax")%string (t_Tmax t) /\
  match t_nmax t with AInteger z => c "thermodynamics"%string "nmax"%string = Some (CInt z) | AAutomatic => c "thermodynamics"%string "nmax"%string = Some CAuto | AOther => True end.
Proof.
  unfold do_calculation. intros H.
  destruct (getfloat c "thermodynamics" "Tmin") as [dT|] eqn:E1; [|discriminate]. cbn [bind] in H.
  destruct (int_or_string c "thermodynamics" "nmax") as [n|] eqn:E2; [|discriminate]. cbn [bind] in H.
  destruct (cget c "geometry" "analytic_n0"); [|discriminate]. cbn [bind] in H.
  destruct (getfloat c "thermodynamics" "Tmax") as [Tm|] eqn:E3; [|discriminate]. cbn [bind] in H. injection H as <-. cbn.
  split; [now apply getfloat_number|]. split; [now apply getfloat_number|now apply int_or_string_is in E2].
Qed.

Section Whole.
  Context (to_float : string -> option R) (eval_mat : cfgval -> res matarg).
  Context (other : cfgval -> wgeom -> wthermo -> outcome value) (trips : list (nat * nat)).
  Context (unk : exn) (fuel : nat) (garbage : nat -> mat) (empty : nat -> R).
  Context (mieb : list R -> nat -> Z -> res (list (list R) * list (list R))).
  Notation geometry' := (worker_geometry to_float eval_mat).
  Notation calculation' := (worker_calculation other unk fuel garbage empty mieb).
  Notation worker' := (worker to_float eval_mat other trips unk fuel garbage empty mieb).

  Lemma worker_cases argv s fs :
    (exists e, worker' argv s fs = (fs, Fails e)) \/
    exists w x v, ((List.length argv = 3)%nat \/ (List.length argv = 4)%nat) /\
      geometry' argv s = Done w /\ calculation' s w = Done (x, v) /\
      worker' argv s fs = worker_save fs (nth 2 argv ""%string) (job_infos trips argv s w v) x.
  Proof.
    unfold worker. destruct (Nat.eqb_spec (List.length argv) 3) as [H3|H3], (Nat.eqb_spec (List.length argv) 4) as [H4|H4]; cbn [orb]; try (left; eauto; fail).
    all: destruct (geometry' argv s) as [w|e]; cbn [then_]; [|left; eauto]; destruct (calculation' s w) as [[x v]|e] eqn:Ec; cbn [then_]; [|left; eauto];
      right; exists w, x, v; auto.
  Qed.

  Lemma worker_geometry_full argv s w : geometry' argv s = Done w ->
    exists g m1 m2 m3 v1 v2 v3, return_geometry (options s) (match nth_error argv 3 with
                | Some a => Some (match to_float a with Some x => Ok x | None => Err ValueError end)
                | None => None end) = Ok g /\ construct g m1 m2 m3 = Ok w /\
      opt s "materials" "mata" = Some v1 /\ opt s "materials" "matb" = Some v2 /\ opt s "materials" "matmd" = Some v3.
  Proof.
    unfold worker_geometry. destruct (section s "geometry") as [[]|]; [|discriminate]. cbn [then_].
    destruct (return_geometry (options s) _) as [g|]; [|discriminate]. cbn [then_ lifted].
    destruct (section s "materials") as [[]|]; [|discriminate]. cbn [then_]. unfold cget. change (options s) with (opt s).
    destruct (opt s "materials" "mata") as [v1|]; [|discriminate]. cbn [then_ lifted]. destruct (eval_mat v1) as [m1|]; [|discriminate]. cbn [then_ lifted].
    destruct (opt s "materials" "matb") as [v2|]; [|discriminate]. cbn [then_ lifted]. destruct (eval_mat v2) as [m2|]; [|discriminate]. cbn [then_ lifted].
    destruct (opt s "materials" "matmd") as [v3|]; [|discriminate]. cbn [then_ lifted]. destruct (eval_mat v3) as [m3|]; [|discriminate]. cbn [then_ lifted].
    destruct (construct g m1 m2 m3) as [w'|] eqn:E; [|discriminate]. cbn. intros H. injection H as ->.
    exists g, m1, m2, m3, v1, v2, v3. auto.
  Qed.

  Lemma worker_calculation_full s w x v : calculation' s w = Done (x, v) ->
    exists q a, opt s "thermodynamics" "quantity" = Some q /\ construct_T w a = Ok v /\
      number (opt s "thermodynamics" "Tmin") (t_dT a) /\ number (opt s "thermodynamics" "Tmax") (t_Tmax a) /\
      match t_nmax a with AInteger z => opt s "thermodynamics" "nmax" = Some (CInt z) | AAutomatic => opt s "thermodynamics" "nmax" = Some CAuto | AOther => True end /\
      evaluate other unk fuel garbage empty mieb q w v = Done x.
  Proof.
    unfold worker_calculation. destruct (section s "thermodynamics") as [[]|]; [|discriminate]. cbn [then_]. unfold cget. change (options s) with (opt s).
    destruct (opt s "thermodynamics" "quantity") as [q|]; [|discriminate]. cbn [then_ lifted]. cbv zeta.
    match goal with |- context [do_calculation (opt s) ?g] => destruct (do_calculation (opt s) g) as [a|] eqn:Ed; [|discriminate] end. cbn [then_ lifted].
    destruct (construct_T w a) as [v'|] eqn:Ev; [|discriminate]. cbn [then_ lifted].
    destruct (evaluate other unk fuel garbage empty mieb q w v') as [x'|] eqn:Ex; [|discriminate]. cbn. intros H. injection H as -> ->.
    exists q, a. apply do_calculation_full in Ed. destruct Ed as (A & B & C). auto 10.
  Qed.

  Lemma header_tells argv s w x v h : geometry' argv s = Done w -> calculation' s w = Done (x, v) ->
    (2 <= List.length argv)%nat -> job_infos trips argv s w v = Ok h -> tells to_float argv s h.
  Proof.
    intros Hg Hc Hl Hj. destruct (worker_geometry_full _ _ _ Hg) as (g & m1 & m2 & m3 & v1 & v2 & v3 & Hr & Hw & V1 & V2 & V3).
    destruct (worker_calculation_full _ _ _ _ Hc) as (q & a & Hq & Hv & Hd & HT & Hn & _).
    apply return_geometry_full in Hr. change (options s) with (opt s) in Hr. destruct Hr as (R1 & R2 & R3 & R4 & R5 & R6 & R7 & R8).
    apply construct_values in Hw. destruct Hw as (W1 & W2 & W3 & _ & _ & _ & W7 & W8 & W9 & W10 & W11).
    apply construct_T_values in Hv. destruct Hv as (T1 & T2 & T3 & T4).
    unfold job_infos, cget in Hj. change (options s) with (opt s) in Hj. rewrite V1, V2, V3 in Hj. cbn [bind] in Hj.
    destruct (w_lmax w) as [lm|]; cbn [bind percent_i] in Hj; [|discriminate].
    destruct (w_lssmax w) as [ls|]; cbn [bind percent_i] in Hj; [|discriminate].
    destruct (v_nmax v) as [n|]; cbn [bind percent_i] in Hj; [|discriminate]. rewrite Hq in Hj. cbn [bind] in Hj.
    injection Hj as <-. unfold tells. cbn [h_input h_r1 h_r2 h_L h_mat1 h_mat2 h_mat3 h_lmax h_lssmax h_offset h_nmax h_dT h_Tmax h_quantity h_trace h_precision].
    rewrite W1, W2, W3, W7, W8, T1, T2.
    split; [destruct argv as [|a0 [|a1 r]]; cbn in Hl; try lia; reflexivity|].
    split; [exact R1|]. split; [exact R2|]. split.
    { destruct (nth_error argv 3) as [a3|]; [|exact R3]. destruct (to_float a3); congruence. }
    split; [exact V1|]. split; [exact V2|]. split; [exact V3|]. split.
    { destruct W10 as [E|[E ?]]; rewrite E in R5; [left|right]; auto. }
    split. { destruct W11 as [E|E]; rewrite E in R6; auto. }
    split; [exact R7|]. split.
    { destruct T4 as [E|[E ?]]; rewrite E in Hn; [left|right]; auto. }
    split. { exists (t_dT a). split; [exact Hd|apply four_decimals_shown]. }
    split. { exists (t_Tmax a). split; [exact HT|apply four_decimals_shown]. }
    split; [exact Hq|]. split; [|exact R4].
    destruct (w_trace w); rewrite W9 in R8; destruct R8 as [R8|[R8 R9]]; auto; discriminate.
  Qed.

  (** ** reading depends on the options only *)
  Lemma return_geometry_ext c c' arg3 : (forall o, c "geometry"%string o = c' "geometry"%string o) -> return_geometry c arg3 = return_geometry c' arg3.
  Proof.
    intros H. unfold return_geometry, assign_radius, getfloat, int_or_string, getint, cget.
    rewrite (H "ra"%string), (H "rb"%string), (H "d"%string), (H "precision"%string), (H "lmax"%string), (H "lssmax"%string),
      (H "l_offset"%string), (H "evaluation"%string). reflexivity.
  Qed.

  Lemma worker_geometry_ext argv s s' : (forall b, s b = None <-> s' b = None) ->
    (forall o, opt s "geometry" o = opt s' "geometry" o) -> (forall o, opt s "materials" o = opt s' "materials" o) ->
    geometry' argv s = geometry' argv s'.
  Proof.
    intros H0 Hg Hm. unfold worker_geometry, cget.
    assert (Hs : forall a, section s a = section s' a).
    { intros a. unfold section. specialize (H0 a). destruct (s a), (s' a); try reflexivity; destruct H0 as [A B];
        [specialize (B eq_refl)|specialize (A eq_refl)]; discriminate. }
    rewrite (Hs "geometry"%string), (Hs "materials"%string).
    rewrite (return_geometry_ext (options s) (options s') _ Hg).
    change (options s) with (opt s). change (options s') with (opt s').
    rewrite (Hm "mata"%string), (Hm "matb"%string), (Hm "matmd"%string). reflexivity.
  Qed.

  (** ** a job for two solid spheres *)
  Definition geometry_of (j : job) (z : Z) (m1 m2 m3 : material) : wgeom :=
    {| w_r1 := RFloat (j_ra j); w_r2 := RFloat (j_rb j); w_L := j_L j; w_mat1 := OneMat m1; w_mat2 := OneMat m2; w_mat3 := OneMat m3;
       w_lmax := Int (Z.of_nat (j_lmax j)); w_lssmax := Int (Z.of_nat (j_lssmax j)); w_offset := z;
       w_ext := Rltb (j_ra j + j_rb j) (j_L j); w_trace := false; w_precision := j_precision j |}.
  Definition thermo_of (j : job) : wthermo := {| v_dT := j_dT j; v_nmax := Int (Z.of_nat (j_nmax j)); v_Tmax := j_Tmax j; v_analytic := true |}.
  Definition config_of (j : job) (m1 m2 m3 : material) : RT_Model.config :=
    {| c_1 := Solid m1 (j_ra j); c_2 := Solid m2 (j_rb j); c_med := m3; c_L := j_L j; c_lmax := j_lmax j; c_lssmax := j_lssmax j;
       c_ext := Rltb (j_ra j + j_rb j) (j_L j); c_mat := fun _ => m3 |}.

  Lemma describes_section argv s j q : describes to_float argv s j q ->
    section s "geometry" = Done tt /\ section s "materials" = Done tt /\ section s "thermodynamics" = Done tt.
  Proof.
    intros (_ & _ & _ & _ & _ & H & _ & _ & _ & _ & Hm & _ & _ & _ & _ & _ & Ht). unfold opt in H, Hm, Ht. unfold section.
    destruct (s "geometry"%string); [|discriminate]. destruct (s "materials"%string); [|discriminate].
    destruct (s "thermodynamics"%string); [|discriminate]. auto.
  Qed.

  Lemma job_geometry argv s j q m1 m2 m3 : describes to_float argv s j q ->
    eval_mat (j_v1 j) = Ok (OneMat m1) -> eval_mat (j_v2 j) = Ok (OneMat m2) -> eval_mat (j_v3 j) = Ok (OneMat m3) ->
    exists z, geometry' argv s = Done (geometry_of j z m1 m2 m3).
  Proof.
    intros D E1 E2 E3. destruct (describes_section _ _ _ _ D) as (S1 & S2 & _).
    destruct D as (_ & Ha & Hb & HL & Hp & Hl & Hls & (z & Hz) & He & _ & V1 & V2 & V3 & _).
    exists z. unfold worker_geometry. rewrite S1, S2. cbn [then_].
    assert (return_geometry (options s) (match nth_error argv 3 with
              | Some a => Some (match to_float a with Some x => Ok x | None => Err ValueError end) | None => None end) =
            Ok {| g_r1 := RFloat (j_ra j); g_r2 := RFloat (j_rb j); g_L := j_L j; g_precision := j_precision j;
                  g_lmax := AInteger (Z.of_nat (j_lmax j)); g_lssmax := AInteger (Z.of_nat (j_lssmax j)); g_offset := z; g_eval := CStr "lndet" |}) as ->.
    { change (options s) with (opt s). apply getfloat_number in Ha, Hb, Hp. unfold return_geometry, assign_radius. rewrite Ha, Hb, Hp. cbn [bind].
      assert ((match (match nth_error argv 3 with
              | Some a => Some (match to_float a with Some x => Ok x | None => Err ValueError end) | None => None end) with
               Some x => x | None => getfloat (opt s) "geometry" "d" end) = Ok (j_L j)) as ->.
      { destruct (nth_error argv 3); [now rewrite HL|now apply getfloat_number]. }
      unfold int_or_string, getint, cget. rewrite Hl, Hls, Hz, He. reflexivity. }
    cbn [lifted then_]. unfold cget. change (options s) with (opt s). rewrite V1, V2, V3. cbn [lifted then_]. rewrite E1. cbn [lifted then_].
    rewrite E2. cbn [lifted then_]. rewrite E3. cbn [lifted then_]. reflexivity.
  Qed.

  Lemma job_header argv s j q m1 m2 m3 z : describes to_float argv s j q ->
    exists h, job_infos trips argv s (geometry_of j z m1 m2 m3) (thermo_of j) = Ok h.
  Proof.
    intros D. destruct D as (_ & _ & _ & _ & _ & _ & _ & _ & _ & _ & V1 & V2 & V3 & _ & _ & _ & Hq).
    unfold job_infos, cget. change (options s) with (opt s). rewrite V1, V2, V3, Hq. cbn. eauto.
  Qed.

  Notation ops_of j m1 m2 m3 := (ops unk fuel mieb trans_bessels (config_of j m1 m2 m3) (j_precision j) conv09 false garbage).
  Definition quantity_run (q : string) (o : geo_ops gstate) (t : finiteT gstate) : option (res (list R)) :=
    if String.eqb q "free_energy()" then Some (snd (free_energy o empty t))
    else if String.eqb q "entropy()" then Some (snd (entropy o empty t))
    else if String.eqb q "force()" then Some (snd (force o empty t)) else None.

  Lemma job_calculation argv s j q m1 m2 m3 z r : describes to_float argv s j q -> j_dT j <> 0 ->
    quantity_run q (ops_of j m1 m2 m3) (object (thermo_of j) (Z.of_nat (j_nmax j))) = Some r ->
    calculation' s (geometry_of j z m1 m2 m3) = match r with Ok l => Done (Array l, thermo_of j) | Err e => Fails (Raised e) end.
  Proof.
    intros D HT Hr. destruct (describes_section _ _ _ _ D) as (_ & _ & S3).
    destruct D as (_ & _ & _ & _ & _ & _ & _ & _ & _ & Hn0 & _ & _ & _ & Hd & HTm & Hn & Hq).
    unfold worker_calculation. rewrite S3. cbn [then_]. unfold cget at 1. change (options s) with (opt s). rewrite Hq. cbn [lifted then_ w_r1 w_r2 geometry_of].
    assert (forall g, g_r1 g = RFloat (j_ra j) -> g_r2 g = RFloat (j_rb j) -> do_calculation (opt s) g =
      Ok {| t_dT := j_dT j; t_nmax := AInteger (Z.of_nat (j_nmax j)); t_Tmax := j_Tmax j; t_n0 := true |}) as Hdo.
    { intros g G1 G2. unfold do_calculation. apply getfloat_number in Hd, HTm. rewrite Hd, HTm. cbn [bind].
      unfold int_or_string, getint, cget. rewrite Hn. cbn [bind]. destruct (opt s "geometry" "analytic_n0"); [|congruence].
      cbn [bind]. now rewrite G1, G2. }
    rewrite Hdo by reflexivity. cbn [lifted then_]. unfold construct_T. cbn [t_dT Misc_Model.t_nmax Misc_Model.t_Tmax t_n0 is_many w_mat1 w_mat2 orb bind].
    destruct (Reqb_spec (j_dT j) 0); [contradiction|]. cbn [lifted then_].
    match goal with |- context [{| v_dT := ?a; v_nmax := ?b; v_Tmax := ?c; v_analytic := ?d |}] =>
      change {| v_dT := a; v_nmax := b; v_Tmax := c; v_analytic := d |} with (thermo_of j) end.
    unfold evaluate. change (v_nmax _) with (Int (Z.of_nat (j_nmax j))).
    assert (composed (geometry_of j z m1 m2 m3) = Some (config_of j m1 m2 m3)) as Hc.
    { unfold composed. cbn [sphere_of w_mat1 w_mat2 w_mat3 w_r1 w_r2 w_lmax w_lssmax geometry_of].
      destruct (Z.leb_spec 0 (Z.of_nat (j_lmax j))); [|lia]. destruct (Z.leb_spec 0 (Z.of_nat (j_lssmax j))); [|lia]. cbn [andb].
      rewrite !Nat2Z.id. reflexivity. }
    try fold (geometry_of j z m1 m2 m3). rewrite Hc. cbn [is_str w_precision w_trace geometry_of].
    unfold quantity_run in Hr. rewrite !(String.eqb_sym _ q). cbv zeta.
    destruct (String.eqb q "free_energy()"); [injection Hr as <-|destruct (String.eqb q "entropy()"); [injection Hr as <-|
      destruct (String.eqb q "force()"); [injection Hr as <-|discriminate]]];
      match goal with |- context [snd ?x] => destruct (snd x) end; reflexivity.
  Qed.

  Lemma job_run argv s j q m1 m2 m3 r fs : describes to_float argv s j q -> j_dT j <> 0 ->
    eval_mat (j_v1 j) = Ok (OneMat m1) -> eval_mat (j_v2 j) = Ok (OneMat m2) -> eval_mat (j_v3 j) = Ok (OneMat m3) ->
    quantity_run q (ops_of j m1 m2 m3) (object (thermo_of j) (Z.of_nat (j_nmax j))) = Some r ->
    match r with
    | Ok l => exists h, tells to_float argv s h /\ worker' argv s fs = (write fs (target fs (nth 2 argv ""%string)) (Opened (Some h) l), Done tt)
    | Err e => worker' argv s fs = (fs, Fails (Raised e))
    end.
  Proof.
    intros D HT E1 E2 E3 Hr. destruct (job_geometry _ _ _ _ _ _ _ D E1 E2 E3) as [z Hg].
    pose proof (job_calculation _ _ _ _ _ _ _ z _ D HT Hr) as Hc. destruct (job_header _ _ _ _ m1 m2 m3 z D) as [h Hh].
    assert (Hl : (List.length argv = 3 \/ List.length argv = 4)%nat) by apply D.
    unfold worker. assert ((Nat.eqb (List.length argv) 3 || Nat.eqb (List.length argv) 4)%bool = true) as ->.
    { destruct Hl as [-> | ->]; reflexivity. }
    rewrite Hg. cbn [then_]. rewrite Hc. destruct r as [l|e]; cbn [then_]; [|reflexivity].
    exists h. split; [eapply header_tells; eauto; lia|]. rewrite Hh. reflexivity.
  Qed.
End Whole.
