(** * Properties C43, C49, C50, C51, C53 *)
From Coq Require Import Bool Reals ZArith String List Lia Lra Sorted.
From Verif Require Import Base Misc_Model Misc_Spec Misc_Proofs.
Import ListNotations.
Open Scope R_scope.

(** ** C43: stratified_sphere_scattering.py, mie_stratified *)

(** The caller's lists after the call are exactly the prefixes in which the run of equal materials at
    the outside is cut down to one (at least two materials stay), and the value is that of the
    remaining shells. *)
Theorem C43_lists_after_call :
  forall {X : Type} (mie : nat -> nat -> R -> res X) (coat : R -> R -> nat -> nat -> X -> X) mats rs inner,
  List.length mats = S (List.length rs) -> starts mie mats rs inner ->
  exists n, (2 <= n <= List.length mats)%nat /\
    (forall i, (n - 1 <= i < List.length mats)%nat -> nth i mats 0%nat = nth (n - 1) mats 0%nat) /\
    (n = 2%nat \/ nth (n - 2) mats 0%nat <> nth (n - 1) mats 0%nat) /\
    mie_strat mie (fun ri ra m2 m3 x => Ok (coat ri ra m2 m3 x)) mats rs =
      ((firstn n mats, firstn (n - 1) rs),
       Ok (shells coat (firstn (n - 1) rs) (firstn n mats) inner)).
Proof.
  intros X mie coat mats rs inner Hl Hs.
  destruct (strat_final mie (fun ri ra m2 m3 x => Ok (coat ri ra m2 m3 x)) mats rs inner Hl Hs)
    as (n & Hn & _ & H1 & H2 & E).
  exists n. split; [exact Hn|]. split; [exact H1|]. split; [exact H2|]. rewrite E. f_equal.
  destruct Hs as (m0 & m1 & r0 & mats' & rs' & -> & -> & _).
  destruct n as [|[|n]]; try lia. replace (S (S n) - 1)%nat with (S n) by lia. cbn [firstn tl hd].
  rewrite coat_loop_shells.
  - f_equal. unfold shells. cbn [List.length]. replace (S (List.length (firstn n rs')) - 1)%nat with (List.length (firstn n rs')) by lia.
    generalize inner as x.
    assert (G : forall l x, (forall i, In i l -> (1 <= i)%nat) ->
      fold_left (fun x i => coat (nth (i - 1) (r0 :: firstn n rs') 0) (nth i (r0 :: firstn n rs') 0)
         (nth i (0%nat :: m1 :: firstn n mats') 0%nat) (nth (S i) (0%nat :: m1 :: firstn n mats') 0%nat) x) l x =
      fold_left (fun x i => coat (nth (i - 1) (r0 :: firstn n rs') 0) (nth i (r0 :: firstn n rs') 0)
         (nth i (m0 :: m1 :: firstn n mats') 0%nat) (nth (S i) (m0 :: m1 :: firstn n mats') 0%nat) x) l x).
    { induction l as [|i l IH]; intros x Hi; [reflexivity|]. cbn [fold_left]. rewrite IH by (intros; apply Hi; now right).
      pose proof (Hi i (or_introl eq_refl)). destruct i as [|i]; [lia|]. reflexivity. }
    intros x. apply G. intros i Hi. apply in_seq in Hi. lia.
  - cbn [List.length] in *. rewrite !firstn_length. lia.
Qed.
Print Assumptions C43_lists_after_call.

(** the lists stay unchanged exactly if there are only two materials or the last two differ *)
Theorem C43_unchanged_iff :
  forall {X : Type} (mie : nat -> nat -> R -> res X) mie_coated mats rs inner,
  List.length mats = S (List.length rs) -> starts mie mats rs inner ->
  (fst (mie_strat mie mie_coated mats rs) = (mats, rs) <->
   (List.length mats = 2%nat \/ last mats 0%nat <> last (removelast mats) 0%nat)).
Proof. exact @strat_unchanged. Qed.
Print Assumptions C43_unchanged_iff.

(** a second evaluation on the modified lists changes nothing any more and gives the same result *)
Theorem C43_second_call :
  forall {X : Type} (mie : nat -> nat -> R -> res X) mie_coated mats rs inner,
  List.length mats = S (List.length rs) -> starts mie mats rs inner ->
  let (st, v) := mie_strat mie mie_coated mats rs in
  mie_strat mie mie_coated (fst st) (snd st) = (st, v).
Proof. exact @strat_again. Qed.
Print Assumptions C43_second_call.

(** the defect: a sphere with an outermost shell of the medium's material *)
Theorem C43_lists_modified_refuted :
  forall {X : Type} (mie : nat -> nat -> R -> res X) mie_coated inner,
  mie 1%nat 2%nat 1 = Ok inner ->
  mie_strat mie mie_coated [1; 2; 2]%nat [1; 3] = (([1; 2]%nat, [1]), Ok inner).
Proof. intros X mie mc inner H. unfold mie_strat. cbn. rewrite H. reflexivity. Qed.
Print Assumptions C43_lists_modified_refuted.

Example C43_case : let mie := fun m0 m1 r => Ok (INR m0 + INR m1 + r) in
  let coat := fun ri ra m2 m3 x => Ok (x + ra - ri) in
  mie_strat mie coat [1; 2; 3; 4; 4; 4]%nat [1; 2; 3; 4; 5] =
  (([1; 2; 3; 4]%nat, [1; 2; 3]), Ok (INR 1 + INR 2 + 1 + 2 - 1 + 3 - 2)).
Proof. reflexivity. Qed.
Example C43_starts : starts (fun m0 m1 r => Ok (INR m0 + INR m1 + r)) [1; 2; 3; 4; 4; 4]%nat [1; 2; 3; 4; 5] (INR 1 + INR 2 + 1).
Proof. exists 1%nat, 2%nat, 1. do 2 eexists. repeat split. Qed.

(** ** C49: data_inter_extrapolation.py, get_drude_data *)

(** For a strictly ascending grid that overlaps the data there is one value per frequency, in order:
    the linear interpolation strictly inside the data range, the fitted Drude law elsewhere. *)
Theorem C49_grid_kept :
  forall xdata ydata wp gamma, List.length ydata = List.length xdata -> StronglySorted Rlt xdata ->
  (2 <= List.length xdata)%nat ->
  forall om, StronglySorted Rlt om -> List.length om <> 1%nat ->
  (exists w, In w om /\ hd 0 xdata < w) -> (exists w, In w om /\ w < last xdata 0) ->
  (forall w, In w om -> w * (w + gamma) <> 0) ->
  exists data, get_drude_data xdata ydata wp gamma om = Ok (map Fin data) /\
    Forall2 (value_at xdata ydata (hd 0 xdata) (last xdata 0) wp gamma) om data.
Proof. exact drude_data. Qed.
Print Assumptions C49_grid_kept.

(** interpolated values stay between the smallest and the largest data value *)
Theorem C49_interpolation_bounds :
  forall xs ys x y lo hi, StronglySorted Rlt xs -> List.length ys = List.length xs ->
  (forall v, In v ys -> lo <= v <= hi) -> on_polyline xs ys x y -> lo <= y <= hi.
Proof. exact polyline_between. Qed.
Print Assumptions C49_interpolation_bounds.

(** a grid completely on one side of the data cannot be evaluated *)
Theorem C49_no_overlap :
  forall xdata ydata wp gamma, (2 <= List.length xdata)%nat ->
  forall om, List.length om <> 1%nat ->
  ((forall w, In w om -> w <= hd 0 xdata) \/ (forall w, In w om -> last xdata 0 <= w)) ->
  get_drude_data xdata ydata wp gamma om = Err IndexError.
Proof. intros xdata ydata wp gamma H. exact (drude_data_fail xdata ydata wp gamma H). Qed.
Print Assumptions C49_no_overlap.

(** defect: one-element requests ignore data and fit *)
Theorem C49_single_frequency_refuted :
  forall xdata ydata wp gamma xdata' ydata' wp' gamma' w,
  get_drude_data xdata ydata wp gamma [w] = get_drude_data xdata' ydata' wp' gamma' [w] /\
  (0 < w -> get_drude_data xdata ydata wp gamma [w] = Ok [Fin (drude (1.4e16 / 3e14) (5.3e13 / 3e14) w)]).
Proof.
  intros. split; [reflexivity|]. intros Hw. cbn [get_drude_data]. rewrite drude_ok; [reflexivity|].
  apply Rgt_not_eq. apply Rmult_lt_0_compat; lra.
Qed.
Print Assumptions C49_single_frequency_refuted.

(** defect: for a descending grid even the number of values is wrong *)
Theorem C49_descending_refuted :
  exists om data, List.length om = 3%nat /\ get_drude_data [1; 2] [5; 7] 1 1 om = Ok data /\ List.length data = 4%nat.
Proof.
  exists [3; 3/2; 1/2]. eexists.
  assert (Ei : interpolate [1; 2] [5; 7] [3; 3/2; 1/2] = Ok ([], (3, 1/2))).
  { unfold interpolate. cbn [first_of last_of bind filter].
    repeat match goal with |- context [Rltb ?a ?b] => destruct (Rltb_spec a b); try lra end.
    cbn [first_of last_of bind filter].
    repeat match goal with |- context [Rleb ?a ?b] => destruct (Rleb_spec a b); try lra end.
    reflexivity. }
  split; [reflexivity|]. split.
  - cbn [get_drude_data]. rewrite Ei. cbn [bind filter].
    repeat match goal with |- context [Rltb ?a ?b] => destruct (Rltb_spec a b); try lra end. reflexivity.
  - reflexivity.
Qed.
Print Assumptions C49_descending_refuted.

Example C49_case : StronglySorted Rlt [1; 2; 4] /\ StronglySorted Rlt [1/2; 3/2; 3; 5] /\
  (exists w, In w [1/2; 3/2; 3; 5] /\ hd 0 [1; 2; 4] < w) /\ (exists w, In w [1/2; 3/2; 3; 5] /\ w < last [1; 2; 4] 0) /\
  on_polyline [1; 2; 4] [9; 5; 1] 3 3.
Proof.
  repeat split; try (repeat constructor; lra).
  - exists 3. cbn. split; [tauto|lra].
  - exists 3. cbn. split; [tauto|lra].
  - exists 1%nat. cbn. split; [lia|]. split; [lra|field].
Qed.

(** ** C50: worker.py, save_result *)
Theorem C50_fresh_file : forall {data : Type} (fs : @fsys data) f d, fs f = None ->
  save_result fs f d f = Some d /\ forall g, g <> f -> save_result fs f d g = fs g.
Proof. exact @save_fresh. Qed.
Print Assumptions C50_fresh_file.

Theorem C50_existing_file_kept : forall {data : Type} (fs : @fsys data) f d0 d, fs f = Some d0 ->
  save_result fs f d f = Some d0 /\ save_result fs f d (f ++ "1")%string = Some d /\
  forall g, g <> (f ++ "1")%string -> save_result fs f d g = fs g.
Proof. exact @save_existing. Qed.
Print Assumptions C50_existing_file_kept.

(** after any number (>= 2) of runs with the same output name only the first and the last result exist *)
Theorem C50_history_refuted : forall {data : Type} f d1 ds d (fs : @fsys data), fs f = None ->
  let fs' := fold_left (fun s x => save_result s f x) (d1 :: ds ++ [d]) fs in
  fs' f = Some d1 /\ fs' (f ++ "1")%string = Some d /\
  (forall g, g <> f -> g <> (f ++ "1")%string -> fs' g = fs g).
Proof. exact @save_history. Qed.
Print Assumptions C50_history_refuted.

Example C50_case : let fs' := fold_left (fun s x => save_result s "out" x) [1; 2; 3]%nat (fun _ => None) in
  fs' "out"%string = Some 1%nat /\ fs' "out1"%string = Some 3%nat /\ fs' "out11"%string = None.
Proof. repeat split. Qed.

(** ** C51: materials_converter.py, transform *)
Theorem C51_transform : forall params h, NoDup params -> (forall a, In a params -> convertible (h a)) ->
  exists h', transform h params = (h', Ok params) /\
    (forall a, In a params -> h' a = converted (h a)) /\
    (forall a, ~ In a params -> h' a = h a).
Proof. exact transform_spec. Qed.
Print Assumptions C51_transform.

(** defect: the caller's inner lists are overwritten, unless both numbers are zero; so a second
    conversion of the same parameters converts twice *)
Theorem C51_argument_modified_refuted : forall params h a f E rest,
  NoDup params -> (forall b, In b params -> convertible (h b)) -> In a params ->
  h a = f :: E :: rest -> 0 < E -> fst (transform h params) a <> h a.
Proof.
  intros params h a f E rest Hd Hc Ha Hh HE. destruct (transform_spec params h Hd Hc) as (h' & Et & H1 & _).
  rewrite Et. cbn [fst]. rewrite (H1 a Ha). intros Hf.
  apply (converted_fix (h a) (Hc a Ha)) in Hf. destruct Hf as (r & [Hf|(f' & Hf & _)]); rewrite Hh in Hf;
    injection Hf as _ HE0 _; lra.
Qed.
Print Assumptions C51_argument_modified_refuted.

(** a negative strength stops the conversion half way: everything before it is already converted *)
Theorem C51_failure_half_way : forall h params1 a params2 f E rest,
  NoDup (params1 ++ a :: params2) -> (forall b, In b params1 -> convertible (h b)) ->
  h a = f :: E :: rest -> f < 0 -> E <> 0 ->
  exists h', transform h (params1 ++ a :: params2) = (h', Err ValueError) /\
    (forall b, In b params1 -> h' b = converted (h b)) /\
    (forall b, ~ In b params1 -> h' b = h b).
Proof. exact transform_failure. Qed.
Print Assumptions C51_failure_half_way.

Example C51_case : let h := fun a => match a with O => [7.84e-1; 4.11e-2] | S O => [2.03e-1; 1.12e-1] | _ => [] end in
  NoDup [0; 1]%nat /\ forall a, In a [0; 1]%nat -> convertible (h a).
Proof.
  split.
  - repeat constructor; cbn; intuition lia.
  - intros a [<-|[<-|[]]]; do 3 eexists; (split; [reflexivity|lra]).
Qed.

(** ** C53: worker.py, configuration *)
Theorem C53_accepted_iff : forall c arg3,
  (exists g, return_geometry c arg3 = Ok g) <->
  is_radius (c "geometry" "ra")%string /\ is_radius (c "geometry" "rb")%string /\
  match arg3 with Some x => exists L, x = Ok L | None => is_number (c "geometry" "d")%string end /\
  is_number (c "geometry" "precision")%string /\
  c "geometry"%string "lmax"%string <> None /\ c "geometry"%string "lssmax"%string <> None /\
  match c "geometry" "l_offset" with
  | Some (CInt _) => True
  | None => c "geometry" "lmax" <> Some CAuto
  | _ => False
  end%string.
Proof. exact return_geometry_iff. Qed.
Print Assumptions C53_accepted_iff.

Theorem C53_values : forall c arg3 g, return_geometry c arg3 = Ok g ->
  (c "geometry" "l_offset" = None -> g_offset g = 0%Z)%string /\
  (forall z, c "geometry" "l_offset" = Some (CInt z) -> g_offset g = z)%string /\
  (forall z, c "geometry" "lmax" = Some (CInt z) -> g_lmax g = AInteger z)%string /\
  (forall r, c "geometry" "precision" = Some (CFloat r) -> g_precision g = r)%string /\
  (forall L, arg3 = Some (Ok L) -> g_L g = L) /\
  (c "geometry" "evaluation" = None -> g_eval g = CStr "lndet")%string /\
  (forall v, c "geometry" "evaluation" = Some v -> g_eval g = v)%string.
Proof. exact return_geometry_values. Qed.
Print Assumptions C53_values.

(** a radius that is neither a number nor a list of numbers: TypeError; a missing one: NoOptionError *)
Theorem C53_bad_radius : forall c arg3 v,
  (c "geometry" "ra" = Some v -> ~ is_radius (c "geometry" "ra") -> return_geometry c arg3 = Err TypeError)%string /\
  (is_radius (c "geometry" "ra") -> c "geometry" "rb" = Some v -> ~ is_radius (c "geometry" "rb") -> return_geometry c arg3 = Err TypeError)%string /\
  (c "geometry" "ra" = None -> return_geometry c arg3 = Err NoOptionError)%string /\
  (is_radius (c "geometry" "ra") -> c "geometry" "rb" = None -> return_geometry c arg3 = Err NoOptionError)%string.
Proof.
  intros c arg3 v. unfold return_geometry.
  assert (B : forall o w, (c "geometry" o = Some w -> ~ is_radius (c "geometry" o) -> assign_radius c o = Err TypeError)%string).
  { intros o w E H. unfold assign_radius, getfloat, cget. rewrite E in *. destruct w; cbn in *; try reflexivity; exfalso; now apply H. }
  assert (N : forall o, (c "geometry" o = None -> assign_radius c o = Err NoOptionError)%string).
  { intros o E. unfold assign_radius, getfloat, cget. now rewrite E. }
  assert (G : forall o, is_radius (c "geometry" o)%string -> exists r, assign_radius c o = Ok r).
  { intros o H. unfold assign_radius, getfloat, cget. destruct (c "geometry" o)%string as [[]|]; cbn in *; try contradiction; eauto. }
  repeat split.
  - intros E H. now rewrite (B _ _ E H).
  - intros H E H'. destruct (G _ H) as [r ->]. cbn [bind]. now rewrite (B _ _ E H').
  - intros E. now rewrite (N _ E).
  - intros H E. destruct (G _ H) as [r ->]. cbn [bind]. now rewrite (N _ E).
Qed.
Print Assumptions C53_bad_radius.

(** defect: precision = automatic, which the message in the code announces as valid, crashes *)
Theorem C53_precision_automatic_refuted : forall c arg3,
  is_radius (c "geometry" "ra")%string -> is_radius (c "geometry" "rb")%string ->
  match arg3 with Some x => exists L, x = Ok L | None => is_number (c "geometry" "d")%string end ->
  c "geometry"%string "precision"%string = Some CAuto ->
  return_geometry c arg3 = Err UnboundLocalError.
Proof.
  intros c arg3 A B C D. apply return_geometry_precision; auto; rewrite D; [intros []|discriminate].
Qed.
Print Assumptions C53_precision_automatic_refuted.

(** defect: the option analytic_n0 must be present but its value has no effect *)
Theorem C53_analytic_n0_ignored_refuted : forall c g v v',
  do_calculation (with_option c "geometry" "analytic_n0" (Some v)) g =
  do_calculation (with_option c "geometry" "analytic_n0" (Some v')) g.
Proof. exact do_calculation_ignores. Qed.
Print Assumptions C53_analytic_n0_ignored_refuted.

Theorem C53_analytic_n0 : forall c g t, do_calculation c g = Ok t ->
  c "geometry"%string "analytic_n0"%string <> None /\
  (t_n0 t = true <-> (exists x, g_r1 g = RFloat x) /\ (exists y, g_r2 g = RFloat y)).
Proof. exact do_calculation_n0. Qed.
Print Assumptions C53_analytic_n0.

Definition sample_config : config := fun s o =>
  if String.eqb s "geometry" then
    if String.eqb o "ra" then Some (CFloat 1) else if String.eqb o "rb" then Some (CList [1; 2])
    else if String.eqb o "d" then Some (CInt 5) else if String.eqb o "precision" then Some (CFloat (1/1000))
    else if String.eqb o "lmax" then Some CAuto else if String.eqb o "lssmax" then Some CAuto
    else if String.eqb o "l_offset" then Some (CInt 3) else None
  else None.
Example C53_case : exists g, return_geometry sample_config None = Ok g.
Proof. apply return_geometry_iff. cbn. repeat split; discriminate. Qed.
