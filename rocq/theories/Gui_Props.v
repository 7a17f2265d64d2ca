(** * Property C84: the window of textbox_get_example.py *)
From Coq Require Import Bool Reals String List Lia Lra Psatz.
From Verif Require Import Base Gui_Model Gui_Spec.
Import ListNotations.
Open Scope R_scope.

Lemma ratio_unit a b : 0 <= a -> 0 < b -> a <= b -> 0 <= a / b <= 1.
Proof.
  intros Ha Hb H. assert (E : a / b * b = a) by (field; lra). split; [|nra].
  unfold Rdiv. apply Rmult_le_pos; [assumption|]. left. now apply Rinv_0_lt_compat.
Qed.

Lemma shrink c t : 0 <= c -> 0 <= t <= 1 -> c * (t * t) <= c.
Proof. intros Hc Ht. assert (t * t <= 1) by nra. nra. Qed.

Lemma leg a b c : 0 <= c -> a * a + b * b <= c * c -> - c <= a <= c.
Proof. intros Hc H. split; apply Rnot_lt_le; intros G; nra. Qed.

Section Statements.
  Context (to_float : string -> option R) (height : R).
  Notation retrieve := (retrieve_input to_float height).

  (** Three numbers, radii positive: no error, the label says "worked", and the picture is a true-to-scale drawing with 50 pixels
      for the larger radius: two circles at half the height of the canvas, the smaller one beginning 10 pixels from the left. *)
  Theorem C84_drawing : forall r1 r2 d a b l w, to_float r1 = Some a -> to_float r2 = Some b -> to_float d = Some l -> 0 < a -> 0 < b ->
    exists w' scale xs xg, retrieve r1 r2 d w = (w', Ok tt) /\ labels w' = labels w ++ ["worked"%string] /\
      0 < scale /\ scale * Rmax a b = 50 /\
      circle (sphereS w') xs (height / 2) (scale * Rmin a b) /\ circle (sphereG w') xg (height / 2) (scale * Rmax a b) /\
      xg - xs = scale * l /\ x_0 (sphereS w') = 10.
  Proof.
    intros r1 r2 d a b l w E1 E2 E3 Ha Hb. unfold retrieve_input. rewrite E1, E2, E3. cbv zeta.
    assert (S : (if Rltb b a then b else a) = Rmin a b) by (unfold Rmin; destruct (Rltb_spec b a), (Rle_dec a b); lra).
    assert (G : (if Rltb b a then a else b) = Rmax a b) by (unfold Rmax; destruct (Rltb_spec b a), (Rle_dec a b); lra).
    rewrite S, G. assert (M : 0 < Rmax a b) by (apply Rlt_le_trans with a; [assumption|apply Rmax_l]).
    destruct (Reqb_spec (Rmax a b) 0); [lra|].
    exists (fst (retrieve_input to_float height r1 r2 d w)), (50 / Rmax a b), (10 + Rmin a b / Rmax a b * 50), (10 + Rmin a b / Rmax a b * 50 + l / Rmax a b * 50).
    unfold retrieve_input. rewrite E1, E2, E3. cbv zeta. rewrite S, G. destruct (Reqb_spec (Rmax a b) 0); [lra|]. cbn [fst labels sphereS sphereG].
    split; [reflexivity|]. split; [reflexivity|]. split; [apply Rdiv_lt_0_compat; lra|]. split; [field; lra|].
    unfold circle. cbn [x_0 x_1 y_0 y_1]. repeat split; field; lra.
  Qed.

  (** The drawing shows the geometry: the discs are disjoint exactly for L > ra + rb, the smaller one lies inside the larger one
      exactly for L <= |ra - rb| (distance 0 or more). *)
  Theorem C84_geometry : forall r1 r2 d a b l w w' xs ys rs xg yg rg, to_float r1 = Some a -> to_float r2 = Some b -> to_float d = Some l ->
    0 < a -> 0 < b -> 0 <= l -> retrieve r1 r2 d w = (w', Ok tt) -> circle (sphereS w') xs ys rs -> circle (sphereG w') xg yg rg ->
    ((forall x y, in_disc xs ys rs x y -> in_disc xg yg rg x y -> False) <-> a + b < l) /\
    ((forall x y, in_disc xs ys rs x y -> in_disc xg yg rg x y) <-> l <= Rabs (a - b)).
  Proof.
    intros r1 r2 d a b l w w' xs ys rs xg yg rg E1 E2 E3 Ha Hb Hl R CS CG.
    destruct (C84_drawing r1 r2 d a b l w E1 E2 E3 Ha Hb) as (w2 & k & xs' & xg' & R' & _ & Hk & Hk' & CS' & CG' & HD & _).
    rewrite R' in R. injection R as ->.
    destruct CS as (A1 & A2 & A3 & A4), CS' as (B1 & B2 & B3 & B4), CG as (C1 & C2 & C3 & C4), CG' as (D1 & D2 & D3 & D4).
    assert (xs = xs' /\ rs = k * Rmin a b /\ ys = height / 2 /\ xg = xg' /\ rg = k * Rmax a b /\ yg = height / 2) as (-> & -> & -> & -> & -> & ->) by (repeat split; lra).
    clear - Ha Hb Hl Hk HD. set (p := Rmin a b) in *. set (q := Rmax a b) in *.
    assert (P : 0 < p) by (unfold p, Rmin; destruct (Rle_dec a b); lra).
    assert (Q : p <= q) by (unfold p, q, Rmin, Rmax; destruct (Rle_dec a b); lra).
    assert (PQ : p + q = a + b) by (unfold p, q, Rmin, Rmax; destruct (Rle_dec a b); lra).
    assert (QP : q - p = Rabs (a - b)) by (unfold p, q, Rmin, Rmax, Rabs; destruct (Rle_dec a b), (Rcase_abs (a - b)); lra).
    rewrite <- PQ, <- QP. assert (Eg : xg' = xs' + k * l) by lra. subst xg'. clear HD PQ QP. unfold in_disc. split; split.
    - intros N. destruct (Rlt_le_dec (p + q) l) as [|G]; [assumption|]. exfalso.
      apply (N (xs' + k * (l * (p / (p + q)))) (height / 2)).
      + replace ((xs' + k * (l * (p / (p + q))) - xs') * (xs' + k * (l * (p / (p + q))) - xs') + (height / 2 - height / 2) * (height / 2 - height / 2))
          with ((k * p) * (k * p) * ((l / (p + q)) * (l / (p + q)))) by (field; lra).
        pose proof (ratio_unit l (p + q) ltac:(lra) ltac:(lra) G). apply shrink; [nra|assumption].
      + replace ((xs' + k * (l * (p / (p + q))) - (xs' + k * l)) * (xs' + k * (l * (p / (p + q))) - (xs' + k * l)) + (height / 2 - height / 2) * (height / 2 - height / 2))
          with ((k * q) * (k * q) * ((l / (p + q)) * (l / (p + q)))) by (field; lra).
        pose proof (ratio_unit l (p + q) ltac:(lra) ltac:(lra) G). apply shrink; [nra|assumption].
    - intros G x y H1 H2.
      pose proof (leg _ _ (k * p) ltac:(nra) H1) as U.
      pose proof (leg _ _ (k * q) ltac:(nra) H2) as V.
      assert (k * (p + q) < k * l) by (apply Rmult_lt_compat_l; lra).
      nra.
    - intros N. specialize (N (xs' - k * p) (height / 2)). 
      assert (I : (xs' - k * p - (xs' + k * l)) * (xs' - k * p - (xs' + k * l)) + (height / 2 - height / 2) * (height / 2 - height / 2) <= k * q * (k * q)) by (apply N; nra).
      replace ((xs' - k * p - (xs' + k * l)) * (xs' - k * p - (xs' + k * l)) + (height / 2 - height / 2) * (height / 2 - height / 2)) with (k * k * ((p + l) * (p + l))) in I by ring.
      destruct (Rle_lt_dec l (q - p)) as [|G]; [assumption|exfalso].
      assert (q * q < (p + l) * (p + l)) by nra. assert (0 < k * k) by nra. nra.
    - intros G x y H1.
      (* |z - g| <= |z - s| + k l <= k p + k (q - p) *)
      pose proof (leg _ _ (k * p) ltac:(nra) H1) as U.
      set (u := x - xs') in *. set (v := y - height / 2) in *. replace (x - (xs' + k * l)) with (u - k * l) by (unfold u; ring).
      assert (K : 0 <= k * l) by nra. assert (KL : k * l <= k * (q - p)) by nra.
      assert (u * u + v * v <= k * p * (k * p)) by exact H1.
      assert (- 2 * u * (k * l) <= 2 * (k * p) * (k * l)) by nra.
      assert ((u - k * l) * (u - k * l) + v * v <= (k * p + k * l) * (k * p + k * l)) by nra.
      assert (k * p + k * l <= k * q) by nra. assert (0 <= k * p + k * l) by nra. nra.
  Qed.

  (** Errors: wrong text in one of the entries, or 0 as larger radius.  The picture stays as it was, a label is added nevertheless. *)
  Theorem C84_errors : forall r1 r2 d w w' r, retrieve r1 r2 d w = (w', r) ->
    (to_float r1 = None \/ to_float r2 = None -> r = Err UnboundLocalError) /\
    (forall a b, to_float r1 = Some a -> to_float r2 = Some b ->
       (Rmax a b = 0 -> r = Err ZeroDivisionError) /\ (Rmax a b <> 0 -> to_float d = None -> r = Err UnboundLocalError) /\
       (Rmax a b <> 0 -> to_float d <> None -> r = Ok tt)) /\
    (r <> Ok tt -> sphereS w' = sphereS w /\ sphereG w' = sphereG w) /\ exists t, labels w' = labels w ++ [t].
  Proof.
    intros r1 r2 d w w' r H. unfold retrieve_input in H. cbv zeta in H.
    destruct (to_float r1) as [a|], (to_float r2) as [b|];
      try (injection H as <- <-; split; [reflexivity|]; split; [discriminate|]; split; [auto|]; eexists; reflexivity).
    - assert (G : (if Rltb b a then a else b) = Rmax a b) by (unfold Rmax; destruct (Rltb_spec b a), (Rle_dec a b); lra).
      rewrite G in H. destruct (Reqb_spec (Rmax a b) 0) as [Z|Z].
      + injection H as <- <-. split; [intros [?|?]; discriminate|]. split; [|split; [auto|eexists; reflexivity]].
        intros a' b' Ea Eb. injection Ea as <-. injection Eb as <-. split; [auto|]. split; contradiction.
      + destruct (to_float d) as [l|]; injection H as <- <-.
        * split; [intros [?|?]; discriminate|]. split; [|split; [congruence|eexists; reflexivity]].
          intros a' b' Ea Eb. injection Ea as <-. injection Eb as <-. split; [contradiction|]. split; [discriminate|auto].
        * split; [intros [?|?]; discriminate|]. split; [|split; [auto|eexists; reflexivity]].
          intros a' b' Ea Eb. injection Ea as <-. injection Eb as <-. split; [contradiction|]. split; [auto|congruence].
  Qed.

  (** The label does not tell the truth: with a wrong first radius it says "worked" although nothing is drawn; with both a wrong
      second radius and a wrong distance only the distance is named. *)
  Theorem C84_status_refuted :
    (forall r1 r2 d b l w, to_float r1 = None -> to_float r2 = Some b -> to_float d = Some l ->
       exists w', retrieve r1 r2 d w = (w', Err UnboundLocalError) /\ labels w' = labels w ++ ["worked"%string] /\
         sphereS w' = sphereS w /\ sphereG w' = sphereG w) /\
    (forall r1 r2 d w, to_float r2 = None -> to_float d = None -> labels (fst (retrieve r1 r2 d w)) = labels w ++ ["invalid variable: distance"%string]).
  Proof.
    split.
    - intros r1 r2 d b l w E1 E2 E3. unfold retrieve_input. rewrite E1, E2, E3. eexists. split; [reflexivity|]. cbn. auto.
    - intros r1 r2 d w E2 E3. unfold retrieve_input. rewrite E2, E3. destruct (to_float r1); reflexivity.
  Qed.

  (** The message is about the distance if that is not a number, else about the second radius if that is not a number, else "worked". *)
  Theorem C84_message : forall r1 r2 d w, exists t : string, labels (fst (retrieve r1 r2 d w)) = labels w ++ [t] /\
    (to_float d = None -> t = "invalid variable: distance"%string) /\
    (forall l, to_float d = Some l -> to_float r2 = None -> t = "invalid variable: Radius 2"%string) /\
    (forall l b, to_float d = Some l -> to_float r2 = Some b -> t = "worked"%string).
  Proof.
    intros r1 r2 d w. unfold retrieve_input. exists (status (to_float r2) (to_float d)). split.
    - destruct (to_float r1) as [x|], (to_float r2) as [y|], (to_float d) as [z|]; try reflexivity;
      destruct (Rltb y x); match goal with |- context [Reqb ?a 0] => destruct (Reqb a 0) end; reflexivity.
    - split; [|split]; intros; repeat match goal with H : to_float _ = _ |- _ => rewrite H; clear H end; reflexivity.
  Qed.

  (** Every press adds a label and none is ever removed. *)
  Theorem C84_labels : forall l w, List.length (labels (presses to_float height l w)) = (List.length (labels w) + List.length l)%nat.
  Proof.
    intros l. induction l as [|[[r1 r2] d] l IH]; intros w; cbn [presses fold_left List.length]; [lia|].
    unfold presses in IH. rewrite IH. unfold press. destruct (retrieve r1 r2 d w) as [w' r] eqn:E.
    destruct (C84_errors _ _ _ _ _ _ E) as (_ & _ & _ & t & L). cbn [fst]. rewrite L, app_length. cbn. lia.
  Qed.

  (** The drawing leaves the canvas of 300 pixels on the right for large distances, on the left for enclosed spheres near the centre. *)
  Theorem C84_cut_off_refuted : forall r1 r2 d a b l w w', to_float r1 = Some a -> to_float r2 = Some b -> to_float d = Some l ->
    0 < a -> 0 < b -> retrieve r1 r2 d w = (w', Ok tt) ->
    (300 < x_1 (sphereG w') <-> 24 / 5 * Rmax a b < Rmin a b + l) /\ (x_0 (sphereG w') < 0 <-> Rmin a b + l < 4 / 5 * Rmax a b).
  Proof.
    intros r1 r2 d a b l w w' E1 E2 E3 Ha Hb R.
    destruct (C84_drawing r1 r2 d a b l w E1 E2 E3 Ha Hb) as (w2 & k & xs & xg & R' & _ & Hk & Hk' & (A1 & A2 & _) & (B1 & B2 & _) & HD & HX).
    rewrite R' in R. injection R as ->. rewrite B2, B1. rewrite HX in A1. set (p := Rmin a b) in *. set (q := Rmax a b) in *.
    assert (E : xg = 10 + k * (p + l)) by lra. rewrite E, Hk'. split; split; intros H; nra.
  Qed.
End Statements.
Print Assumptions C84_drawing.
Print Assumptions C84_geometry.
Print Assumptions C84_errors.
Print Assumptions C84_status_refuted.
Print Assumptions C84_message.
Print Assumptions C84_labels.
Print Assumptions C84_cut_off_refuted.

(** two equal spheres that touch: both circles have radius 50, the picture is 10 to 210 pixels *)
Example C84_touching : let f := fun s => if String.eqb s "2" then Some 2 else if String.eqb s "4" then Some 4 else None in
  let b := {| x_0 := 0; y_0 := 0; x_1 := 0; y_1 := 0 |} in
  exists w', retrieve_input f 200 "2" "2" "4" {| labels := []; sphereS := b; sphereG := b |} = (w', Ok tt) /\
    x_0 (sphereS w') = 10 /\ x_1 (sphereS w') = 110 /\ x_0 (sphereG w') = 110 /\ x_1 (sphereG w') = 210.
Proof.
  cbv zeta. unfold retrieve_input. cbn [String.eqb Ascii.eqb Bool.eqb]. destruct (Rltb_spec 2 2); [lra|]. destruct (Reqb_spec 2 0); [lra|].
  eexists. split; [reflexivity|]. cbn [sphereS sphereG x_0 x_1]. repeat split; lra.
Qed.
