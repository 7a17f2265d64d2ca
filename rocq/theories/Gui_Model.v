(** * Model of textbox_get_example.py: the callback of the button *)
From Coq Require Import Reals String List.
From Verif Require Import Base.
Import ListNotations.
Open Scope R_scope.

(** bounding box of an oval, in the order given to Canvas.coords *)
Record box := { x_0 : R; y_0 : R; x_1 : R; y_1 : R }.
(** the window: labels added below the others, the two ovals; colours never change (fill is "grey" from the beginning) *)
Record window := { labels : list string; sphereS : box; sphereG : box }.

Section Gui.
  (** float() of the text of an entry (None: ValueError; "nan" and "inf" are not considered); height of the canvas in pixels *)
  Context (to_float : string -> option R) (height : R).

  (** textbox_get_example.py:11-26: the variables and the text of the label; the join in line 17 has no effect *)
  Definition status (r2 d : option R) : string :=
    match d with
    | None => "invalid variable: distance"
    | Some _ => match r2 with None => "invalid variable: Radius 2" | Some _ => "worked" end
    end.

  (** lines 11-44; the label of line 27 is there also if the rest fails *)
  Definition retrieve_input (r1 r2 d : string) (w : window) : window * res unit :=
    let radius1 := to_float r1 in
    let radius2 := to_float r2 in
    let distance := to_float d in
    let w := {| labels := labels w ++ [status radius2 distance]; sphereS := sphereS w; sphereG := sphereG w |} in
    match radius1, radius2 with
    | Some a, Some b =>
        (* list.sort: exchanges only if the second is smaller *)
        let rS := if Rltb b a then b else a in
        let rG := if Rltb b a then a else b in
        let norm := 50 in
        if Reqb rG 0 then (w, Err ZeroDivisionError) else
        let r1_norm := rS / rG * norm in
        let r2_norm := norm in
        match distance with
        | None => (w, Err UnboundLocalError)
        | Some l =>
            let d_norm := l / rG * norm in
            let xoff := 10 in
            let center_y := height / 2 in
            ({| labels := labels w;
                sphereS := {| x_0 := xoff; y_0 := center_y + r1_norm; x_1 := 2 * r1_norm + xoff; y_1 := center_y - r1_norm |};
                sphereG := {| x_0 := xoff + r1_norm + d_norm - r2_norm; y_0 := center_y + r2_norm;
                              x_1 := xoff + r1_norm + d_norm + r2_norm; y_1 := center_y - r2_norm |} |}, Ok tt)
        end
    | _, _ => (w, Err UnboundLocalError)
    end.

  (** the button pressed again and again: tkinter reports exceptions and goes on *)
  Definition press (i : string * string * string) (w : window) : window := let '(r1, r2, d) := i in fst (retrieve_input r1 r2 d w).
  Definition presses (l : list (string * string * string)) (w : window) : window := fold_left (fun w i => press i w) l w.
End Gui.
