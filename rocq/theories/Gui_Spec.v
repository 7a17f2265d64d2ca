(** * Specification vocabulary for textbox_get_example.py *)
From Coq Require Import Reals String List.
From Verif Require Import Gui_Model.
Open Scope R_scope.

(** the oval is the circle with this centre and radius *)
Definition circle (b : box) (x y r : R) : Prop := x_0 b = x - r /\ x_1 b = x + r /\ y_0 b = y + r /\ y_1 b = y - r.

(** a point of the closed disc *)
Definition in_disc (x y r px py : R) : Prop := (px - x) * (px - x) + (py - y) * (py - y) <= r * r.
