(** * Vocabulary for the proximity force approximation *)
From Coq Require Import Reals.
From Coquelicot Require Import Coquelicot.
From Coq Require Import List.
From Verif Require Import Base Mat_Model Scat_Model Scat_Spec PFA_Model.
Import ListNotations.
Open Scope R_scope.

(** wave number perpendicular to the plates, in a medium with index squared [n2] *)
Definition kz (n2 : R -> R) (q k : R) : R := sqrt (q ^ 2 + n2 k * k ^ 2).
(** [r q k] are the TE and TM reflection coefficients of a half space [m] in the medium [md] *)
Definition plate (m md : material) (r : R -> R -> R * R) : Prop :=
  (m = PEC /\ forall q k, r q k = (-1, 1)) \/
  (exists e u eM uM, has m e u /\ has md eM uM /\ forall q k, r q k = fresnel1 (e k) (u k) (eM k) (uM k) q k).
(** ln(1 - r1 r2 exp(-2 kz L)) *)
Definition ln_loop (r1 r2 kz L : R) : R := ln (1 - r1 * r2 * exp (-2 * kz * L)).
(** the two plates exchanged *)
Definition exchanged (p : pfa) : pfa := {| p_mat1 := p_mat2 p; p_mat2 := p_mat1 p; p_md := p_md p |}.

(** sphere of radius [r] with centre [c] on the axis: point at height [z], distance [rho] from the axis *)
Definition on_sphere (c r rho z : R) : Prop := rho ^ 2 + (z - c) ^ 2 = r ^ 2.

(** the Matsubara sum with weight one half (or zero) for the first term *)
Definition primed_sum (w0 : R) (I : R -> R) (k0 T : R) (n : nat) : R := T * (w0 * I k0 + sum_f_R0 (fun i => if Nat.eqb i 0 then 0 else I (INR i * T)) n).
