(** * Model of num_derivative(interpolate=True), CasimirRio/helper_functions.py:24-54 *)
From Coq Require Import Bool Reals List Lia.
From Verif Require Import Base Help_Model Misc_Model Scat_Model.
Import ListNotations.
Open Scope R_scope.

(** np.linspace(a, b, n + 1) *)
Definition linspace (a b : R) (n : nat) : list R :=
  map (fun j => a + INR j * ((b - a) / INR n)) (seq 0 (n + 1)).

(** np.sign *)
Definition sign (v : R) : R := if Rltb 0 v then 1 else if Rltb v 0 then -1 else 0.

(** np.min of a non-empty array *)
Definition arr_min (l : list R) : R := match l with [] => 0 | a :: r => fold_left Rmin r a end.

(** f_prime[::k] for k >= 1: the elements 0, k, 2k, ... *)
Fixpoint every_aux {A} (k skip : nat) (l : list A) : list A :=
  match l with
  | [] => []
  | a :: r => match skip with O => a :: every_aux k (k - 1) r | S s => every_aux k s r end
  end.
Definition every {A} (k : nat) (l : list A) : list A := every_aux k 0 l.

(** helper_functions.py:44-51, the difference quotients with step [h] *)
Definition differences (f : list R) (h : R) : res (list R) :=
  let i_max := (length f - 1)%nat in
  let fp := map (fun _ => 0) f in
  do fp <- deriv_loop f h (seq 2 (i_max - 1 - 2)) fp ;
  do d1 <- deriv2 f h 1 ;
  do d2 <- deriv2 f h (i_max - 1) ;
  do fp <- set fp 1 d1 ;
  do fp <- set fp (i_max - 1) d2 ;
  do f1 <- get f 1 ; do f0 <- get f 0 ;
  do e1 <- get f i_max ; do e0 <- get f (i_max - 1) ;
  do fp <- set fp 0 ((f1 - f0) / h) ;
  do fp <- set fp i_max ((e1 - e0) / h) ;
  Ok fp.

(** interp1d(np.log(x), np.log(g)) at np.log(xnew).  interp1d demands arrays of equal length.  Logarithms
    of non-positive numbers (numpy goes on with -inf and nan) and arrays x that interp1d would have to sort
    are outside of the model. *)
Fixpoint increasing (l : list R) : bool :=
  match l with a :: ((b :: _) as r) => Rltb a b && increasing r | _ => true end.
Definition log_interp (x g xnew : list R) : out (list R) :=
  if negb (forallb (Rltb 0) x && forallb (Rltb 0) g && increasing x) then Unmodelled else
  if negb (Nat.eqb (length x) (length g)) then Exc ValueError else
  of_res (map_res (interp1d (map ln x) (map ln g)) (map ln xnew)).

(** helper_functions.py:32-43; plt.loglog of line 42 only draws *)
Definition interpolated (f x : list R) (multiplier : nat) : out (list R) :=
  let xnew := linspace (nth 0 x 0) (last x 0) ((length x - 1) * multiplier) in
  match f with
  | [] => Exc IndexError                                     (* signf[0] *)
  | f0 :: _ =>
      let s := sign f0 in
      if forallb (fun v => Reqb s (sign v)) f then
        let! l := log_interp x (map Rabs f) xnew in
        Val (map (fun v => s * exp v) l)
      else
        let! l := log_interp x (map (fun v => v + Rabs (arr_min f) + 1) f) xnew in
        Val (map exp l)
  end.

(** helper_functions.py:24-54 with interpolate=True, multiplier >= 1 *)
Definition num_derivative_ip (f x : list R) (multiplier : nat) : out (list R) :=
  let! x1 := of_res (get x 1) in
  let! x0 := of_res (get x 0) in
  let h := x1 - x0 in
  if negb (Rltb 0 h) then Exc ValueError else
  let! g := interpolated f x multiplier in
  let! fp := of_res (differences g (h / INR multiplier)) in
  Val (every multiplier fp).
