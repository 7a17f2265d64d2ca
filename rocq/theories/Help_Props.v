(** * Properties C32, C33: CasimirRio/helper_functions.py *)
From Coquelicot Require Import Coquelicot.
From Coq Require Import Bool Reals List ZArith Lia Lra Factorial.
From Verif Require Import Base Help_Model Help_Spec Help_Proofs.
Import ListNotations.
Open Scope R_scope.

(** C32 *)
Theorem C32_lfac : forall n, lfac n = ln (INR (fact n)).
Proof. exact lfac_spec. Qed.
Print Assumptions C32_lfac.

Theorem C32_ln_2dbl : forall n, 0 < odd_dfact n /\ ln_2dbl n = ln (odd_dfact n).
Proof. intros n. split; [apply odd_dfact_pos|apply ln_2dbl_spec]. Qed.
Print Assumptions C32_ln_2dbl.

Example C32_case : exp (lfac 4) = 24 /\ exp (ln_2dbl 4) = 105.
Proof.
  rewrite lfac_spec, ln_2dbl_spec. rewrite !exp_ln; cbn; lra.
Qed.

(** C33.  Complete description of the result: end points one-sided, next to them central, all others
    the five-point formula; the length is that of [f]. *)
Theorem C33_num_derivative : forall f x x0 x1 rest,
  x = x0 :: x1 :: rest -> x0 < x1 -> (3 <= length f)%nat ->
  let h := x1 - x0 in
  exists fp, num_derivative f x = Ok fp /\ length fp = length f /\
    forall i, (i < length f)%nat ->
      nth i fp 0 =
        if Nat.eqb i 0 then (nth 1 f 0 - nth 0 f 0) / h
        else if Nat.eqb i (length f - 1) then (nth i f 0 - nth (i - 1) f 0) / h
        else if Nat.eqb i 1 || Nat.eqb i (length f - 2) then st2 f h i
        else st5 f h i.
Proof. exact num_derivative_spec. Qed.
Print Assumptions C33_num_derivative.

(** Sampling a polynomial on an equidistant grid gives its derivative exactly, for degree <= 4 in the
    interior, <= 2 at the second and last but one, <= 1 at the end points. *)
Theorem C33_exact_on_polynomials : forall x0 h n p i,
  0 < h -> (3 <= n)%nat -> (i < n)%nat ->
  (length p <= (if Nat.eqb i 0 || Nat.eqb i (n - 1) then 2
                else if Nat.eqb i 1 || Nat.eqb i (n - 2) then 3 else 5))%nat ->
  exists fp, num_derivative (on_grid (peval p) x0 h n) (on_grid (fun x => x) x0 h n) = Ok fp /\
    length fp = n /\
    is_derive (peval p) (x0 + INR i * h) (nth i fp 0).
Proof.
  intros x0 h n p i Hh Hn Hi Hp. destruct (exact_poly x0 h Hh n Hn p i Hi Hp) as (fp & E & L & N).
  exists fp. rewrite N. split; [exact E|]. split; [exact L|]. apply pderiv_correct.
Qed.
Print Assumptions C33_exact_on_polynomials.

Theorem C33_linear : forall f g x a b, length f = length g ->
  forall fp gp, num_derivative f x = Ok fp -> num_derivative g x = Ok gp ->
  exists rp, num_derivative (map (fun p => a * fst p + b * snd p) (combine f g)) x = Ok rp /\
    length rp = length f /\
    forall i, (i < length f)%nat -> nth i rp 0 = a * nth i fp 0 + b * nth i gp 0.
Proof. exact num_derivative_linear. Qed.
Print Assumptions C33_linear.

Theorem C33_errors : forall f x,
  ((length x < 2)%nat -> num_derivative f x = Err IndexError) /\
  (forall x0 x1 rest, x = x0 :: x1 :: rest -> x1 <= x0 -> num_derivative f x = Err ValueError) /\
  (forall x0 x1 rest, x = x0 :: x1 :: rest -> x0 < x1 -> (length f < 3)%nat ->
     num_derivative f x = Err IndexError).
Proof. exact num_derivative_errors. Qed.
Print Assumptions C33_errors.

(** x^4 on 0..4: exact in the middle, not at the ends *)
Example C33_case : num_derivative [0; 1; 16; 81; 256] [0; 1; 2; 3; 4] = Ok [1; 8; 32; 120; 175].
Proof.
  unfold num_derivative. cbn [get nth_error bind]. destruct (Rltb_spec 0 (1 - 0)); [|lra].
  cbn [negb length Nat.sub seq deriv_loop deriv5 deriv2 get nth_error Nat.add bind set Nat.ltb Nat.leb map firstn skipn app].
  repeat f_equal; field.
Qed.
