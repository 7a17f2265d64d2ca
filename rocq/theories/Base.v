(** * Python-level basics shared by all models.

    [res] is the outcome of a Python call: a value or an exception class.
    [xr] is a float in exact arithmetic: a real number or one of the IEEE
    special values, with numpy's rules for them (no rounding, the sign of
    zero is not represented: x/0 is treated as division by +0). *)
From Coq Require Import Bool Reals List ZArith Lia Lra.
Import ListNotations.
Open Scope R_scope.

(** Python exception classes that occur in the modelled code. *)
Inductive exn :=
| ValueError | TypeError | IndexError | AttributeError | NameError
| UnboundLocalError | NotImplementedError | AssertionError
| ZeroDivisionError | OverflowError | LinAlgError | NoOptionError.

Inductive res (A : Type) :=
| Ok (a : A)
| Err (e : exn).
Arguments Ok {A} a.
Arguments Err {A} e.

Definition bind {A B} (x : res A) (f : A -> res B) : res B :=
  match x with Ok a => f a | Err e => Err e end.
Notation "'do' x <- m ; f" := (bind m (fun x => f))
  (at level 200, x name, m at level 100, f at level 200).
Notation "'do' ' p <- m ; f" := (bind m (fun p => f))
  (at level 200, p pattern, m at level 100, f at level 200).

Definition is_ok {A} (x : res A) : bool :=
  match x with Ok _ => true | Err _ => false end.

(** ** Floats in exact arithmetic with IEEE special values *)
Inductive xr := Fin (r : R) | PInf | NInf | NaN.

Definition Rltb (a b : R) : bool := if Rlt_dec a b then true else false.
Definition Rleb (a b : R) : bool := if Rle_dec a b then true else false.
Definition Reqb (a b : R) : bool := if Req_EM_T a b then true else false.

Lemma Rltb_spec a b : reflect (a < b) (Rltb a b).
Proof. unfold Rltb; destruct (Rlt_dec a b); constructor; assumption. Qed.
Lemma Rleb_spec a b : reflect (a <= b) (Rleb a b).
Proof. unfold Rleb; destruct (Rle_dec a b); constructor; assumption. Qed.
Lemma Reqb_spec a b : reflect (a = b) (Reqb a b).
Proof. unfold Reqb; destruct (Req_EM_T a b); constructor; assumption. Qed.

Definition xneg (a : xr) : xr :=
  match a with Fin r => Fin (- r) | PInf => NInf | NInf => PInf | NaN => NaN end.

Definition xadd (a b : xr) : xr :=
  match a, b with
  | NaN, _ => NaN
  | _, NaN => NaN
  | Fin x, Fin y => Fin (x + y)
  | PInf, NInf => NaN
  | NInf, PInf => NaN
  | PInf, _ => PInf
  | _, PInf => PInf
  | NInf, _ => NInf
  | _, NInf => NInf
  end.

Definition xsub (a b : xr) : xr := xadd a (xneg b).

(** infinity times the real [x]: NaN for 0, otherwise signed infinity. *)
Definition xinf_times (pos : bool) (x : R) : xr :=
  if Reqb x 0 then NaN
  else if Rltb 0 x then (if pos then PInf else NInf)
  else (if pos then NInf else PInf).

Definition xmul (a b : xr) : xr :=
  match a, b with
  | NaN, _ => NaN
  | _, NaN => NaN
  | Fin x, Fin y => Fin (x * y)
  | PInf, Fin y => xinf_times true y
  | NInf, Fin y => xinf_times false y
  | Fin x, PInf => xinf_times true x
  | Fin x, NInf => xinf_times false x
  | PInf, PInf => PInf
  | NInf, NInf => PInf
  | _, _ => NInf
  end.

(** numpy division: 0/0 = NaN, x/0 = signed infinity, finite/inf = 0. *)
Definition xdiv (a b : xr) : xr :=
  match a, b with
  | NaN, _ => NaN
  | _, NaN => NaN
  | Fin x, Fin y =>
      if Reqb y 0 then
        (if Reqb x 0 then NaN else if Rltb 0 x then PInf else NInf)
      else Fin (x / y)
  | Fin _, _ => Fin 0
  | PInf, Fin y => if Rltb y 0 then NInf else PInf
  | NInf, Fin y => if Rltb y 0 then PInf else NInf
  | _, _ => NaN
  end.

Definition xabs (a : xr) : xr :=
  match a with Fin r => Fin (Rabs r) | PInf => PInf | NInf => PInf | NaN => NaN end.

(** IEEE comparisons: every comparison with NaN is false. *)
Definition xltb (a b : xr) : bool :=
  match a, b with
  | NaN, _ => false
  | _, NaN => false
  | Fin x, Fin y => Rltb x y
  | NInf, NInf => false
  | NInf, _ => true
  | _, NInf => false
  | PInf, _ => false
  | Fin _, PInf => true
  end.

Definition xeqb (a b : xr) : bool :=
  match a, b with
  | Fin x, Fin y => Reqb x y
  | PInf, PInf => true
  | NInf, NInf => true
  | _, _ => false
  end.

Definition xgtb (a b : xr) : bool := xltb b a.

Definition is_fin (a : xr) : Prop := exists r, a = Fin r.

(** ** Python's int() on a float: truncation towards zero. *)
Definition trunc (x : R) : Z :=
  if Rleb 0 x then Int_part x else (- Int_part (- x))%Z.

(** Python's round() on a float (banker's rounding: ties to even). *)
Definition pyround (x : R) : Z :=
  let n := Int_part x in
  let f := x - IZR n in
  if Rltb f (1/2) then n
  else if Rltb (1/2) f then (n + 1)%Z
  else if Z.even n then n else (n + 1)%Z.

(** ** numpy helpers on lists *)

(** np.arange(a, b) on integers. *)
Definition arange (a b : Z) : list Z :=
  map (fun i => (a + Z.of_nat i)%Z) (seq 0 (Z.to_nat (b - a))).

(** sum of a float array *)
Definition Rsum (l : list R) : R := fold_right Rplus 0 l.

(** [l[::i]] for a positive step: every i-th element starting at index 0. *)
Fixpoint stride_aux {A} (skip i : nat) (l : list A) : list A :=
  match l with
  | [] => []
  | x :: r => match skip with
              | O => x :: stride_aux (Nat.pred i) i r
              | S s => stride_aux s i r
              end
  end.
Definition stride {A} (i : nat) (l : list A) : list A := stride_aux 0 i l.

(** Facts about [trunc]. *)
Lemma Int_part_bounds x : IZR (Int_part x) <= x < IZR (Int_part x) + 1.
Proof. destruct (base_Int_part x) as [H1 H2]. lra. Qed.

Lemma Int_part_unique x n : IZR n <= x < IZR n + 1 -> Int_part x = n.
Proof.
  intros [H1 H2]. destruct (Int_part_bounds x) as [H3 H4].
  assert (A : (Int_part x < n + 1)%Z) by (apply lt_IZR; rewrite plus_IZR; lra).
  assert (B : (n < Int_part x + 1)%Z) by (apply lt_IZR; rewrite plus_IZR; lra).
  lia.
Qed.

Lemma Int_part_IZR n : Int_part (IZR n) = n.
Proof. apply Int_part_unique; lra. Qed.

Lemma Int_part_mono x y : x <= y -> (Int_part x <= Int_part y)%Z.
Proof.
  intros H. destruct (Int_part_bounds x), (Int_part_bounds y).
  assert (A : (Int_part x < Int_part y + 1)%Z) by (apply lt_IZR; rewrite plus_IZR; lra).
  lia.
Qed.

Lemma trunc_nonneg x : 0 <= x -> (0 <= trunc x)%Z.
Proof.
  intros H. unfold trunc. destruct (Rleb_spec 0 x); [|lra].
  rewrite <- (Int_part_IZR 0). apply Int_part_mono. lra.
Qed.

Lemma trunc_mono x y : x <= y -> (trunc x <= trunc y)%Z.
Proof.
  intros H. unfold trunc.
  destruct (Rleb_spec 0 x), (Rleb_spec 0 y).
  - apply Int_part_mono; lra.
  - lra.
  - assert (0 <= Int_part (- x))%Z by (rewrite <- (Int_part_IZR 0); apply Int_part_mono; lra).
    assert (0 <= Int_part y)%Z by (rewrite <- (Int_part_IZR 0); apply Int_part_mono; lra).
    lia.
  - assert (Int_part (- y) <= Int_part (- x))%Z by (apply Int_part_mono; lra). lia.
Qed.

Lemma trunc_IZR n : trunc (IZR n) = n.
Proof.
  unfold trunc. destruct (Rleb_spec 0 (IZR n)) as [_|_].
  - apply Int_part_IZR.
  - rewrite <- opp_IZR, Int_part_IZR. lia.
Qed.

(** [trunc x] is the integer nearest to [x] on the side of zero. *)
Lemma trunc_spec x : Rabs (IZR (trunc x)) <= Rabs x < Rabs (IZR (trunc x)) + 1.
Proof.
  unfold trunc. destruct (Rleb_spec 0 x) as [H|H].
  - assert (0 <= Int_part x)%Z by (rewrite <- (Int_part_IZR 0); apply Int_part_mono; lra).
    apply IZR_le in H0. destruct (Int_part_bounds x).
    rewrite !Rabs_pos_eq by lra. lra.
  - assert (0 <= Int_part (- x))%Z by (rewrite <- (Int_part_IZR 0); apply Int_part_mono; lra).
    apply IZR_le in H0. destruct (Int_part_bounds (- x)).
    rewrite opp_IZR, Rabs_Ropp, (Rabs_pos_eq (IZR _)) by lra.
    rewrite (Rabs_left x) by lra. lra.
Qed.
