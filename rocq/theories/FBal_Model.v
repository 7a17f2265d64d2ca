(** * matrix_balancing.pyx in IEEE binary64 arithmetic (Coq's SpecFloat)

    The same function as [balance] in Lin_Model, but every operation is rounded to nearest even with
    infinities and NaN.  pow(x, 0.5) is modelled by the square root and pow(x, 2) by x*x. *)
From Coq Require Import Bool List ZArith Floats.SpecFloat.
Import ListNotations.

Definition prec : Z := 53.
Definition emax : Z := 1024.
Definition fl := spec_float.
Definition fadd : fl -> fl -> fl := SFadd prec emax.
Definition fmul : fl -> fl -> fl := SFmul prec emax.
Definition fdiv : fl -> fl -> fl := SFdiv prec emax.
Definition fsqrt : fl -> fl := SFsqrt prec emax.
Definition fabs : fl -> fl := SFabs.
Definition fltb : fl -> fl -> bool := SFltb.
Definition fleb : fl -> fl -> bool := SFleb.
Definition f0 : fl := S754_zero false.
Definition f1 : fl := S754_finite false 4503599627370496 (-52).
Definition f2 : fl := S754_finite false 4503599627370496 (-51).
(** the literal 1e-320: the denormal number 2024 * 2^-1074 *)
Definition ftiny : fl := S754_finite false 2024 (-1074).

Definition fmat := nat -> nat -> fl.

(** lines 20-24 *)
Fixpoint fsum (n : nat) (g : nat -> option fl) : fl :=
  match n with
  | O => f0
  | S k => match g k with Some x => fadd (fsum k g) x | None => fsum k g end
  end.
Definition fsq (x : fl) : fl := fmul (fabs x) (fabs x).
Definition foffcol (n : nat) (A : fmat) (i : nat) : fl := fsum n (fun j => if Nat.eqb j i then None else Some (fsq (A j i))).
Definition foffrow (n : nat) (A : fmat) (i : nat) : fl := fsum n (fun j => if Nat.eqb j i then None else Some (fsq (A i j))).

(** lines 30-37 *)
Fixpoint floop_up (fuel : nat) (f c r : fl) : option (fl * fl * fl) :=
  match fuel with
  | O => None
  | S k => if fltb c (fdiv r f2) then floop_up k (fmul f f2) (fmul c f2) (fdiv r f2) else Some (f, c, r)
  end.
Fixpoint floop_down (fuel : nat) (f c r : fl) : option (fl * fl * fl) :=
  match fuel with
  | O => None
  | S k => if fleb (fmul r f2) c then floop_down k (fdiv f f2) (fdiv c f2) (fmul r f2) else Some (f, c, r)
  end.

Definition fscale_col (A : fmat) (i : nat) (f : fl) : fmat := fun a b => if Nat.eqb b i then fmul (A a b) f else A a b.
Definition fscale_row (A : fmat) (i : nat) (f : fl) : fmat := fun a b => if Nat.eqb a i then fdiv (A a b) f else A a b.

(** lines 19-41 for one i *)
Definition fbalance_index (fuel : nat) (conv : fl) (n : nat) (A : fmat) (i : nat) : option (bool * fmat) :=
  let r := foffrow n A i in
  let c := foffcol n A i in
  if fleb (fabs r) ftiny || fleb (fabs c) ftiny then Some (false, A)
  else
    let s := fadd c r in
    match floop_up fuel f1 (fsqrt c) (fsqrt r) with
    | None => None
    | Some (f, c, r) =>
      match floop_down fuel f c r with
      | None => None
      | Some (f, c, r) =>
          if fltb (fadd (fmul c c) (fmul r r)) (fmul conv s)
          then Some (true, fscale_row (fscale_col A i f) i f)
          else Some (false, A)
      end
    end.

Fixpoint fbalance_sweep (fuel : nat) (conv : fl) (n : nat) (A : fmat) (is : list nat) : option (bool * fmat) :=
  match is with
  | [] => Some (false, A)
  | i :: rest =>
      match fbalance_index fuel conv n A i with
      | None => None
      | Some (ch, A1) =>
          match fbalance_sweep fuel conv n A1 rest with
          | None => None
          | Some (ch', A2) => Some (ch || ch', A2)
          end
      end
  end.
Fixpoint fbalance_loop (outer fuel : nat) (conv : fl) (n : nat) (A : fmat) : option fmat :=
  match outer with
  | O => None
  | S k =>
      match fbalance_sweep fuel conv n A (seq 0 n) with
      | None => None
      | Some (true, A') => fbalance_loop k fuel conv n A'
      | Some (false, A') => Some A'
      end
  end.
Definition fbalance (fuel : nat) (conv : fl) (n : nat) (A : fmat) : option fmat := fbalance_loop fuel fuel conv n A.
