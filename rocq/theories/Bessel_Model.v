(** * Model of CasimirRio/bessel_sk.py

    A two-dimensional array is the list of its columns (orders); one entry per argument in each
    column.  Arithmetic is exact.  np.log of a non-positive number (inf, NaN) is not modelled: the
    arguments x are positive in all theorems. *)
From Coq Require Import Bool Reals ZArith List Lia.
From Verif Require Import Base.
Import ListNotations.
Open Scope R_scope.

(** lmax: int or numpy.int64, or anything else *)
Inductive int_arg := AnInt (z : Z) | NotInt.

(** elementwise numpy operations on arrays of one length *)
Definition vmap2 {A B C} (f : A -> B -> C) (a : list A) (b : list B) : list C :=
  map (fun p => f (fst p) (snd p)) (combine a b).
Definition vmap3 (f : R -> R -> R -> R) (a b c : list R) : list R :=
  vmap2 (fun p z => f (fst p) (snd p) z) (combine a b) c.

(** bessel_sk.py:16-18 *)
Definition ln_pih : R := ln (PI * 0.5).
Definition lnk_0 (x : R) : R := ln_pih - ln x - x.
Definition lnk_1 (x : R) : R := ln_pih - 2 * ln x - x + ln (x + 1).

(** bessel_sk.py:25-26; [n] more columns, starting with order [l], from the last two columns *)
Fixpoint lnk_cols (x p2 p1 : list R) (l n : nat) : list (list R) :=
  match n with
  | O => []
  | S n =>
      let c := vmap3 (fun a b t => b + ln (exp (a - b) + (2 * INR l - 1) / t)) p2 p1 x in
      c :: lnk_cols x p1 c (S l) n
  end.

(** np.empty((len(x), n)): negative dimensions raise *)
Definition alloc (n : Z) : res unit := if Z.ltb n 0 then Err ValueError else Ok tt.
(** assignment to column [l] of an array with [n] columns *)
Definition column (l n : Z) : res unit := if Z.ltb l n then Ok tt else Err IndexError.

(** bessel_sk.py:9-27 *)
Definition lnknu (x : list R) (lmax : int_arg) : res (list (list R)) :=
  match lmax with
  | NotInt => Err TypeError
  | AnInt z =>
      do _ <- alloc (z + 1) ;
      let k0 := map lnk_0 x in
      let k1 := map lnk_1 x in
      do _ <- column 0 (z + 1) ;
      if Z.eqb z 0 then Ok [k0]
      else if Z.eqb z 1 then Ok [k0; k1]
      else Ok (k0 :: k1 :: lnk_cols x k0 k1 2 (Z.to_nat (z - 1)))
  end.

(** bessel_sk.py:29-40; the argument is the list of columns, the recursion drops the first one *)
Fixpoint fraction (cols : list (list R)) : list R :=
  match cols with
  | [] => []
  | [c] => c
  | c :: r => vmap2 (fun a f => a + 1 / f) c (fraction r)
  end.

(** bessel_sk.py:42-54; nu = l + 0.5 *)
Definition fnu (x : list R) (nu : R) : res (list R) :=
  match rev x with
  | [] => Err IndexError                                  (* x[-1] *)
  | xl :: _ =>
      let Nmax := if Rltb 100 xl then 140%nat else 80%nat in
      Ok (fraction (map (fun n => map (fun t => 2 * (nu + INR n) / t) x) (seq 1 Nmax)))
  end.

(** bessel_sk.py:64-83 *)
Definition is_small (t : R) : bool := Rltb t 1e-3.
Definition i0lg (t : R) : R := - ln (2 * t) + ln (1 - exp (- 2 * t)) + t.
Definition i1lg (t : R) : R := - ln (2 * t) - ln t + t + ln (exp (- 2 * t) * (t + 1) + t - 1).
Definition i0sm_mixed (t : R) : R := t ^ 2 / 6 - t ^ 4 / 180 + t ^ 6 / 2835.
Definition i1sm_mixed (t : R) : R := - ln 3 + ln t + 0.1 * t ^ 2 - t ^ 4 / 700.
Definition i0sm (t : R) : R := t ^ 2 / 6 - t ^ 4 / 180.
Definition i1sm (t : R) : R := - ln 3 + ln t + 0.1 * t ^ 2.
Definition i01 (x : list R) : list R * list R :=
  let xsm := filter is_small x in
  let xlg := filter (fun t => negb (is_small t)) x in
  match xsm, xlg with
  | _ :: _, _ :: _ => (map i0sm_mixed xsm ++ map i0lg xlg, map i1sm_mixed xsm ++ map i1lg xlg)
  | _, _ :: _ => (map i0lg xlg, map i1lg xlg)
  | _, [] => (map i0sm xsm, map i1sm xsm)
  end.

(** bessel_sk.py:92-95; [n] more orders starting with [l] *)
Fixpoint lni_cols (x : list R) (lnk : list (list R)) (l n : nat) : res (list (list R)) :=
  match n with
  | O => Ok []
  | S n =>
      do f <- fnu x (INR l + 0.5) ;
      let kl := nth l lnk [] in
      let kl1 := nth (S l) lnk [] in
      let c := vmap2 (fun p q => ln (PI / (2 * fst p ^ 2)) - snd q - ln (exp (fst q - snd q) / snd p + 1))
                     (combine x f) (combine kl kl1) in
      do r <- lni_cols x lnk (S l) n ;
      Ok (c :: r)
  end.

(** bessel_sk.py:58-96 *)
Definition lniknu (x : list R) (lmax : int_arg) : res (list (list R) * list (list R)) :=
  match lmax with
  | NotInt => Err TypeError
  | AnInt z =>
      do _ <- alloc (z + 1) ;
      let '(i0, i1) := i01 x in
      do _ <- column 0 (z + 1) ;
      do lnk <- lnknu x (AnInt (z + 1)) ;
      if Z.eqb z 0 then Ok ([i0], firstn 1 lnk)
      else if Z.eqb z 1 then Ok ([i0; i1], firstn 2 lnk)
      else
        do r <- lni_cols x lnk 2 (Z.to_nat (z - 1)) ;
        Ok (i0 :: i1 :: r, removelast lnk)
  end.

(** bessel_sk.py:100-116 for lmin >= 0 *)
Definition mie_bessels (kr : list R) (lmin : nat) (lmax : Z) : res (list (list R) * list (list R)) :=
  if Z.ltb lmax (Z.of_nat lmin) then Err ValueError
  else do p <- lniknu kr (AnInt lmax) ;
       Ok (skipn lmin (fst p), skipn lmin (snd p)).

(** bessel_sk.py:119-132 *)
Definition trans_bessels (kr : list R) (lmax : int_arg) (ext_flag : bool) : res (list (list R)) :=
  if ext_flag then lnknu kr lmax
  else do p <- lniknu kr lmax ; Ok (fst p).

(** bessel_sk.py:134-140 *)
Fixpoint i_fraction (x : list R) (nus : list R) : res (list (list R)) :=
  match nus with
  | [] => Ok []
  | nu :: r => do f <- fnu x nu ; do fs <- i_fraction x r ; Ok (f :: fs)
  end.
