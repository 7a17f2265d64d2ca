(** * Model of the linear algebra in geometry.py (lines 282-331, 561-604, 669-845) and of
    matrix_balancing.pyx

    Arrays are functions of the indices together with their shape; only values at indices inside the
    shape have a meaning.  LAPACK is modelled by exact determinants and inverses (Laplace expansion,
    cofactors), arithmetic is exact. *)
From Coq Require Import Bool Reals List ZArith Arith Lia.
From Verif Require Import Base.
Import ListNotations.
Open Scope R_scope.

(** ** numpy and LAPACK *)
Definition mat := nat -> nat -> R.
Record arr2 := Arr2 { r2 : nat; c2 : nat; m2 : mat }.
Record arr3 := Arr3 { d3 : nat; r3 : nat; c3 : nat; m3 : nat -> mat }.

Fixpoint sumn (n : nat) (f : nat -> R) : R :=
  match n with O => 0 | S k => sumn k f + f k end.

Definition eye : mat := fun i j => if Nat.eqb i j then 1 else 0.
Definition mmul (n : nat) (A B : mat) : mat := fun i j => sumn n (fun k => A i k * B k j).
Definition madd (A B : mat) : mat := fun i j => A i j + B i j.
Definition msub (A B : mat) : mat := fun i j => A i j - B i j.
Definition mopp (A : mat) : mat := fun i j => - A i j.
Definition mtrace (n : nat) (A : mat) : R := sumn n (fun i => A i i).

Definition skip (a i : nat) : nat := if Nat.ltb i a then i else S i.
(** [A] without row [a] and column [b] *)
Definition minor (A : mat) (a b : nat) : mat := fun i j => A (skip a i) (skip b j).
Fixpoint mdet (n : nat) (A : mat) : R :=
  match n with
  | O => 1
  | S k => sumn (S k) (fun j => (-1) ^ j * A O j * mdet k (minor A 0 j))
  end.

(** np.linalg.slogdet(A)[1] *)
Definition logabs (x : R) : xr := if Reqb x 0 then NInf else Fin (ln (Rabs x)).
Definition slogdet (n : nat) (A : mat) : xr := logabs (mdet n A).
(** np.log *)
Definition nplog (x : R) : xr := if Reqb x 0 then NInf else if Rltb x 0 then NaN else Fin (ln x).

(** np.linalg.inv *)
Definition minv (n : nat) (A : mat) : res mat :=
  if Reqb (mdet n A) 0 then Err LinAlgError
  else Ok (fun i j => (-1) ^ (i + j) * mdet (n - 1) (minor A j i) / mdet n A).

(** ** matrix_balancing.pyx *)

(** lines 20-24 *)
Definition offcol (n : nat) (A : mat) (i : nat) : R :=
  sumn n (fun j => if Nat.eqb j i then 0 else Rabs (A j i) ^ 2).
Definition offrow (n : nat) (A : mat) (i : nat) : R :=
  sumn n (fun j => if Nat.eqb j i then 0 else Rabs (A i j) ^ 2).

(** lines 30-37; [None]: still running after [fuel] iterations *)
Fixpoint loop_up (fuel : nat) (f c r : R) : option (R * R * R) :=
  match fuel with
  | O => None
  | S k => if Rltb c (r / 2) then loop_up k (f * 2) (c * 2) (r / 2) else Some (f, c, r)
  end.
Fixpoint loop_down (fuel : nat) (f c r : R) : option (R * R * R) :=
  match fuel with
  | O => None
  | S k => if Rleb (r * 2) c then loop_down k (f / 2) (c / 2) (r * 2) else Some (f, c, r)
  end.

(** lines 40-41 *)
Definition scale_col (A : mat) (i : nat) (f : R) : mat := fun a b => if Nat.eqb b i then A a b * f else A a b.
Definition scale_row (A : mat) (i : nat) (f : R) : mat := fun a b => if Nat.eqb a i then A a b / f else A a b.

(** lines 19-41 for one i: (changed, matrix) *)
Definition balance_index (fuel : nat) (conv : R) (n : nat) (A : mat) (i : nat) : option (bool * mat) :=
  let r := offrow n A i in
  let c := offcol n A i in
  if Rleb (Rabs r) 1e-320 || Rleb (Rabs c) 1e-320 then Some (false, A)
  else
    let s := c + r in
    match loop_up fuel 1 (sqrt c) (sqrt r) with
    | None => None
    | Some (f, c, r) =>
      match loop_down fuel f c r with
      | None => None
      | Some (f, c, r) =>
          if Rltb (c ^ 2 + r ^ 2) (conv * s)
          then Some (true, scale_row (scale_col A i f) i f)
          else Some (false, A)
      end
    end.

(** lines 18-41: one sweep *)
Fixpoint balance_sweep (fuel : nat) (conv : R) (n : nat) (A : mat) (is : list nat) : option (bool * mat) :=
  match is with
  | [] => Some (false, A)
  | i :: rest =>
      match balance_index fuel conv n A i with
      | None => None
      | Some (ch, A1) =>
          match balance_sweep fuel conv n A1 rest with
          | None => None
          | Some (ch', A2) => Some (ch || ch', A2)
          end
      end
  end.

(** lines 17-42; the inner loops get the constant [fuel], the outer loop [outer] iterations *)
Fixpoint balance_loop (outer fuel : nat) (conv : R) (n : nat) (A : mat) : option mat :=
  match outer with
  | O => None
  | S k =>
      match balance_sweep fuel conv n A (seq 0 n) with
      | None => None
      | Some (true, A') => balance_loop k fuel conv n A'
      | Some (false, A') => Some A'
      end
  end.
Definition balance (fuel : nat) (conv : R) (n : nat) (A : mat) : option mat := balance_loop fuel fuel conv n A.

(** balance() works on the array object it is given and returns the same object *)
Definition mheap := nat -> mat.
Definition balance_obj (fuel : nat) (conv : R) (n : nat) (h : mheap) (a : nat) : option (mheap * nat) :=
  match balance fuel conv n (h a) with
  | None => None
  | Some B => Some (fun b => if Nat.eqb b a then B else h b, a)
  end.

(** ** geometry.py *)

Definition shape3_eqb (A B : arr3) : bool :=
  Nat.eqb (d3 A) (d3 B) && Nat.eqb (r3 A) (r3 B) && Nat.eqb (c3 A) (c3 B).

(** np.append(A, B, axis=2) and axis=1 for 3-d arrays *)
Definition append_cols (A B : arr3) : res arr3 :=
  if Nat.eqb (d3 A) (d3 B) && Nat.eqb (r3 A) (r3 B) then
    Ok (Arr3 (d3 A) (r3 A) (c3 A + c3 B)
          (fun k i j => if Nat.ltb j (c3 A) then m3 A k i j else m3 B k i (j - c3 A)%nat))
  else Err ValueError.
Definition append_rows (A B : arr3) : res arr3 :=
  if Nat.eqb (d3 A) (d3 B) && Nat.eqb (c3 A) (c3 B) then
    Ok (Arr3 (d3 A) (r3 A + r3 B) (c3 A)
          (fun k i j => if Nat.ltb i (r3 A) then m3 A k i j else m3 B k (i - r3 A)%nat j))
  else Err ValueError.

(** geometry.py:832-845 *)
Definition matrix_append (l : list arr3) : res arr3 :=
  match l with
  | [A; B; C; D] =>
      if shape3_eqb A B && shape3_eqb B C && shape3_eqb C D then
        do z1 <- append_cols A B ;
        do z2 <- append_cols C D ;
        append_rows z1 z2
      else Err AssertionError
  | _ => Err AssertionError
  end.

(** geometry.py:588-591 (supermatrix without the assignment of forceFlag); [Ms] the result of blockmatrices *)
Definition supermatrix (Ms : arr3 * arr3 * arr3 * arr3) : res arr3 :=
  let '(A, B, C, D) := Ms in
  do bigM <- append_cols A B ;
  do low <- append_cols C D ;
  append_rows bigM low.

(** run one computation after the other; [None]: some computation is still running *)
Fixpoint oseq {A} (l : list (option A)) : option (list A) :=
  match l with
  | [] => Some []
  | None :: _ => None
  | Some x :: r => match oseq r with None => None | Some xs => Some (x :: xs) end
  end.

(** geometry.py:783-794 *)
Definition balanced_slogdet (fuel : nat) (conv : R) (M : arr3) : option (res (list xr)) :=
  if Nat.eqb (r3 M) (c3 M) then
    match oseq (map (fun i => balance fuel conv (r3 M) (msub eye (m3 M i))) (seq 0 (d3 M))) with
    | None => None
    | Some Bs => Some (Ok (map (slogdet (r3 M)) Bs))
    end
  else Some (Err AssertionError).

(** geometry.py:740-758; a non-square result of matrix_append: eye(2r) - M does not broadcast
    (both sides are even, so neither is 1) *)
Definition sln_det_3d (fuel : nat) (conv : R) (A B C D : arr3) : option (res (list xr)) :=
  if shape3_eqb A B && shape3_eqb B C && shape3_eqb C D then
    match matrix_append [A; B; C; D] with
    | Err e => Some (Err e)
    | Ok M =>
        if Nat.eqb (r3 M) (c3 M) then
          match oseq (map (fun i => balance fuel conv (r3 M) (msub eye (m3 M i))) (seq 0 (d3 A))) with
          | None => None
          | Some Bs => Some (Ok (map (slogdet (r3 M)) Bs))
          end
        else Some (Err ValueError)
    end
  else Some (Err ValueError).

(** geometry.py:761-770 for square matrices (non-square ones of a shape other than n x 1 do not
    broadcast) *)
Definition sln_det_blockdiagonal (fuel : nat) (conv : R) (A B : arr2) : option (res xr) :=
  if Nat.eqb (r2 A) (r2 B) && Nat.eqb (c2 A) (c2 B) then
    if Nat.eqb (r2 A) 1 && Nat.eqb (c2 A) 1 then Some (Ok (nplog ((1 - m2 A 0%nat 0%nat) * (1 - m2 B 0%nat 0%nat))))
    else if Nat.eqb (r2 A) (c2 A) then
      match balance fuel conv (r2 A) (msub eye (m2 B)), balance fuel conv (r2 A) (msub eye (m2 A)) with
      | Some bB, Some bA => Some (Ok (xadd (slogdet (r2 A) bB) (slogdet (r2 A) bA)))
      | _, _ => None
      end
    else Some (Err ValueError)
  else Some (Err ValueError).

(** geometry.py:669-679 for 3-d arguments *)
Definition dot_3d (A B : arr3) : res arr3 :=
  if Nat.eqb (d3 A) (d3 B) && Nat.eqb (c3 A) (r3 B) then
    Ok (Arr3 (d3 A) (r3 A) (c3 B) (fun k => mmul (c3 A) (m3 A k) (m3 B k)))
  else Err ValueError.

(** elementwise operations on arrays of one shape *)
Definition arr_sub (A B : arr3) : res arr3 :=
  if shape3_eqb A B then Ok (Arr3 (d3 A) (r3 A) (c3 A) (fun k => msub (m3 A k) (m3 B k))) else Err ValueError.
Definition arr_add (A B : arr3) : res arr3 :=
  if shape3_eqb A B then Ok (Arr3 (d3 A) (r3 A) (c3 A) (fun k => madd (m3 A k) (m3 B k))) else Err ValueError.
Definition arr_opp (A : arr3) : arr3 := Arr3 (d3 A) (r3 A) (c3 A) (fun k => mopp (m3 A k)).

(** geometry.py:682-698; [garbage] is the content of np.empty_like *)
Fixpoint inv_loop (n : nat) (A : nat -> mat) (is : list nat) (out : nat -> mat) : res (nat -> mat) :=
  match is with
  | [] => Ok out
  | i :: r => do B <- minv n (A i) ;
              inv_loop n A r (fun k => if Nat.eqb k i then B else out k)
  end.
Definition inv_3d_matrix (garbage : nat -> mat) (M : arr3) : res arr3 :=
  if Nat.eqb (r3 M) (c3 M) then
    do out <- inv_loop (r3 M) (m3 M) (seq 0 (d3 M)) garbage ;
    Ok (Arr3 (d3 M) (r3 M) (c3 M) out)
  else match d3 M with O => Ok (Arr3 0 (r3 M) (c3 M) garbage) | _ => Err LinAlgError end.

(** matrix[:, a:a+p, b:b+q] *)
Definition block (M : arr3) (a p b q : nat) : arr3 :=
  Arr3 (d3 M) p q (fun k i j => m3 M k (a + i)%nat (b + j)%nat).

(** geometry.py:701-737 *)
Definition inv_3d_blockmatrix (garbage : nat -> mat) (M : arr3) : res arr3 :=
  if negb (Nat.even (r3 M)) || negb (Nat.eqb (r3 M) (c3 M)) then Err ValueError
  else
    let lmax := Nat.div2 (r3 M) in
    let A11 := block M 0 lmax 0 lmax in
    let A12 := block M 0 lmax lmax lmax in
    let A21 := block M lmax lmax 0 lmax in
    let A22 := block M lmax lmax lmax lmax in
    do iA11 <- inv_3d_matrix garbage A11 ;
    do t1 <- dot_3d A21 iA11 ;
    do t2 <- dot_3d t1 A12 ;
    do schur <- arr_sub A22 t2 ;
    do ischur <- inv_3d_matrix garbage schur ;
    do fak1 <- dot_3d A21 iA11 ;
    do fak2 <- dot_3d iA11 A12 ;
    do u1 <- dot_3d fak2 ischur ;
    do u2 <- dot_3d u1 fak1 ;
    do i11 <- arr_add iA11 u2 ;
    do v1 <- dot_3d fak2 ischur ;
    do v2 <- dot_3d ischur fak1 ;
    do w1 <- append_cols i11 (arr_opp v1) ;
    do w2 <- append_cols (arr_opp v2) ischur ;
    append_rows w1 w2.

(** geometry.py:772-781 for a square m1 *)
Definition trace_dot_3d (garbage : nat -> mat) (M1 M2 : arr3) : res (list R) :=
  if Nat.eqb (r3 M1) (c3 M1) then
    do I <- inv_3d_blockmatrix garbage (Arr3 (d3 M1) (r3 M1) (c3 M1) (fun k => msub eye (m3 M1 k))) ;
    if Nat.eqb (d3 I) (d3 M2) && Nat.eqb (c3 I) (r3 M2) && Nat.eqb (r3 I) (c3 M2) then
      Ok (map (fun k => mtrace (r3 I) (mmul (c3 I) (m3 I k) (m3 M2 k))) (seq 0 (d3 I)))
    else Err ValueError
  else Err ValueError.

(** ** Scaling of the round-trip blocks *)

(** the logarithms of the scaling factors for one frequency: indices l1, l2, lss *)
Definition arr_log := nat -> nat -> nat -> R.

(** argmax of f 0 .. f (n-1), first occurrence *)
Fixpoint argmax_from (f : nat -> R) (n i best : nat) : nat :=
  match n with
  | O => best
  | S k => argmax_from f k (S i) (if Rltb (f best) (f i) then i else best)
  end.
Definition argmax (f : nat -> R) (n : nat) : nat := argmax_from f (n - 1) 1 0.

(** geometry.py:796-817; shape (n, n, ns) *)
Definition single_k_scale (n ns : nat) (M : arr_log) : arr_log :=
  if Nat.eqb n 1 then M
  else
    let order := argmax (fun s => M 0%nat (n - 1)%nat s) ns in
    let A := M 0%nat 0%nat order in
    let B := M 0%nat (n - 1)%nat order in
    let C := M (n - 1)%nat 0%nat order in
    let fak := 1 / (INR n - 1) in
    let K := fun i j : nat => Rabs (A - Rmax B C) * fak * (INR (S i) - INR (S j)) in
    let K := if Rltb B C then (fun i j => - K i j) else K in
    fun i j s => K i j + M i j s.

(** geometry.py:820-830; axis 0 is the frequency *)
Definition dynamic_scaling (n ns : nat) (M : nat -> arr_log) : nat -> arr_log :=
  fun k i j s => exp (single_k_scale n ns (M k) i j s).

(** the round-trip ingredients for one frequency: Mie coefficients of both spheres, translation
    coefficients, logarithmic scales *)
Record roundtrip := {
  aTE : nat -> R; aTM : nat -> R; a2 : nat -> R;          (* sphere 1, index l1 *)
  bTE : nat -> R; bTM : nat -> R; b2 : nat -> R;          (* sphere 2, index lss *)
  V0 : nat -> nat -> R; V1 : nat -> nat -> R;             (* V0 l1 lss, V1 l2 lss *)
  V2 : nat -> nat -> R; V3 : nat -> nat -> R;
  V4 : nat -> nat -> R }.

(** geometry.py:314-321 for a given array of scale factors (forceFlag = 0, no zero frequency) *)
Definition blocks (ns : nat) (skal : arr_log) (e : roundtrip) : mat * mat * mat * mat :=
  (fun i j => sumn ns (fun s => skal i j s * aTE e i * (V0 e i s * bTE e s * V1 e j s + V2 e i s * bTM e s * V3 e j s)),
   fun i j => sumn ns (fun s => skal i j s * aTE e i * (V0 e i s * bTE e s * V3 e j s + V2 e i s * bTM e s * V1 e j s)),
   fun i j => sumn ns (fun s => skal i j s * aTM e i * (V2 e i s * bTE e s * V1 e j s + V0 e i s * bTM e s * V3 e j s)),
   fun i j => sumn ns (fun s => skal i j s * aTM e i * (V2 e i s * bTE e s * V3 e j s + V0 e i s * bTM e s * V1 e j s))).
(** geometry.py:304-321 with forceFlag set: [d] holds V[5]..V[8], the derivatives of V[0]..V[3].
    "V21" keeps its initial value 1 (line 300).  numpy's x/0 is inf or NaN; here division by zero has
    no meaning, so theorems assume non-vanishing V (for m = 0 V[2], V[3] are not divided by). *)
Record vderiv := { V5 : nat -> nat -> R; V6 : nat -> nat -> R; V7 : nat -> nat -> R; V8 : nat -> nat -> R }.
Definition blocks_force (m ns : nat) (skal : arr_log) (e : roundtrip) (d : vderiv) : mat * mat * mat * mat :=
  let V83 := fun j s : nat => if Nat.eqb m 0 then 0 else V8 d j s / V3 e j s in
  let V72 := fun i s : nat => if Nat.eqb m 0 then 0 else V7 d i s / V2 e i s in
  let V01 := fun i j s : nat => V5 d i s / V0 e i s + V6 d j s / V1 e j s in
  let V23 := fun i j s : nat => V72 i s + V83 j s in
  let V03 := fun i j s : nat => V5 d i s / V0 e i s + V83 j s in
  let V21 := fun i j s : nat => 1 in
  (fun i j => sumn ns (fun s => skal i j s * aTE e i * (V0 e i s * bTE e s * V1 e j s * V01 i j s + V2 e i s * bTM e s * V3 e j s * V23 i j s)),
   fun i j => sumn ns (fun s => skal i j s * aTE e i * (V0 e i s * bTE e s * V3 e j s * V03 i j s + V2 e i s * bTM e s * V1 e j s * V21 i j s)),
   fun i j => sumn ns (fun s => skal i j s * aTM e i * (V2 e i s * bTE e s * V1 e j s * V21 i j s + V0 e i s * bTM e s * V3 e j s * V03 i j s)),
   fun i j => sumn ns (fun s => skal i j s * aTM e i * (V2 e i s * bTE e s * V3 e j s * V23 i j s + V0 e i s * bTM e s * V1 e j s * V01 i j s))).

(** geometry.py:301 *)
Definition log_skalierung (e : roundtrip) : arr_log := fun i j s => a2 e i + b2 e s + V4 e i s + V4 e j s.

(** geometry.py:808, 826-828: single_k_scale of an empty array, for at least one frequency; M[0,-1,:] is out of bounds
    for n = 0, argmax of an empty row for n > 1 and ns = 0 *)
Definition scale_shape (nk n ns : nat) : res unit :=
  if Nat.eqb nk 0 then Ok tt
  else if Nat.eqb n 1 then Ok tt
  else if Nat.eqb n 0 then Err IndexError
  else if Nat.eqb ns 0 then Err ValueError
  else Ok tt.

(** geometry.py:282-331: the four arrays for frequencies 0..nk-1, without a leading zero frequency *)
Definition block_arrays (nk n ns : nat) (e : nat -> roundtrip) : arr3 * arr3 * arr3 * arr3 :=
  let skal := dynamic_scaling n ns (fun k => log_skalierung (e k)) in
  (Arr3 nk n n (fun k => let '(a, _, _, _) := blocks ns (skal k) (e k) in a),
   Arr3 nk n n (fun k => let '(_, b, _, _) := blocks ns (skal k) (e k) in b),
   Arr3 nk n n (fun k => let '(_, _, c, _) := blocks ns (skal k) (e k) in c),
   Arr3 nk n n (fun k => let '(_, _, _, d) := blocks ns (skal k) (e k) in d)).
Definition blockmatrices (nk n ns : nat) (e : nat -> roundtrip) : res (arr3 * arr3 * arr3 * arr3) :=
  do _ <- scale_shape nk n ns ; Ok (block_arrays nk n ns e).

(** ** Round-trip expansion *)

Inductive order_arg := OInt (z : Z) | OAuto | OOther.

(** geometry.py:565-567: the loop n, n+1, ..., with accumulated traces per frequency *)
Fixpoint trips (M : arr3) (P : nat -> mat) (sum : nat -> R) (n cnt : nat) : (nat -> mat) * (nat -> R) :=
  match cnt with
  | O => (P, sum)
  | S c => trips M (fun k => mmul (r3 M) (m3 M k) (P k))
             (fun k => sum k + mtrace (r3 M) (P k) / INR n) (S n) c
  end.

(** Python's max() over a list of floats *)
Fixpoint pymax (best : xr) (l : list xr) : xr :=
  match l with [] => best | x :: r => pymax (if xltb best x then x else best) r end.

(** geometry.py:573-578; returns the final n and the sums *)
Fixpoint trips_auto (fuel : nat) (precision : R) (M : arr3) (P : nat -> mat) (sum : nat -> R) (n : nat)
    (relchange : xr) : option (res (nat * (nat -> R))) :=
  match fuel with
  | O => None
  | S f =>
      if xltb (Fin precision) relchange then
        let P' := fun k => mmul (r3 M) (m3 M k) (P k) in
        let to_add := fun k => mtrace (r3 M) (P' k) / INR n in
        let sum' := fun k => sum k + to_add k in
        match map (fun k => xabs (xdiv (Fin (to_add k)) (Fin (sum' k)))) (seq 0 (d3 M)) with
        | [] => Some (Err ValueError)                   (* max() of an empty sequence *)
        | x :: r => trips_auto f precision M P' sum' (S n) (pymax x r)
        end
      else Some (Ok (n, sum))
  end.

(** geometry.py:561-580 for square matrices; the first component is the entry stored in roundTrip_dct[m] *)
Definition arbitrary_roundtrips (fuel : nat) (precision : R) (M : arr3) (order : order_arg)
    : option (res (nat * list R)) :=
  match order with
  | OInt z =>
      if Z.ltb z 1 then Some (Err UnboundLocalError)
      else
        let '(_, s) := trips M (m3 M) (fun _ => 0) 1 (Z.to_nat z) in
        Some (Ok (Z.to_nat z, map (fun k => - s k) (seq 0 (d3 M))))
  | OAuto =>
      match trips_auto fuel precision M (m3 M) (fun k => mtrace (r3 M) (m3 M k) / 1) 2 (Fin 1) with
      | None => None
      | Some (Err e) => Some (Err e)
      | Some (Ok (n, s)) => Some (Ok (n, map (fun k => - s k) (seq 0 (d3 M))))
      end
  | OOther => Some (Err UnboundLocalError)
  end.
