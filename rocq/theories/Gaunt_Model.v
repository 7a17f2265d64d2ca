(** * Model of CasimirRio/cython_gaunt.pyx

    The function is compiled with boundscheck off and cdivision on: an index outside the array or a division by zero
    is not reported by the code.  Here both end the run with a fault, so that "never a fault" is what has to be
    shown.  Negative indices (which Cython would wrap around) count as faults, too.  The C ints l, lp, m are integers without overflow (the
    largest intermediate result is (l+lp+1)^2); doubles are real numbers, M_PI is PI. *)
From Coq Require Import Bool Reals List ZArith.
From Verif Require Import Base.
Import ListNotations.
Open Scope R_scope.

Inductive fault := OutOfBounds | DivisionByZero | NegativeSize | DomainError.
Inductive cres (A : Type) := Def (a : A) | Fault (f : fault).
Arguments Def {A} a.
Arguments Fault {A} f.
Definition cbind {A B} (x : cres A) (f : A -> cres B) : cres B := match x with Def a => f a | Fault e => Fault e end.
Notation "'let*' x := m 'in' f" := (cbind m (fun x => f)) (at level 200, x name, m at level 100, f at level 200).

(** np.zeros(n) *)
Definition zeros (n : Z) : cres (list R) := if Z.ltb n 0 then Fault NegativeSize else Def (repeat 0 (Z.to_nat n)).
Definition in_range (a : list R) (i : Z) : bool := Z.leb 0 i && Z.ltb i (Z.of_nat (length a)).
Definition aget (a : list R) (i : Z) : cres R := if in_range a i then Def (nth (Z.to_nat i) a 0) else Fault OutOfBounds.
Definition aset (a : list R) (i : Z) (v : R) : cres (list R) :=
  if in_range a i then Def (firstn (Z.to_nat i) a ++ v :: skipn (S (Z.to_nat i)) a) else Fault OutOfBounds.
Definition cdiv (a b : R) : cres R := if Reqb b 0 then Fault DivisionByZero else Def (a / b).
(** lgamma, log, sqrt outside their domain of real values *)
Definition lgamma (n : Z) : cres R := if Z.leb n 0 then Fault DomainError else Def (ln (INR (fact (Z.to_nat (n - 1))))).
Definition clog (x : R) : cres R := if Rleb x 0 then Fault DomainError else Def (ln x).
Definition csqrt (x : R) : cres R := if Rltb x 0 then Fault DomainError else Def (sqrt x).

(** for idx in <list>: body updates one array *)
Fixpoint cfor (is : list Z) (body : Z -> list R -> cres (list R)) (a : list R) : cres (list R) :=
  match is with
  | [] => Def a
  | i :: r => let* a' := body i a in cfor r body a'
  end.
(** range(n) and range(n, -1, -1) *)
Definition crange (n : Z) : list Z := map Z.of_nat (seq 0 (Z.to_nat n)).
Definition crange_down (n : Z) : list Z := rev (crange (n + 1)).

(** cython_gaunt.pyx:37-41 *)
Definition alpha_body (l lp lppmin : Z) (idx : Z) (alphas : list R) : cres (list R) :=
  let a2 := IZR ((l + lp + 1) ^ 2) in
  let b2 := IZR ((l - lp) ^ 2) in
  let p := IZR idx + IZR lppmin + 1 in
  let* v := cdiv ((p * p - a2) * (p * p - b2)) (4 * p * p - 1) in
  aset alphas idx v.

(** cython_gaunt.pyx:43-49 *)
Definition amax_of (l lp m lppmax : Z) : cres R :=
  let* g1 := lgamma (2 * l + 1) in let* g2 := lgamma (2 * lp + 1) in let* g3 := lgamma (lppmax + 1) in
  let* g4 := lgamma (l + 1) in let* g5 := lgamma (lp + 1) in let* g6 := lgamma (2 * lppmax + 1) in
  let* g7 := lgamma (l - m + 1) in let* g8 := lgamma (lp + m + 1) in
  let* g9 := lgamma (l + m + 1) in let* g10 := lgamma (lp - m + 1) in
  let* q1 := clog (2 * IZR l + 1) in let* q2 := clog (2 * IZR lp + 1) in let* q3 := clog (4 * PI) in
  Def (exp (g1 + g2 + 2 * g3 - g4 - g5 - g6 - g7 - g8 + 0.5 * (g7 + g8 - g9 - g10) + 0.5 * (q1 + q2 - q3))).

(** cython_gaunt.pyx:58-61 *)
Definition down_body (m : Z) (alphas : list R) (idx : Z) (g : list R) : cres (list R) :=
  let* x1 := aget alphas (2 * idx + 1) in
  let* x2 := aget alphas (2 * idx + 2) in
  let* g1 := aget g (idx + 1) in
  let* x3 := aget alphas (2 * idx + 3) in
  let* g2 := aget g (idx + 2) in
  let* x0 := aget alphas (2 * idx) in
  let* v := cdiv ((4 * IZR m * IZR m + x1 + x2) * g1 - x3 * g2) x0 in
  aset g idx v.

(** cython_gaunt.pyx:65 *)
Definition norm_body (lppmin : Z) (idx : Z) (g : list R) : cres (list R) :=
  let* v := aget g idx in
  let* s := csqrt (2 * (IZR lppmin + 2 * IZR idx) + 1) in
  let* w := cdiv v s in
  aset g idx w.

(** cython_gaunt.pyx:17-67 *)
Definition gaunt (l lp m : Z) : cres (list R) :=
  let lppmax := (l + lp)%Z in
  let lppmin := Z.abs (l - lp) in
  let alphadim := (lppmax - lppmin)%Z in
  let gauntdim := (Z.quot (lppmax - lppmin) 2 + 1)%Z in
  let* alphas := zeros alphadim in
  let* gaunts := zeros gauntdim in
  if Z.ltb (Z.min l lp) (Z.abs m) then Def gaunts else
  let* alphas := cfor (crange (lppmax - lppmin)) (alpha_body l lp lppmin) alphas in
  let* amax := amax_of l lp m lppmax in
  let* gaunts := zeros gauntdim in
  let* gaunts := aset gaunts (gauntdim - 1) amax in
  let* gaunts :=
    (if Z.ltb 1 gauntdim then
       let* v := cdiv ((2 * IZR lppmax - 3) * (IZR (l * lp) - IZR m ^ 2 * (2 * IZR lppmax - 1)))
                      ((2 * IZR l - 1) * (2 * IZR lp - 1) * IZR lppmax) in
       aset gaunts (gauntdim - 2) (amax * v)
     else Def gaunts) in
  let* gaunts := cfor (crange_down (gauntdim - 3)) (down_body m alphas) gaunts in
  cfor (crange gauntdim) (norm_body lppmin) gaunts.
