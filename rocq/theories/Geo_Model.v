(** * Model of CasimirRio/geometry.py: constructor, caches, sums over m *)
From Coq Require Import Bool Reals List ZArith Lia.
From Verif Require Import Base Thermo_Model.
Import ListNotations.
Open Scope R_scope.

(** ** geometry.py:848-860, get_lmax.  np.log10(0) = -inf and np.log10(negative) = NaN,
    so int() raises OverflowError / ValueError there. *)
Definition log10 (x : R) : R := ln x / ln 10.
Definition get_lmax (r1 r2 L precision : R) (l_offset : Z) : res Z :=
  let rs := Rmin r1 r2 in
  let rg := Rmax r1 r2 in
  let surf := Rabs (rg - L) - rs in
  if Reqb rs 0 then Err ZeroDivisionError else
  if Rleb 30 (surf / rs) then Ok 1%Z else
  if Reqb surf 0 then Err ZeroDivisionError else
  if Reqb precision 0 then Err OverflowError else
  if Rltb precision 0 then Err ValueError else
  let eta := - log10 precision * 0.33 + 3 in
  let r_o_L := rs / surf in
  Ok (Z.max (trunc (exp eta * r_o_L / 13) + l_offset) 1).

(** ** geometry.py:43-82, SphereSphere.__init__ *)
Inductive evaluation := EvLndet | EvTrace | EvOther.
Inductive auto_int := Automatic | Given (n : Z).

Record sphere_attrs := {
  s_r1 : radius; s_r2 : radius; s_L : R;
  s_lmax : Z; s_lssmax : Z; s_l_offset : Z;
  s_ext : bool;              (* self.ext_flag *)
  s_trace : bool;            (* self.mSumme replaced by mSum_roundtrips *)
  s_force : bool; s_precision : R;
}.

Definition sphere_init (r1 r2 : radius) (L : R) (lmax : auto_int) (l_offset : Z)
           (lssmax : auto_int) (precision : R) (force : bool) (ev : evaluation)
  : res sphere_attrs :=
  do tr <- (match ev with EvLndet => Ok false | EvTrace => Ok true | EvOther => Err ValueError end) ;
  do o1 <- outer r1 ;
  do o2 <- outer r2 ;
  do lm <- (match lmax with Automatic => get_lmax o1 o2 L precision l_offset | Given n => Ok n end) ;
  do ls <- (match lssmax with
            | Automatic => if Reqb (Rmin o1 o2) 0 then Err ZeroDivisionError
                           else Ok (trunc (Rmax o1 o2 / Rmin o1 o2 * IZR lm))
            | Given n => Ok n
            end) ;
  Ok {| s_r1 := r1; s_r2 := r2; s_L := L; s_lmax := lm; s_lssmax := ls; s_l_offset := l_offset;
        s_ext := Rltb (o1 + o2) L; s_trace := tr; s_force := force; s_precision := precision |}.

(** geometry.py:608-622, CoatedSphereSphere.__init__: the positional arguments
    (lmax, lssmax, forceFlag) land in (lmax, l_offset, lssmax) of the parent. *)
Definition coated_init (r1_a r2_a L : R) (lmax lssmax : Z) (forceFlag : Z) : res sphere_attrs :=
  sphere_init (RSolid r1_a) (RSolid r2_a) L (Given lmax) lssmax (Given forceFlag)
              1e-4 false EvLndet.

(** ** Sums over m *)

(** index of the first maximum of |v|; NaN counts as largest (numpy argmax of np.abs) *)
Fixpoint argmax_aux (best : xr) (bi : nat) (i : nat) (l : list xr) : nat :=
  match l with
  | [] => bi
  | x :: r =>
      match best with
      | NaN => bi
      | _ => match xabs x with
             | NaN => i
             | a => if xgtb a best then argmax_aux a i (Datatypes.S i) r
                    else argmax_aux best bi (Datatypes.S i) r
             end
      end
  end.
Definition argmax_abs (l : list xr) : nat :=
  match l with
  | [] => 0%nat
  | x :: r => argmax_aux (xabs x) 0 1 r
  end.

Definition zipx (f : xr -> xr -> xr) (a b : list xr) : list xr :=
  map (fun p => f (fst p) (snd p)) (combine a b).

Section MSum.
  Context {S : Type}.
  (** [term m ks] stands for balanced_slogdet(matrix_append(self.blockmatrices(m, ks)), conv);
      [term0 m] for sln_det_blockdiagonal of self.blockmatrices_k0(m). *)
  Context (term : nat -> list R -> M S (list xr)).
  Context (term0 : nat -> M S xr).
  Context (lmax : nat).
  Context (precision : R).

  Definition at_ (l : list xr) (i : nat) : xr := nth i l NaN.

  (** geometry.py:505-516, the loop of mSumme; [n] iterations left, next is [m].
      In-place += of arrays of different length raises ValueError. *)
  Fixpoint mloop (n m : nat) (ks : list R) (acc : list xr) : M S (list xr) :=
    match n with
    | O => ret acc
    | Datatypes.S n =>
        if Nat.eqb (length acc) 0 then raise ValueError else   (* argmax of an empty array *)
        let max_id := argmax_abs acc in
        if xeqb (at_ acc max_id) (Fin 0) then ret acc
        else
          t <~ term m ks ;;
          (if Nat.eqb (length t) (length acc) then
             let new := zipx xadd acc (map (xmul (Fin 2)) t) in
             let rel := xabs (xsub (xabs (xdiv (at_ new max_id) (at_ acc max_id))) (Fin 1)) in
             if xltb rel (Fin (precision / 10)) then ret new
             else mloop n (Datatypes.S m) ks new
           else raise ValueError)
    end.

  (** geometry.py:463-473, mSumme_k0 *)
  Fixpoint mloop_k0 (n m : nat) (acc : xr) : M S xr :=
    match n with
    | O => ret acc
    | Datatypes.S n =>
        t <~ term0 m ;;
        (let new := xadd acc (xmul (Fin 2) t) in
         let rel := xabs (xsub (xabs (xdiv acc new)) (Fin 1)) in
         if xltb rel (Fin (precision / 10)) then ret new
         else mloop_k0 n (Datatypes.S m) new)
    end.
  Definition mSumme_k0 : M S (list xr) :=
    t <~ term0 0 ;; r <~ mloop_k0 lmax 1 t ;; ret [r].

  (** geometry.py:491-516, mSumme.  Structural recursion on the frequency array
      because of the recursive call on matsubaras[1:]. *)
  Fixpoint mSumme (ks : list R) : M S (list xr) :=
    match ks with
    | [] => raise IndexError
    | k :: rest =>
        if Reqb k 0 then
          z <~ mSumme_k0 ;;
          match rest with
          | [] => ret z
          | _ => r <~ mSumme rest ;; ret (z ++ r)
          end
        else t <~ term 0 ks ;; mloop lmax 1 ks t
    end.

  (** geometry.py:475-489, single_m *)
  Fixpoint single_m (m : nat) (ks : list R) : M S (list xr) :=
    match ks with
    | [] => raise IndexError
    | k :: rest =>
        if Reqb k 0 then
          z <~ term0 m ;;
          match rest with
          | [] => ret [z]
          | _ => r <~ single_m m rest ;; ret ([z] ++ r)
          end
        else term m ks
    end.

  (** geometry.py:547-559, mSum_roundtrips (evaluation = "trace"); [tr m ks] stands for
      self.arbitrary_roundtrips(self.supermatrix(m, ks, 0), order, m). *)
  Context (tr : nat -> list R -> M S (list xr)).
  Fixpoint rloop (n m : nat) (ks : list R) (acc : list xr) : M S (list xr) :=
    match n with
    | O => ret acc
    | Datatypes.S n =>
        t <~ tr m ks ;;
        (if Nat.eqb (length acc) 0 then raise ValueError else  (* argmax of an empty array *)
         if Nat.eqb (length t) (length acc) then
           let new := zipx xadd acc (map (xmul (Fin 2)) t) in
           let max_id := argmax_abs new in
           let rel := xabs (xdiv (at_ new max_id) (at_ acc max_id)) in
           if xltb rel (Fin precision) then ret new
           else rloop n (Datatypes.S m) ks new
         else raise ValueError)
    end.
  Definition mSum_roundtrips (ks : list R) : M S (list xr) :=
    t <~ tr 0 ks ;; rloop lmax 1 ks t.
End MSum.

(** ** Caches of Mie coefficients *)
Section Cache.
  (** Coefficients of one angular momentum (TE, TM, log) for all frequencies; opaque here. *)
  Context {A B V : Type}.
  (** mie(k, 1, lmax, r1): one entry per l = 1..lmax, a function of k (geometry.py:129-146) *)
  Context (mieA_of : list R -> list A).
  Context (mieB_of : list R -> list B).
  (** translation(...).trans_ab() for (m, k) (geometry.py:95-98, 154-157) *)
  Context (trans : nat -> list R -> V).

  (** the attributes K, MieA, MieB *)
  Record mcache := { c_K : option (list R); c_A : list A; c_B : list B }.
  Definition empty_cache : mcache := {| c_K := None; c_A := []; c_B := [] |}.

  (** np.shape(self.K) == np.shape(k) and (self.K == k).all() *)
  Fixpoint same_ks (a b : list R) : bool :=
    match a, b with
    | [], [] => true
    | x :: a, y :: b => Reqb x y && same_ks a b
    | _, _ => false
    end.

  (** geometry.py:84-169 with forceFlag = 0: a hit returns slices [lmin-1:], a miss
      stores and returns the unsliced arrays. *)
  Definition roundTrip_elements (m : nat) (k : list R) (s : mcache)
    : mcache * (list A * list B * V) :=
    let lmin := Nat.max 1 m in
    let hit := match c_K s with Some k0 => same_ks k0 k | None => false end in
    if hit then
      (s, (skipn (lmin - 1) (c_A s), skipn (lmin - 1) (c_B s), trans m k))
    else
      let s' := {| c_K := Some k; c_A := mieA_of k; c_B := mieB_of k |} in
      (s', (c_A s', c_B s', trans m k)).

  (** zero frequency: mie_k0(lmin, lmax, r): entries for l = lmin..lmax *)
  Context (mieA0_of : nat -> list A).
  Context (mieB0_of : nat -> list B).
  Context (trans0 : nat -> V).
  Record zcache := { z_A : option (list A); z_B : option (list B) }.
  Definition empty_zcache : zcache := {| z_A := None; z_B := None |}.

  (** geometry.py:171-220 for solid spheres with forceFlag = 0 *)
  Definition roundTrip_elements_k0 (m : nat) (s : zcache) : zcache * (list A * list B * V) :=
    let lmin := Nat.max 1 m in
    match z_A s, z_B s with
    | Some a, Some b => (s, (skipn (lmin - 1) a, skipn (lmin - 1) b, trans0 m))
    | _, _ =>
        let a := mieA0_of lmin in
        let b := mieB0_of lmin in
        ({| z_A := Some a; z_B := Some b |}, (a, b, trans0 m))
    end.
End Cache.
