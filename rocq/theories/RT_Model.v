(** * Model of the round-trip matrices of SphereSphere (geometry.py), from materials and radii to blocks

    Composition of Scat_Model (Mie coefficients), Trans_Model (translation coefficients) and Lin_Model (blocks).  The
    caches are those of Geo_Model: what is modelled here is the result of a request that finds the right coefficients
    (theorems C11 and C12 say when that is).  forceFlag = 0.  Exact arithmetic, positive radii and distances. *)
From Coq Require Import Bool Reals ZArith List.
From Verif Require Import Base Bessel_Model Scat_Model Trans_Model Lin_Model.
Import ListNotations.
Open Scope R_scope.

(** a sphere is given by a material and a radius or by two lists; material numbers as in Misc_Model.mie_strat, the last
    one is the medium *)
Inductive sphere := Solid (m : material) (r : R) | Layered (mats : list nat) (rs : list R).

Record config := {
  c_1 : sphere; c_2 : sphere; c_med : material; c_L : R; c_lmax : nat; c_lssmax : nat;
  c_ext : bool;                      (* self.ext_flag *)
  c_mat : nat -> material }.         (* the materials of Layered *)

(** geometry.py:68-71 *)
Definition outer_radius (s : sphere) : res R :=
  match s with
  | Solid _ r => Ok r
  | Layered _ rs => match rs with [] => Err IndexError | _ => Ok (last rs 0) end
  end.
(** geometry.py:43-82 with given lmax and lssmax *)
Definition sphere_sphere (mat : nat -> material) (s1 s2 : sphere) (med : material) (L : R) (lmax lssmax : nat) : res config :=
  do r1 <- outer_radius s1 ;
  do r2 <- outer_radius s2 ;
  Ok {| c_1 := s1; c_2 := s2; c_med := med; c_L := L; c_lmax := lmax; c_lssmax := lssmax; c_ext := Rltb (r1 + r2) L; c_mat := mat |}.

Definition flat {A} (x : res (out A)) : out A := match x with Ok y => y | Err e => Exc e end.
(** max(1, m) *)
Definition lmin (m : Z) : nat := Z.to_nat (Z.max 1 m).

Section RT.
  (** bessel_sk.mie_bessels and bessel_sk.trans_bessels *)
  Context (mieb : list R -> nat -> Z -> res (list (list R) * list (list R))) (transb : bessel_fun).
  Context (c : config).

  (** numbers of orders l1 and lss *)
  Definition n1 (m : Z) : nat := (c_lmax c + 1 - lmin m)%nat.
  Definition n2 (m : Z) : nat := (c_lssmax c + 1 - lmin m)%nat.

  (** ** finite frequencies *)
  (** geometry.py:128-133 *)
  Definition mieA (ks : list R) : out coefs :=
    match c_1 c with
    | Solid m r => mie mieb ks 0 (Z.of_nat (c_lmax c)) r m (c_med c)
    | Layered mats rs => flat (strat mieb ks 0 (Z.of_nat (c_lmax c)) (c_mat c) mats rs)
    end.
  (** geometry.py:134-145 *)
  Definition mieB (ks : list R) : out coefs :=
    match c_2 c with
    | Solid m r => if c_ext c then mie mieb ks 0 (Z.of_nat (c_lssmax c)) r m (c_med c)
                   else mie_internal mieb ks 0 (Z.of_nat (c_lssmax c)) r (c_med c) m
    | Layered mats rs => flat (strat mieb ks 0 (Z.of_nat (c_lssmax c)) (c_mat c) mats rs)
    end.
  (** geometry.py:154-157; blockmatrices never asks for k = [0] here *)
  Definition trans (m : Z) (ks : list R) : out (list (list vrow)) :=
    let! t := translation_init transb (c_lmax c) (c_lssmax c) m (c_med c) (c_L c) ks (c_ext c) false in
    let! v := trans_ab t in
    match v with Dynamic V => Val V | Static _ => Unmodelled end.
  Definition vget (V : list (list vrow)) (pick : vrow -> list R) (q i s : nat) : R :=
    match nth_error (nth i V []) s with Some v => at_ (pick v) q | None => 0 end.
  (** geometry.py:84-169: the coefficients for l >= max(1, m), for each frequency *)
  Definition pack (m : Z) (A B : coefs) (V : list (list vrow)) (q : nat) : roundtrip :=
    let o := (lmin m - 1)%nat in
    {| aTE := fun i => cell (fst (fst A)) (o + i) q; aTM := fun i => cell (snd (fst A)) (o + i) q; a2 := fun i => cell (snd A) (o + i) q;
       bTE := fun s => cell (fst (fst B)) (o + s) q; bTM := fun s => cell (snd (fst B)) (o + s) q; b2 := fun s => cell (snd B) (o + s) q;
       V0 := vget V v_EEab q; V1 := vget V v_EEba q; V2 := vget V v_EMab q; V3 := vget V v_EMba q; V4 := vget V v_skal q |}.
  Definition elements (m : Z) (ks : list R) : out (nat -> roundtrip) :=
    let! A := mieA ks in
    let! B := mieB ks in
    let! V := trans m ks in
    Val (pack m A B V).
  (** geometry.py:282-331 without a leading zero frequency *)
  Definition rt_blocks (m : Z) (ks : list R) : out (arr3 * arr3 * arr3 * arr3) :=
    let! e := elements m ks in of_res (blockmatrices (length ks) (n1 m) (n2 m) e).
  (** geometry.py:500, matrix_append(self.blockmatrices(m, ks)) *)
  Definition rt_matrix (m : Z) (ks : list R) : out arr3 :=
    let! (A, B, C, D) := rt_blocks m ks in of_res (matrix_append [A; B; C; D]).
  (** geometry.py:500-502, the contribution of m *)
  Definition rt_lndet (fuel : nat) (conv : R) (m : Z) (ks : list R) : option (out (list xr)) :=
    match rt_matrix m ks with
    | Val M => match balanced_slogdet fuel conv M with Some r => Some (of_res r) | None => None end
    | Exc e => Some (Exc e)
    | Unmodelled => Some Unmodelled
    end.

  (** ** zero frequency *)
  (** geometry.py:199-211: three rows over l = 1..lmax for each sphere *)
  Definition elements_k0 (m : Z) : out ((list R * list R * list R) * (list R * list R * list R) * list (list (R * R)) * (R * R)) :=
    match c_1 c, c_2 c with
    | Solid mat1 ra, Solid mat2 rb =>
        let! A := mie_k0 mat1 (c_med c) 0 (c_lmax c) ra in
        let! B := if c_ext c then mie_k0 mat2 (c_med c) 0 (c_lssmax c) rb else mie_internal_k0 (c_med c) mat2 0 (c_lssmax c) rb in
        let! t := translation_init transb (c_lmax c) (c_lssmax c) m (c_med c) (c_L c) [0] (c_ext c) false in
        let! v := trans_ab t in
        match v with Static V => Val (A, B, V, (ra, rb)) | Dynamic _ => Unmodelled end
    | _, _ => Exc NotImplementedError
    end.
  Definition vpair (V : list (list (R * R))) (i s : nat) : R * R := nth s (nth i V []) (0, 0).
  (** geometry.py:272-279: scaling and sum over lss *)
  Definition sum_k0 (m : Z) (signTE signTM : nat -> nat -> nat -> R) (lnmag : arr_log) (keep : nat -> nat -> nat -> bool) : out (arr2 * arr2) :=
    let n := n1 m in let ns := n2 m in
    let! _ := if Nat.ltb 1 n && Nat.eqb ns 0 then Exc ValueError else Val tt in
    let lm := if Nat.ltb 1 n then single_k_scale n ns lnmag else lnmag in
    let mag i j s := if keep i j s then exp (lm i j s) else 0 in
    Val (Arr2 n n (fun i j => sumn ns (fun s => signTE i j s * mag i j s)),
         Arr2 n n (fun i j => sumn ns (fun s => signTM i j s * mag i j s))).

  (** geometry.py:253-280 *)
  Definition blockmatrices_k0_ext (m : Z) : out (arr2 * arr2) :=
    let! (A, B, V, (ra, rb)) := elements_k0 m in
    let '(ate, atm, aln) := A in
    let '(bte, btm, bln) := B in
    let o := (lmin m - 1)%nat in
    let l i := (lmin m + i)%nat in
    let sg (j s : nat) := sgnZ (Z.of_nat (l s) - Z.of_nat (l j)) in
    let distance i j s := (INR (l i) + INR (l j) + 1) * ln (ra / c_L c) + (2 * INR (l s) + 1) * ln (rb / c_L c) in
    let sign a b i j s := sg j s * fst (vpair V i s) * fst (vpair V j s) * at_ a (o + i) * at_ b (o + s) in
    sum_k0 m (sign ate bte) (sign atm btm)
      (fun i j s => at_ aln (o + i) + at_ bln (o + s) + snd (vpair V i s) + snd (vpair V j s) + distance i j s)
      (fun _ _ _ => true).

  (** geometry.py:222-251; line 233, np.float of the array lss-l1 of n1*n2 elements *)
  Definition blockmatrices_k0_int (m : Z) : out (arr2 * arr2) :=
    let! (A, B, V, (ra, rb)) := elements_k0 m in
    let '(ate, atm, aln) := A in
    let '(bte, btm, bln) := B in
    let o := (lmin m - 1)%nat in
    let l i := (lmin m + i)%nat in
    let! _ := if Nat.eqb (n1 m * n2 m) 1 then Val tt else Exc TypeError in
    let sg := sgnZ (Z.of_nat (l 0%nat) - Z.of_nat (l 0%nat)) in
    let distance i j s := ln (ra / rb) + INR (l i) * ln (ra / c_L c) + 2 * INR (l s) * ln (c_L c / rb) + INR (l j) * ln (ra / c_L c) in
    let sign a b i j s := sg * fst (vpair V i s) * fst (vpair V j s) * at_ a (o + i) * at_ b (o + s) in
    sum_k0 m (sign ate bte) (sign atm btm)
      (fun i j s => at_ aln (o + i) + at_ bln (o + s) + snd (vpair V j s) + snd (vpair V i s) + distance i j s)
      (fun i j s => Nat.leb (l i) (l s) && Nat.leb (l j) (l s)).

  (** geometry.py:77-82 *)
  Definition blockmatrices_k0 (m : Z) : out (arr2 * arr2) := if c_ext c then blockmatrices_k0_ext m else blockmatrices_k0_int m.
  (** geometry.py:458-461 *)
  Definition single_m_k0 (fuel : nat) (conv : R) (m : Z) : option (out xr) :=
    match blockmatrices_k0 m with
    | Val (A, B) => match sln_det_blockdiagonal fuel conv A B with Some r => Some (of_res r) | None => None end
    | Exc e => Some (Exc e)
    | Unmodelled => Some Unmodelled
    end.

  (** geometry.py:282-331 with a leading zero frequency: the blocks at k = 0 come first, mixing blocks are zero there *)
  Definition prepend (A0 : mat) (A : arr3) : arr3 := Arr3 (S (d3 A)) (r3 A) (c3 A) (fun k => match k with O => A0 | S k => m3 A k end).
  Definition rt_blocks_all (m : Z) (ks : list R) : out (arr3 * arr3 * arr3 * arr3) :=
    match ks with
    | [] => Exc IndexError
    | k :: rest =>
        if Reqb k 0 then
          let! (A, B, C, D) := rt_blocks m rest in
          let! (te, tm) := blockmatrices_k0 m in
          Val (prepend (m2 te) A, prepend (fun _ _ => 0) B, prepend (fun _ _ => 0) C, prepend (m2 tm) D)
        else rt_blocks m ks
    end.
End RT.
