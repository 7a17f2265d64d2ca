(** * Model of CasimirRio/scattering.py and the shell formula of stratified_sphere_scattering.py *)
From Coq Require Import Bool Reals ZArith List.
From Verif Require Import Base Mat_Model Help_Model Bessel_Model.
From Verif Require Misc_Model.
Import ListNotations.
Open Scope R_scope.

(** outcome of a call: a value, an exception, or outside the model (an infinite or undefined permittivity or
    permeability, where numpy would go on with inf and nan) *)
Inductive out (A : Type) := Val (a : A) | Exc (e : exn) | Unmodelled.
Arguments Val {A} a.
Arguments Exc {A} e.
Arguments Unmodelled {A}.
Definition obind {A B} (x : out A) (f : A -> out B) : out B :=
  match x with Val a => f a | Exc e => Exc e | Unmodelled => Unmodelled end.
Notation "'let!' x := m 'in' f" := (obind m (fun x => f)) (at level 200, x pattern, m at level 100, f at level 200).
Definition of_res {A} (x : res A) : out A := match x with Ok a => Val a | Err e => Exc e end.

(** ** materials as used here *)
Inductive material := Lorentz (e : list osc) (b : bprops) | Smith (e : list osc) (b : bprops) | PEC.
Definition is_pec (m : material) : bool := match m with PEC => true | _ => false end.
Definition eps_x (m : material) (ks : list R) : res (list xr) :=
  match m with
  | Lorentz e _ => Ok (epsilon e ks)
  | Smith e _ => epsilon_smith e ks
  | PEC => epsilon_pec (AArray ks)
  end.
Definition mu_x (m : material) (ks : list R) : res (list xr) :=
  match m with
  | Lorentz _ b => Ok (mu b ks)
  | Smith _ b => mu_smith b (AArray ks)
  | PEC => mu_pec (AArray ks)
  end.
Fixpoint fins (l : list xr) : out (list R) :=
  match l with
  | [] => Val []
  | Fin x :: r => let! y := fins r in Val (x :: y)
  | _ => Unmodelled
  end.
Definition eps_of (m : material) (ks : list R) : out (list R) := let! v := of_res (eps_x m ks) in fins v.
Definition mu_of (m : material) (ks : list R) : out (list R) := let! v := of_res (mu_x m ks) in fins v.

(** sqrt(eps*mu), elementwise; k*r; products of arrays *)
Definition index (eps mu : list R) : list R := vmap2 (fun a b => sqrt (a * b)) eps mu.
Definition times (a b : list R) : list R := vmap2 Rmult a b.

(** ** arrays of shape (len(k), lmax-lmin+1), stored as a list of columns (one per l) *)
Definition cell (M : list (list R)) (j q : nat) : R := nth q (nth j M []) 0.
Definition at_ (v : list R) (q : nat) : R := nth q v 0.
Definition tabulate (n nk : nat) (f : nat -> nat -> R) : list (list R) :=
  map (fun j => map (fun q => f j q) (seq 0 nk)) (seq 0 n).
(** TE, TM and logarithm of the scaling factor *)
Definition coefs := (list (list R) * list (list R) * list (list R))%type.
Definition assemble (n nk : nat) (f : nat -> nat -> R * R * R) : coefs :=
  (tabulate n nk (fun j q => fst (fst (f j q))), tabulate n nk (fun j q => snd (fst (f j q))), tabulate n nk (fun j q => snd (f j q))).

(** scattering.py:127-129 and the like: logarithmic derivatives from ln i_{l-1}, ln i_l (ln k_{l-1}, ln k_l) *)
Definition dI (l : nat) (x lo hi : R) : R := - INR l + x * exp (lo - hi).
Definition dK (l : nat) (x lo hi : R) : R := - INR l - x * exp (lo - hi).
(** (-1)**l *)
Definition sgn (l : nat) : R := (-1) ^ l.

(** scattering.py:133-141 for one element; [p] stands for mu (TE) or epsilon (TM) *)
Definition ratio_ext (p_i p_e di de ke : R) : R := (p_e * di - p_i * de) / (p_e * di - p_i * ke).
(** scattering.py:188-196 *)
Definition ratio_int (p_i p_e di ki ke : R) : R := (p_e * ki - p_i * ke) / (p_e * di - p_i * ke).

Section Mie.
  (** bessel_sk.mie_bessels; a parameter only to state theorems with exact Bessel functions in its place *)
  Context (bessels : list R -> nat -> Z -> res (list (list R) * list (list R))).
  Context (ks : list R) (l0 : nat) (lmax : Z) (r : R).   (* lmin = l0 + 1 *)
  Let nk := length ks.
  Let kr := map (fun k => k * r) ks.
  Let nl := Z.to_nat (lmax - Z.of_nat l0).

  (** scattering.py:89-143 *)
  Definition mie_lossy (m1 m2 : material) : out coefs :=
    let! eps_i := eps_of m1 ks in let! mu_i := mu_of m1 ks in
    let! eps_e := eps_of m2 ks in let! mu_e := mu_of m2 ks in
    let xi := times kr (index eps_i mu_i) in
    let xe := times kr (index eps_e mu_e) in
    let! (iv_e, kv_e) := of_res (bessels xe l0 lmax) in
    let! (iv_i, kv_i) := of_res (bessels xi l0 lmax) in
    Val (assemble nl nk (fun j q =>
      let l := (l0 + 1 + j)%nat in
      let id_i := dI l (at_ xi q) (cell iv_i j q) (cell iv_i (S j) q) in
      let id_e := dI l (at_ xe q) (cell iv_e j q) (cell iv_e (S j) q) in
      let kd_e := dK l (at_ xe q) (cell kv_e j q) (cell kv_e (S j) q) in
      let prefak := sgn l * PI * 0.5 in
      (ratio_ext (at_ mu_i q) (at_ mu_e q) id_i id_e kd_e * prefak,
       ratio_ext (at_ eps_i q) (at_ eps_e q) id_i id_e kd_e * prefak,
       cell iv_e (S j) q - cell kv_e (S j) q))).

  (** scattering.py:261-280 *)
  Definition miePEC (m2 : material) : out coefs :=
    let! eps_e := eps_of m2 ks in let! mu_e := mu_of m2 ks in
    let xe := times kr (index eps_e mu_e) in
    let! (iv_e, kv_e) := of_res (bessels xe l0 lmax) in
    Val (assemble nl nk (fun j q =>
      let l := (l0 + 1 + j)%nat in
      let id_e := dI l (at_ xe q) (cell iv_e j q) (cell iv_e (S j) q) in
      let kd_e := dK l (at_ xe q) (cell kv_e j q) (cell kv_e (S j) q) in
      let prefak := sgn l * PI * 0.5 in
      (prefak, prefak * id_e / kd_e, cell iv_e (S j) q - cell kv_e (S j) q))).

  (** scattering.py:18-20: mie is replaced for a perfectly conducting mat1 *)
  Definition mie (m1 m2 : material) : out coefs := if is_pec m1 then miePEC m2 else mie_lossy m1 m2.

  (** scattering.py:145-198 *)
  Definition mie_internal_lossy (m1 m2 : material) : out coefs :=
    let! eps_e := eps_of m2 ks in let! mu_e := mu_of m2 ks in
    let! eps_i := eps_of m1 ks in let! mu_i := mu_of m1 ks in
    let xi := times kr (index eps_i mu_i) in
    let xe := times kr (index eps_e mu_e) in
    let! (iv_i, kv_i) := of_res (bessels xi l0 lmax) in
    let! (iv_e, kv_e) := of_res (bessels xe l0 lmax) in
    Val (assemble nl nk (fun j q =>
      let l := (l0 + 1 + j)%nat in
      let id_i := dI l (at_ xi q) (cell iv_i j q) (cell iv_i (S j) q) in
      let kd_i := dK l (at_ xi q) (cell kv_i j q) (cell kv_i (S j) q) in
      let kd_e := dK l (at_ xe q) (cell kv_e j q) (cell kv_e (S j) q) in
      let prefak := sgn l * 2 / PI in
      (ratio_int (at_ mu_i q) (at_ mu_e q) id_i kd_i kd_e * prefak,
       ratio_int (at_ eps_i q) (at_ eps_e q) id_i kd_i kd_e * prefak,
       cell kv_i (S j) q - cell iv_i (S j) q))).

  (** scattering.py:282-301 *)
  Definition miePEC_internal (m1 : material) : out coefs :=
    let! eps_i := eps_of m1 ks in let! mu_i := mu_of m1 ks in
    let xi := times kr (index eps_i mu_i) in
    let! (iv_i, kv_i) := of_res (bessels xi l0 lmax) in
    Val (assemble nl nk (fun j q =>
      let l := (l0 + 1 + j)%nat in
      let id_i := dI l (at_ xi q) (cell iv_i j q) (cell iv_i (S j) q) in
      let kd_i := dK l (at_ xi q) (cell kv_i j q) (cell kv_i (S j) q) in
      let prefak := sgn l * 2 / PI in
      (prefak, prefak * (kd_i / id_i), cell kv_i (S j) q - cell iv_i (S j) q))).

  (** scattering.py:21-22: mie_internal is replaced for a perfectly conducting mat2 *)
  Definition mie_internal (m1 m2 : material) : out coefs := if is_pec m2 then miePEC_internal m1 else mie_internal_lossy m1 m2.

  (** scattering.py:353-394 = stratified_sphere_scattering.py:72-114: a shell with outer radius r of material m2 in
      m3; [inner] are the coefficients of what is inside, embedded in m2 *)
  Definition coat (m2 m3 : material) (inner : coefs) : out coefs :=
    let '(te_in, tm_in, inner_scale) := inner in
    let! eps_i := eps_of m2 ks in let! mu_i := mu_of m2 ks in
    let! eps_e := eps_of m3 ks in let! mu_e := mu_of m3 ks in
    let xi := times kr (index eps_i mu_i) in
    let xe := times kr (index eps_e mu_e) in
    let! (iv_e, kv_e) := of_res (bessels xe l0 lmax) in
    let! (iv_i, kv_i) := of_res (bessels xi l0 lmax) in
    Val (assemble nl nk (fun j q =>
      let l := (l0 + 1 + j)%nat in
      let exp1 := exp (cell kv_i (S j) q - cell iv_i (S j) q + cell inner_scale j q) in
      let id_i := dI l (at_ xi q) (cell iv_i j q) (cell iv_i (S j) q) in
      let id_e := dI l (at_ xe q) (cell iv_e j q) (cell iv_e (S j) q) in
      let kd_i := dK l (at_ xi q) (cell kv_i j q) (cell kv_i (S j) q) in
      let kd_e := dK l (at_ xe q) (cell kv_e j q) (cell kv_e (S j) q) in
      let pih := PI / 2 in
      let pihI := 1 / pih in
      let shell p_i p_e mi :=
        let z := (kd_i * p_e - id_e * p_i) * pihI * sgn l * exp1 * mi - (id_i * p_e - id_e * p_i) in
        let n := (kd_i * p_e - kd_e * p_i) * pihI * sgn l * exp1 * mi - (id_i * p_e - kd_e * p_i) in
        sgn l * pih * z / n in
      (shell (at_ mu_i q) (at_ mu_e q) (cell te_in j q),
       shell (at_ eps_i q) (at_ eps_e q) (cell tm_in j q),
       cell iv_e (S j) q - cell kv_e (S j) q))).
End Mie.

(** scattering.py:342-394: core m1 of radius ri, coating m2 up to ra, medium m3 *)
Definition mie_coated (bessels : list R -> nat -> Z -> res (list (list R) * list (list R))) (ks : list R) (l0 : nat) (lmax : Z) (ri ra : R) (m1 m2 m3 : material) : out coefs :=
  let! inner := mie bessels ks l0 lmax ri m1 m2 in coat bessels ks l0 lmax ra m2 m3 inner.

(** stratified_sphere_scattering.py:37-53: the control flow is Misc_Model.mie_strat (materials are numbers, compared as
    objects), the coefficients are those above; [mat] gives the material of a number *)
Definition strat (bessels : list R -> nat -> Z -> res (list (list R) * list (list R))) (ks : list R) (l0 : nat) (lmax : Z) (mat : nat -> material) (mats : list nat) (rs : list R) : res (out coefs) :=
  snd (Misc_Model.mie_strat (fun m0 m1 r => Ok (mie bessels ks l0 lmax r (mat m0) (mat m1)))
                            (fun ri ra m2 m3 inner => Ok (let! c := inner in coat bessels ks l0 lmax ra (mat m2) (mat m3) c)) mats rs).

(** ** scattering.py:303-321, one element; :323-328 for a perfectly conducting mat1 *)
Definition fresnel1 (epsP muP epsM muM kperp kn : R) : R * R :=
  let nP := sqrt (epsP * muP) in
  let nM := sqrt (epsM * muM) in
  let sqrtM := sqrt (kperp ^ 2 + (kn * nM) ^ 2) in
  let sqrtP := sqrt (kperp ^ 2 + (kn * nP) ^ 2) in
  ((muP * sqrtM - muM * sqrtP) / (muP * sqrtM + muM * sqrtP),
   (epsP * sqrtM - epsM * sqrtP) / (epsP * sqrtM + epsM * sqrtP)).
(** for arrays kperp and kn of equal length *)
Definition fresnel (m1 m2 : material) (kperps kns : list R) : out (list (R * R)) :=
  if is_pec m1 then Val [(-1, 1)]                      (* the scalars -1, 1 *)
  else
    let! epsP := eps_of m1 kns in let! epsM := eps_of m2 kns in
    let! muP := mu_of m1 kns in let! muM := mu_of m2 kns in
    Val (map (fun q => fresnel1 (at_ epsP q) (at_ muP q) (at_ epsM q) (at_ muM q) (at_ kperps q) (at_ kns q))
             (seq 0 (length kns))).

(** ** zero frequency *)
(** sigma and dielectric flags; the perfect conductor has no attribute is_dielectric *)
Definition sigma_finite (m : material) : bool :=
  match m with Lorentz e _ => is_sigma_finite e | Smith e _ => is_sigma_finite e | PEC => false end.
Definition dielectric (m : material) : res bool :=
  match m with Lorentz e _ => Ok (is_dielectric e) | Smith e _ => Ok (is_dielectric e) | PEC => Err AttributeError end.
Definition first_wP (m : material) : R :=
  match m with Lorentz (o :: _) _ => o_wP o | Smith (o :: _) _ => o_wP o | _ => 0 end.
Definition hd0 (l : list R) : R := nth 0 l 0.

(** scattering.py:28-86; lmin = l0+1; three rows over l = lmin..lmax *)
Definition mie_k0 (m1 m2 : material) (l0 : nat) (lmax : nat) (Rad : R) : out (list R * list R * list R) :=
  let ls := seq (l0 + 1) (lmax - l0) in
  let! mu0_md := mu_of m2 [0] in
  if negb (sigma_finite m2) then Exc NotImplementedError else
  let! diel2 := of_res (dielectric m2) in
  if negb diel2 then Exc NotImplementedError else
  let! eps_md := eps_of m2 [0] in
  let nMd := sqrt (hd0 eps_md * hd0 mu0_md) in
  let mu_md := hd0 mu0_md in
  let common l := - ln (2 * INR l + 1) - 2 * ln_2dbl l in
  let bTM l := (INR l + 1) / INR l in
  let finish (bTE bTM : nat -> R) : out (list R * list R * list R) :=
    Val (map (fun l => sgn l * bTE l) ls, map (fun l => - sgn l * bTM l) ls, map common ls) in
  if is_pec m1 then finish (fun _ => 1) bTM
  else
    let! mu0_sp := mu_of m1 [0] in
    let mu_sp := hd0 mu0_sp in
    let w := first_wP m1 * Rad / 2.998e14 in
    if negb (sigma_finite m1) then
      let! fr := of_res (i_fraction [w] (map (fun l => INR l - 0.5) ls)) in
      let term l := - INR l + w * hd0 (nth (l - (l0 + 1)) fr []) in
      finish (fun l => (mu_md * term l - mu_sp * (INR l + 1)) / (mu_sp * INR l + mu_md * term l)) bTM
    else
      let bTE l := - (INR l + 1) * (mu_sp - mu_md) / (INR l * (mu_sp + mu_md) + mu_md) in
      let! diel1 := of_res (dielectric m1) in
      if diel1 then
        let! eps_sp := eps_of m1 [0] in
        let n0sp := sqrt (mu_sp * hd0 eps_sp) in
        finish bTE (fun l => (INR l + 1) * ((mu_md * n0sp ^ 2 - mu_sp * nMd ^ 2) /
                                            (INR l * mu_md * n0sp ^ 2 + (INR l + 1) * mu_sp * nMd ^ 2)))
      else finish bTE bTM.

(** numpy broadcasting of two 1-d arrays *)
Definition bcast (f : R -> R -> R) (a b : list R) : out (list R) :=
  match a, b with
  | [x], _ => Val (map (f x) b)
  | _, [y] => Val (map (fun x => f x y) a)
  | _, _ => if Nat.eqb (length a) (length b) then Val (vmap2 f a b) else Exc ValueError
  end.

(** scattering.py:201-259 *)
Definition mie_internal_k0 (m1 m2 : material) (l0 : nat) (lmax : nat) (Rad : R) : out (list R * list R * list R) :=
  let ls := seq (l0 + 1) (lmax - l0) in
  let! mu0_i := mu_of m1 [0] in
  let! mu0_e := mu_of m2 [0] in
  if negb (sigma_finite m1) then Exc NotImplementedError else
  let! diel1 := of_res (dielectric m1) in
  if negb diel1 then Exc NotImplementedError else
  let! eps_i := eps_of m1 [0] in
  let mu_i := hd0 mu0_i in
  let mu_e := hd0 mu0_e in
  let common l := ln (2 * INR l + 1) + 2 * ln_2dbl l in
  let bTM l := INR l / (INR l + 1) in
  let finish (bTE : list R) (bTM : nat -> R) : out (list R * list R * list R) :=
    let! te := bcast Rmult (map sgn ls) bTE in
    (* np.append along axis 0 needs rows of equal length *)
    if Nat.eqb (length te) (length ls) then
      Val (te, map (fun l => - sgn l * bTM l) ls, map common ls)
    else Exc ValueError in
  if is_pec m2 then finish (map (fun _ => 1) ls) bTM
  else
    let w := first_wP m2 * Rad / 2.998e14 in
    if negb (sigma_finite m2) then
      let! kw := of_res (lnknu [w] (AnInt (Z.of_nat lmax))) in
      let kwp := map hd0 kw in
      let quot := vmap2 (fun a b => exp (a - b) * w) (removelast kwp) (tl kwp) in
      let! k_ratio := bcast (fun a l => a / (2 * l - 1)) quot (map INR ls) in
      let! k_frac := bcast (fun l v => - l - w * v) (map INR ls) k_ratio in
      let! num := bcast (fun l f => - (mu_e * l + mu_i * f)) (map INR ls) k_frac in
      let! den := bcast (fun l f => (l + 1) * mu_e - mu_i * f) (map INR ls) k_frac in
      finish (vmap2 Rdiv num den) bTM
    else
      let bTE := map (fun l => (- mu_e + mu_i) * INR l / (INR l * (mu_i + mu_e) + mu_e)) ls in
      let! diel2 := of_res (dielectric m2) in
      if diel2 then
        let! eps_e := eps_of m2 [0] in
        finish bTE (fun l => INR l * (hd0 eps_e - hd0 eps_i) / ((INR l + 1) * hd0 eps_e + hd0 eps_i * INR l))
      else finish bTE bTM.
