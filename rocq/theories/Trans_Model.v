(** * Model of CasimirRio/translation.py

    Arrays over the wavenumbers are lists; [material], [out] and the permittivities are those of Scat_Model.  The Bessel
    functions are a parameter: the code uses bessel_sk.trans_bessels, see [bessel_fun] and the theorems.  m may be any
    integer, orders are natural numbers (np.arange(lmin, ...) with lmin >= 1).  Exact arithmetic; sqrt of a negative
    permittivity is not modelled. *)
From Coq Require Import Bool Reals ZArith List.
From Verif Require Import Base Mat_Model Help_Model Bessel_Model Gaunt_Model Scat_Model.
Import ListNotations.
Open Scope R_scope.

(** (arguments, largest order, ext_flag) -> one array per order *)
Definition bessel_fun := list R -> int_arg -> bool -> res (list (list R)).
(** behaviour of the C code of gaunt that is not defined by the language *)
Definition of_cres {A} (x : cres A) : out A := match x with Def a => Val a | Fault _ => Unmodelled end.
(** (-1)**z *)
Definition sgnZ (z : Z) : R := if Z.even z then 1 else -1.

(** the attributes; [t_bessels] is None if the constructor did not set self.bessels *)
Record translation := {
  t_lmin : nat; t_lmax : nat; t_lssmax : nat; t_m : Z; t_L : R; t_medium : material; t_k : list R; t_ext : bool;
  t_bessels : option (list (list R)) }.

(** translation.py:53-54, 184: k*L*sqrt(epsilon(k)) *)
Definition trans_arg (L : R) (medium : material) (ks : list R) : out (list R) :=
  let! e := eps_of medium ks in Val (vmap2 (fun k e => k * L * sqrt e) ks e).

(** translation.py:36-57; [force] = forceFlag: the class has no method get_vl1l2_force *)
Definition translation_init (bessels : bessel_fun) (lmax lssmax : nat) (m : Z) (medium : material) (L : R) (ks : list R) (ext force : bool) : out translation :=
  let! b := if existsb (fun k => Reqb k 0) ks then Val None
            else let! x := trans_arg L medium ks in
                 let! b := of_res (bessels x (AnInt (Z.of_nat (lmax + lssmax + 1))) ext) in Val (Some b) in
  let! _ := if force then Exc AttributeError else Val tt in
  Val {| t_lmin := Z.to_nat (Z.max 1 m); t_lmax := lmax; t_lssmax := lssmax; t_m := m; t_L := L; t_medium := medium; t_k := ks; t_ext := ext; t_bessels := b |}.

(** translation.py:75: fancy indexing of columns *)
Fixpoint columns (b : list (list R)) (lpp : list nat) : out (list (list R)) :=
  match lpp with
  | [] => Val []
  | l :: r => match nth_error b l with
              | None => Exc IndexError
              | Some c => let! cs := columns b r in Val (c :: cs)
              end
  end.

(** translation.py:67-84 *)
Definition get_scaled_bessels (t : translation) (lpp : list nat) : out (list (list R) * list R) :=
  match t_bessels t with
  | None => Exc AttributeError
  | Some b =>
      let! sphB := columns b lpp in
      let norm := if t_ext t then last sphB [] else hd [] sphB in
      Val (map (fun c => vmap2 (fun v n => exp (v - n)) c norm) sphB, norm)
  end.

(** translation.py:182: np.arange(abs(l1-l2), l1+l2+1, 2) *)
Definition lpps (l1 l2 : nat) : list nat :=
  map (fun i => (Nat.max l1 l2 - Nat.min l1 l2 + 2 * i)%nat) (seq 0 (Nat.min l1 l2 + 1)).

(** l*(l+1) *)
Definition llp1 (l : nat) : R := INR l * (INR l + 1).
(** translation.py:188, 193-194 for one lpp and one wavenumber; [b] is the scaled Bessel function, [g] the Gaunt
    coefficient; (-1)**(lpp-(lpp-1)*ext_flag) is (-1)**1 resp. (-1)**lpp *)
Definition common_ab (ext : bool) (m : Z) (l1 l2 lpp : nat) (b g : R) : R :=
  ((if ext then (-1) ^ 1 else (-1) ^ lpp) * sgnZ m * sqrt PI * (b * g) * sqrt ((2 * INR lpp + 1) / (llp1 l1 * llp1 l2)))
  * (if ext then 2 / PI else 1).
(** translation.py:195-198 *)
Definition EE_ab ext m l1 l2 lpp b g : R := (llp1 l1 + llp1 l2 - llp1 lpp) * common_ab ext m l1 l2 lpp b g.
Definition EM_ab ext m l1 l2 nL lpp b g : R := 2 * IZR m * nL * common_ab ext m l1 l2 lpp b g.
Definition EE_ba ext m l1 l2 lpp b g : R := EE_ab ext m l1 l2 lpp b g * (-1) ^ lpp.
Definition EM_ba ext m l1 l2 nL lpp b g : R := - EM_ab ext m l1 l2 nL lpp b g * (-1) ^ lpp.

(** vEE_ab, vEE_ba, vEM_ab, vEM_ba, skalierung: one number per wavenumber each *)
Record vrow := { v_EEab : list R; v_EEba : list R; v_EMab : list R; v_EMba : list R; v_skal : list R }.

(** translation.py:199: the sum over lpp, for each wavenumber; [B] has one array per lpp *)
Definition sum_lpp (f : nat -> R -> R -> R -> R) (x : list R) (lpp : list nat) (B : list (list R)) (g : list R) : list R :=
  map (fun q => Rsum (map (fun i => f (nth i lpp 0%nat) (at_ (nth i B []) q) (nth i g 0) (at_ x q)) (seq 0 (length lpp)))) (seq 0 (length x)).

(** translation.py:172-200; numpy broadcasting needs as many Gaunt coefficients as values of lpp (an array of length
    one would be stretched; not modelled) *)
Definition get_vl1l2 (t : translation) (l1 l2 : nat) : out vrow :=
  let lpp := lpps l1 l2 in
  let! g := of_cres (gaunt (Z.of_nat l1) (Z.of_nat l2) (t_m t)) in
  let! x := trans_arg (t_L t) (t_medium t) (t_k t) in
  let! (B, skal) := get_scaled_bessels t lpp in
  if negb (Nat.eqb (length g) (length lpp)) then Exc ValueError else
  let ext := t_ext t in let m := t_m t in
  Val {| v_EEab := sum_lpp (fun lpp b g _ => EE_ab ext m l1 l2 lpp b g) x lpp B g;
         v_EEba := sum_lpp (fun lpp b g _ => EE_ba ext m l1 l2 lpp b g) x lpp B g;
         v_EMab := sum_lpp (fun lpp b g nL => EM_ab ext m l1 l2 nL lpp b g) x lpp B g;
         v_EMba := sum_lpp (fun lpp b g nL => EM_ba ext m l1 l2 nL lpp b g) x lpp B g;
         v_skal := skal |}.

(** lfac of an integer; negative arguments are not modelled *)
Definition lfacZ (z : Z) : R := lfac (Z.to_nat z).
(** translation.py:86-113 for one pair of orders: sign and logarithm *)
Definition trans_k0_int (m : Z) (l1 l2 : nat) : R * R :=
  let lg := if Nat.ltb l1 l2 then l2 else l1 in
  let ls := if negb (Nat.ltb l1 l2) then l2 else l1 in
  let ln1 := 0.5 * (lfacZ (Z.of_nat lg + m) + lfacZ (Z.of_nat lg - m) + ln (2 * INR lg + 1) + ln (2 * INR ls + 1) + ln (INR ls * (INR lg + 1))
                    - lfacZ (Z.of_nat ls + m) - lfacZ (Z.of_nat ls - m) - ln (INR lg * (INR ls + 1))) in
  let ln2 := lfac (2 * (lg - ls) + 1) + lfac (2 * ls) + lfac lg
             - ln_2dbl (lg - ls + 1) - lfac (2 * lg + 1) - 2 * lfac (lg - ls) - lfac ls in
  (1, ln1 + ln2).
(** translation.py:116-132 *)
Definition trans_k0_ext (m : Z) (l1 l2 : nat) : R * R :=
  let ln_z1 := 0.5 * (ln (2 * INR l1 + 1) + ln (2 * INR l2 + 1) - (ln (INR l1 * (INR l1 + 1)) + ln (INR l2 * (INR l2 + 1))))
               + ln (2 * INR l1 + 2 * INR l2 + 1) + ln (INR l1) + ln (INR l2) in
  let ln_z2 := 2 * lfac (l1 + l2) + lfac (2 * l2) + lfac (2 * l1) + ln_2dbl (l1 + l2) in
  let ln_n := 0.5 * (lfacZ (Z.of_nat l1 - m) + lfacZ (Z.of_nat l2 - m) + lfacZ (Z.of_nat l1 + m) + lfacZ (Z.of_nat l2 + m))
              + lfac (2 * l1 + 2 * l2 + 1) + lfac l1 + lfac l2 in
  (sgnZ m, ln_z1 + ln_z2 - ln_n).

(** translation.py:134-169: matrices over (l1, l2) *)
Inductive tab := Static (v : list (list (R * R))) | Dynamic (v : list (list vrow)).
Fixpoint omap {A B} (f : A -> out B) (l : list A) : out (list B) :=
  match l with
  | [] => Val []
  | a :: r => let! b := f a in let! bs := omap f r in Val (b :: bs)
  end.
Definition orders (lmin lmax : nat) : list nat := seq lmin (lmax + 1 - lmin).
Definition trans_ab (t : translation) : out tab :=
  let l1 := orders (t_lmin t) (t_lmax t) in
  let l2 := orders (t_lmin t) (t_lssmax t) in
  match t_k t with
  | [k] =>
      if Reqb k 0 then
        Val (Static (map (fun a => map (fun b => (if t_ext t then trans_k0_ext else trans_k0_int) (t_m t) a b) l2) l1))
      else let! v := omap (fun a => omap (fun b => get_vl1l2 t a b) l2) l1 in Val (Dynamic v)
  | _ => let! v := omap (fun a => omap (fun b => get_vl1l2 t a b) l2) l1 in Val (Dynamic v)
  end.
