(** * Model of the two variants of blockmatrices in geometry.py (333-456)

    blockmatrices_channels returns the round trip split by intermediate polarization, blockmatrices_debug scales the
    products including the Mie and translation coefficients.  Shapes, exact arithmetic and caches as in Lin_Model and
    RT_Model; the logarithms and sums of blockmatrices_debug are extended reals, because np.log(0) = -inf. *)
From Coq Require Import Bool Reals ZArith List.
From Verif Require Import Base Bessel_Model Scat_Model Trans_Model Lin_Model RT_Model.
Import ListNotations.
Open Scope R_scope.

(** ** blockmatrices_channels *)
(** geometry.py:351-365: the factors "V01", "V23", "V03", "V21"; indices l1, l2, lss *)
Record factors := { f01 : arr_log; f23 : arr_log; f03 : arr_log; f21 : arr_log }.
Definition no_force : factors :=
  {| f01 := fun _ _ _ => 1; f23 := fun _ _ _ => 1; f03 := fun _ _ _ => 1; f21 := fun _ _ _ => 1 |}.
(** with forceFlag; division by zero as in Lin_Model.blocks_force *)
Definition force_factors (m : nat) (e : roundtrip) (d : vderiv) : factors :=
  let V83 := fun j s : nat => if Nat.eqb m 0 then 0 else V8 d j s / V3 e j s in
  let V72 := fun i s : nat => if Nat.eqb m 0 then 0 else V7 d i s / V2 e i s in
  {| f01 := fun i j s => V5 d i s / V0 e i s + V6 d j s / V1 e j s;
     f23 := fun i j s => V72 i s + V83 j s;
     f03 := fun i j s => V5 d i s / V0 e i s + V83 j s;
     f21 := fun _ _ _ => 1 |}.

(** geometry.py:365-372 for one frequency, in the order of the returned list (line 388) *)
Definition channels (ns : nat) (skal : arr_log) (e : roundtrip) (f : factors) : list mat :=
  [ (fun i j => sumn ns (fun s => skal i j s * aTE e i * (V0 e i s * bTE e s * V1 e j s * f01 f i j s)));   (* mEE1 *)
    (fun i j => sumn ns (fun s => skal i j s * aTE e i * (V2 e i s * bTM e s * V3 e j s * f23 f i j s)));   (* mEE2 *)
    (fun i j => sumn ns (fun s => skal i j s * aTM e i * (V2 e i s * bTE e s * V3 e j s * f23 f i j s)));   (* mMM1 *)
    (fun i j => sumn ns (fun s => skal i j s * aTM e i * (V0 e i s * bTM e s * V1 e j s * f01 f i j s)));   (* mMM2 *)
    (fun i j => sumn ns (fun s => skal i j s * aTE e i * (V0 e i s * bTE e s * V3 e j s * f03 f i j s)));   (* mEM1 *)
    (fun i j => sumn ns (fun s => skal i j s * aTE e i * (V2 e i s * bTM e s * V1 e j s * f21 f i j s)));   (* mEM2 *)
    (fun i j => sumn ns (fun s => skal i j s * aTM e i * (V2 e i s * bTE e s * V1 e j s * f21 f i j s)));   (* mME1 *)
    (fun i j => sumn ns (fun s => skal i j s * aTM e i * (V0 e i s * bTM e s * V3 e j s * f03 f i j s))) ]. (* mME2 *)

Definition zero_mat : mat := fun _ _ => 0.
(** geometry.py:341-372: the eight arrays for frequencies 0..nk-1 *)
Definition channel_arrays (nk n ns : nat) (e : nat -> roundtrip) (f : nat -> factors) : list arr3 :=
  let skal := dynamic_scaling n ns (fun k => log_skalierung (e k)) in
  map (fun p => Arr3 nk n n (fun k => nth p (channels ns (skal k) (e k) (f k)) zero_mat)) (seq 0 8).
Definition blockmatrices_channels (nk n ns : nat) (e : nat -> roundtrip) (f : nat -> factors) : res (list arr3) :=
  do _ <- scale_shape nk n ns ; Ok (channel_arrays nk n ns e f).

(** ** blockmatrices_debug *)
Definition xarr := nat -> nat -> nat -> xr.
(** np.exp, np.sign *)
Definition xexp (x : xr) : xr := match x with Fin r => Fin (exp r) | NInf => Fin 0 | PInf => PInf | NaN => NaN end.
Definition rsign (x : R) : R := if Rltb 0 x then 1 else if Rltb x 0 then -1 else 0.
Definition is_nan (x : xr) : bool := match x with NaN => true | _ => false end.
(** numpy's argmax: the first NaN, otherwise the first largest entry *)
Fixpoint xargmax_from (f : nat -> xr) (n i best : nat) : nat :=
  match n with
  | O => best
  | S k => if is_nan (f best) then best
           else xargmax_from f k (S i) (if is_nan (f i) || xltb (f best) (f i) then i else best)
  end.
Definition xargmax (f : nat -> xr) (n : nat) : nat := xargmax_from f (n - 1) 1 0.
(** geometry.py:796-817 *)
Definition xsingle_k_scale (n ns : nat) (M : xarr) : xarr :=
  if Nat.eqb n 1 then M
  else
    let order := xargmax (fun s => M 0%nat (n - 1)%nat s) ns in
    let A := M 0%nat 0%nat order in
    let B := M 0%nat (n - 1)%nat order in
    let C := M (n - 1)%nat 0%nat order in
    let mx := if xltb B C then C else B in
    let K := fun i j : nat => xmul (xmul (xabs (xsub A mx)) (Fin (1 / (INR n - 1)))) (Fin (INR (S i) - INR (S j))) in
    let K := if xltb B C then (fun i j => xneg (K i j)) else K in
    fun i j s => xadd (K i j) (M i j s).

Fixpoint xsumn (n : nat) (f : nat -> xr) : xr :=
  match n with O => Fin 0 | S k => xadd (xsumn k f) (f k) end.

Definition xmat := nat -> nat -> xr.
(** geometry.py:423-427 (430-434, 436-440, 442-446) for one frequency and one block [M] *)
Definition debug_block (n ns : nat) (lsk : arr_log) (M : arr_log) : xmat :=
  let skal := xsingle_k_scale n ns (fun i j s => xadd (Fin (lsk i j s)) (logabs (M i j s))) in
  fun i j => xsumn ns (fun s => xmul (Fin (rsign (M i j s))) (xexp (skal i j s))).
(** geometry.py:423-446 for one frequency: [EE, EM, ME, MM] *)
Definition debug_blocks (n ns : nat) (e : roundtrip) : list xmat :=
  map (debug_block n ns (log_skalierung e))
    [ (fun i j s => aTE e i * (V0 e i s * bTE e s * V1 e j s * 1 + V2 e i s * bTM e s * V3 e j s * 1));
      (fun i j s => aTE e i * (V0 e i s * bTE e s * V3 e j s * 1 + V2 e i s * bTM e s * V1 e j s * 1));
      (fun i j s => aTM e i * (V2 e i s * bTE e s * V1 e j s * 1 + V0 e i s * bTM e s * V3 e j s * 1));
      (fun i j s => aTM e i * (V2 e i s * bTE e s * V3 e j s * 1 + V0 e i s * bTM e s * V1 e j s * 1)) ].
(** geometry.py:391-446 without a leading zero frequency: entry (block, frequency, i, j) of the four nk x n x n arrays *)
Definition blockmatrices_debug (nk n ns : nat) (e : nat -> roundtrip) : res (nat -> nat -> xmat) :=
  do _ <- scale_shape nk n ns ; Ok (fun p k => nth p (debug_blocks n ns (e k)) (fun _ _ => Fin 0)).

Section Variants.
  Context (mieb : list R -> nat -> Z -> res (list (list R) * list (list R))) (transb : bessel_fun) (c : config).

  (** geometry.py:333-389, forceFlag = 0 *)
  Definition rt_channels (m : Z) (ks : list R) : out (list arr3) :=
    let finite ks :=
      let! e := elements mieb transb c m ks in
      of_res (blockmatrices_channels (length ks) (n1 c m) (n2 c m) e (fun _ => no_force)) in
    match ks with
    | [] => Exc IndexError
    | k :: rest =>
        if Reqb k 0 then
          let! l := finite rest in
          let! (te, tm) := blockmatrices_k0 transb c m in
          match l with
          | [EE1; EE2; MM1; MM2; EM1; EM2; ME1; ME2] =>
              Val [ prepend (m2 te) EE1; prepend zero_mat EE2; prepend (m2 tm) MM1; prepend zero_mat MM2;
                    prepend zero_mat EM1; prepend zero_mat EM2; prepend zero_mat ME1; prepend zero_mat ME2 ]
          | _ => Unmodelled
          end
        else finite ks
    end.

  (** geometry.py:391-456; line 449 reads mEE_k0, which is no variable of this method or module *)
  Definition rt_debug (m : Z) (ks : list R) : out (nat -> nat -> xmat) :=
    let finite ks :=
      let! e := elements mieb transb c m ks in
      of_res (blockmatrices_debug (length ks) (n1 c m) (n2 c m) e) in
    match ks with
    | [] => Exc IndexError
    | k :: rest =>
        if Reqb k 0 then
          let! _ := finite rest in
          let! _ := blockmatrices_k0 transb c m in
          Exc NameError
        else finite ks
    end.
End Variants.
