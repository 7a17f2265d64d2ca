(** * Properties C64, C65 *)
From Coq Require Import Reals List Lra.
From mathcomp Require Import all_ssreflect ssralg matrix.
From Verif Require Import Base RStruct Bessel_Model Scat_Model Trans_Model Lin_Model Lin_Spec Lin_Proofs Lin_Proofs2.
From Verif Require Import Mat_Spec RT_Model RT_Spec RT_Proofs3 RT_Props RT_Props2 Chan_Model Chan_Spec Chan_Proofs Chan_Proofs2 Chan_Proofs3.
Set Implicit Arguments.
Unset Strict Implicit.
Import GRing.Theory.
Local Open Scope ring_scope.

(** ** C64: the eight arrays of blockmatrices_channels *)

(** each array is one path through the intermediate polarization, all of one frequency conjugated with the same
    diagonal matrix; sizes are arbitrary *)
Theorem C64_paths : forall nk n ns (e : nat -> roundtrip), (0 < n)%N -> n = 1%N \/ (0 < ns)%N ->
  exists (l : list arr3) (d : nat -> nat -> R),
  [/\ blockmatrices_channels nk n ns e (fun _ => no_force) = Ok l, size l = 8%N,
      (forall k i, Rlt 0 (d k i)) &
      (forall t p r q, List.nth_error channel_list t = Some (p, r, q) -> exists A, List.nth_error l t = Some A /\
         is_arr nk A (fun k => \matrix_(i < n, j < n) (d k i * path n ns (e k) p r q i j / d k j)))].
Proof.
move=> nk n ns e hn hs; exists (channel_arrays nk n ns e (fun _ => no_force)).
have [kap h] := channels_paths nk n ns e; exists (fun k => scal (kap k)); split.
- rewrite /blockmatrices_channels; have := scale_ok nk e hn hs; rewrite /blockmatrices.
  by case: (scale_shape _ _ _).
- by [].
- by move=> k i; exact: exp_pos.
move=> t p r q ht; have [A [eA hA]] := h t p r q ht; exists A; split=> //.
by apply: is_arr_ext hA => k _; apply/matrixP => i j; rewrite [RHS]mxE conjE.
Qed.

(** the paths make up the round trip *)
Theorem C64_complete : forall n ns e, let P := path n ns e in
  round_trip n ns e = block_mx (P E E E + P E M E) (P E E M + P E M M) (P M E E + P M M E) (P M E M + P M M M).
Proof. exact: path_round_trip. Qed.

(** for every request, also with a leading zero frequency, the arrays add up to those of blockmatrices in pairs (in the order
    EE, MM, EM, ME), or both methods fail alike *)
Theorem C64_sums : forall mieb transb c m ks,
  both adds_up (rt_channels mieb transb c m ks) (rt_blocks_all mieb transb c m ks).
Proof. exact: rt_channels_blocks. Qed.

(** also with the factors of the force evaluation *)
Theorem C64_force : forall m ns skal e d i j,
  let ch t := List.nth t (channels ns skal e (force_factors m e d)) zero_mat i j in
  let: b := blocks_force m ns skal e d in
  [/\ ch 0%N + ch 1%N = EE b i j, ch 4%N + ch 5%N = EM b i j, ch 6%N + ch 7%N = ME b i j & ch 2%N + ch 3%N = MM b i j].
Proof. exact: channels_force. Qed.

(** ** C65: blockmatrices_debug *)

(** a leading zero frequency never succeeds *)
Theorem C65_zero_frequency_refuted : forall mieb transb c m rest,
  (forall f, rt_debug mieb transb c m (IZR 0 :: rest) <> Val f) /\
  (forall E b, elements mieb transb c m rest = Val E -> scale_shape (length rest) (n1 c m) (n2 c m) = Ok tt ->
     blockmatrices_k0 transb c m = Val b -> rt_debug mieb transb c m (IZR 0 :: rest) = Exc NameError).
Proof. exact: debug_k0. Qed.

(** m = 0 with more than one order: the mixing blocks are NaN at every frequency *)
Theorem C65_m0_refuted : forall mieb transb c ks f, rt_debug mieb transb c Z0 ks = Val f -> (1 < n1 c Z0)%coq_nat ->
  forall q i j, (q < length ks)%coq_nat -> f 1%N q i j = NaN /\ f 2%N q i j = NaN.
Proof. exact: debug_m0. Qed.

(** a single order: the blocks of blockmatrices *)
Theorem C65_single_order : forall ns e k i j,
  let: (A, B, C, D) := blocks ns (dynamic_scaling 1 ns (fun k => log_skalierung (e k)) k) (e k) in
  List.map (fun b : xmat => b i j) (debug_blocks 1 ns (e k)) = [:: Fin (A i j); Fin (B i j); Fin (C i j); Fin (D i j)].
Proof. exact: debug_single. Qed.

(** blocks without vanishing products: each block is conjugated with a diagonal matrix of its own, so that its trace and
    determinant are right *)
Theorem C65_each_block : forall n ns (lsk M : arr_log), (0 < n)%coq_nat -> (0 < ns)%coq_nat ->
  (forall i j s, (i < n)%coq_nat -> (j < n)%coq_nat -> (s < ns)%coq_nat -> M i j s <> IZR 0) ->
  exists kap, forall i j, (i < n)%coq_nat -> (j < n)%coq_nat -> debug_block n ns lsk M i j =
    Fin (Rmult (exp (Rmult kap (Rminus (INR i) (INR j)))) (sumn ns (fun s => Rmult (exp (lsk i j s)) (M i j s)))).
Proof. exact: debug_scaled. Qed.

(** but the determinant of 1 - M is not *)
Definition debug_example : roundtrip :=
  {| aTE := fun _ => IZR 1; aTM := fun _ => IZR 1; a2 := fun _ => IZR 0;
     bTE := fun _ => Rdiv 1 10; bTM := fun _ => Rdiv 1 10; b2 := fun _ => IZR 0;
     V0 := fun _ _ => IZR 1; V1 := fun _ _ => IZR 1;
     V2 := fun i _ => if Nat.eqb i 0 then IZR 2 else IZR 1; V3 := fun i _ => if Nat.eqb i 0 then IZR 2 else IZR 1;
     V4 := fun _ _ => IZR 0 |}.
Definition two_by_two (a b c d : R) : mat :=
  fun i j => if Nat.eqb i 0 then (if Nat.eqb j 0 then a else b) else (if Nat.eqb j 0 then c else d).
Definition quad (A B C D : mat) : mat := fun i j =>
  if Nat.ltb i 2 then (if Nat.ltb j 2 then A i j else B i (j - 2)%coq_nat)
  else (if Nat.ltb j 2 then C (i - 2)%coq_nat j else D (i - 2)%coq_nat (j - 2)%coq_nat).
Lemma quadE A B C D : block_mx (mx 2 A) (mx 2 B) (mx 2 C) (mx 2 D) = mx (2 + 2) (quad A B C D).
Proof.
apply/matrixP => i j; case: (split_ordP i) => a ->; case: (split_ordP j) => b ->;
rewrite ?block_mxEul ?block_mxEur ?block_mxEdl ?block_mxEdr !mxE /quad !ltbE /= ?ltn_ord //.
all: rewrite ?(ltnNge (2 + _)) ?leq_addr /= -?/(2 + _)%N.
all: by rewrite !Nat.sub_0_r.
Qed.
Theorem C65_determinant_refuted : exists (e : roundtrip) (A B C D : mat),
  (forall i j, (i < 2)%N -> (j < 2)%N ->
     List.map (fun b : xmat => b i j) (debug_blocks 2 1 e) = [:: Fin (A i j); Fin (B i j); Fin (C i j); Fin (D i j)]) /\
  \det (1%:M - block_mx (mx 2 A) (mx 2 B) (mx 2 C) (mx 2 D)) <> \det (1%:M - round_trip 2 1 e).
Proof.
exists debug_example.
pose P := two_by_two (Rdiv 5 10) (Rdiv 9 50) (Rdiv 5 10) (Rdiv 2 10).
pose Q := two_by_two (Rdiv 4 10) (Rdiv 9 40) (Rdiv 4 10) (Rdiv 2 10).
exists P, Q, Q, P; split.
  have lz : log_skalierung debug_example = (fun _ _ _ => IZR 0).
    by rewrite /log_skalierung /=; do 3! apply: FunctionalExtensionality.functional_extensionality => ?; ring.
  have dP f : f 0%N 0%N 0%N = Rdiv 5 10 -> f 0%N 1%N 0%N = Rdiv 3 10 -> f 1%N 0%N 0%N = Rdiv 3 10 -> f 1%N 1%N 0%N = Rdiv 2 10 ->
      forall i j, (i < 2)%N -> (j < 2)%N -> debug_block 2 1 (fun _ _ _ => IZR 0) f i j = Fin (P i j).
    move=> h1 h2 h3 h4; case: (debug_2x2 _ _ _ _ h1 h2 h3 h4); [lra|lra|lra|] => e1 [e2 [e3 e4]].
    case=> [|[|//]] [|[|//]] _ _; rewrite ?e1 ?e2 ?e3 ?e4 /P /two_by_two //=; congr Fin; lra.
  have dQ f : f 0%N 0%N 0%N = Rdiv 4 10 -> f 0%N 1%N 0%N = Rdiv 3 10 -> f 1%N 0%N 0%N = Rdiv 3 10 -> f 1%N 1%N 0%N = Rdiv 2 10 ->
      forall i j, (i < 2)%N -> (j < 2)%N -> debug_block 2 1 (fun _ _ _ => IZR 0) f i j = Fin (Q i j).
    move=> h1 h2 h3 h4; case: (debug_2x2 _ _ _ _ h1 h2 h3 h4); [lra|lra|lra|] => e1 [e2 [e3 e4]].
    case=> [|[|//]] [|[|//]] _ _; rewrite ?e1 ?e2 ?e3 ?e4 /Q /two_by_two //=; congr Fin; lra.
  move=> i j hi hj; rewrite /debug_blocks lz /List.map /=.
  by congr [:: _; _; _; _]; [apply: dP|apply: dQ|apply: dQ|apply: dP] => //=; lra.
have := blocks_round_trip 2 1 debug_example; rewrite /blocks => <-.
rewrite !quadE -eyeE -!msubE -!/(mx 4 _) -!mdetE.
rewrite /= /msub /eye /quad /minor /skip /P /Q /two_by_two /=.
rewrite /log_skalierung /= !Rplus_0_l exp_0.
move=> h; lra.
Qed.

(** gold spheres in water: both methods return, and the mixing blocks of blockmatrices_debug are NaN for m = 0 *)
Example C65_gold : exists l f, rt_channels mie_bessels trans_bessels gold_in_water 1 [:: IZR 1] = Val l /\
  rt_debug mie_bessels trans_bessels gold_in_water 0 [:: IZR 1] = Val f /\ f 1%N 0%N 2%N 1%N = NaN.
Proof.
have [A [B [eA [eB [_ [hm [hL _]]]]]]] := C58_gold.
have [E1 [e1 _]] := @elements_val mie_bessels gold_in_water 1 (IZR 1) A B _ _ eA eB hm hL Rlt_0_1.
have [E0 [e0 _]] := @elements_val mie_bessels gold_in_water 0 (IZR 1) A B _ _ eA eB hm hL Rlt_0_1.
have n0 : Reqb (IZR 1) (IZR 0) = false by case: Reqb_spec => // h; lra.
have [f ef] : exists f, rt_debug mie_bessels trans_bessels gold_in_water 0 [:: IZR 1] = Val f.
  by eexists; rewrite /rt_debug n0 e0 /=; reflexivity.
exists (channel_arrays 1 3 4 E1 (fun _ => no_force)), f; split; first by rewrite /rt_channels n0 e1.
split=> //; have n3 : (1 < n1 gold_in_water 0)%coq_nat by apply/ltP.
have q0 : (0 < length [:: IZR 1])%coq_nat by apply/ltP.
by case: (C65_m0_refuted ef n3 2%N 1%N q0).
Qed.

Print Assumptions C64_paths.
Print Assumptions C64_complete.
Print Assumptions C64_sums.
Print Assumptions C64_force.
Print Assumptions C65_zero_frequency_refuted.
Print Assumptions C65_m0_refuted.
Print Assumptions C65_single_order.
Print Assumptions C65_each_block.
Print Assumptions C65_determinant_refuted.
