(** * Proofs about the polarization channels *)
From Coq Require Import Reals List.
From mathcomp Require Import all_ssreflect ssralg matrix.
From Verif Require Import Base RStruct Bessel_Model Scat_Model Trans_Model Lin_Model Lin_Spec Lin_Proofs Lin_Proofs2 Trip_Proofs.
From Verif Require Import RT_Model Chan_Model Chan_Spec.
Set Implicit Arguments.
Unset Strict Implicit.
Import GRing.Theory.
Local Open Scope ring_scope.

(** ** each channel is a path, all with the same scaling *)
Lemma channel_path n ns e (skal : arr_log) kap (t : nat) p r q :
  (forall i j s, skal i j s = scal kap i * exp (log_skalierung e i j s) * (scal kap j)^-1) ->
  List.nth_error channel_list t = Some (p, r, q) ->
  mx n (List.nth t (channels ns skal e no_force) zero_mat) = Dm n kap *m path n ns e p r q *m Di n kap.
Proof.
move=> h; case: t => [|[|[|[|[|[|[|[|t]]]]]]]]; last by case: t.
all: move=> [<- <- <-]; rewrite /= /path; apply/matrixP => i j; rewrite conjE !mxE sumnE mulr_sumr mulr_suml; apply: eq_bigr => s _.
all: rewrite h !mul_mx_diag !mul_diag_mx !mxE /= /log_skalierung !exp_add -!RmultE; ring.
Qed.

Lemma scaling_kap n ns (e : nat -> roundtrip) : exists kap : nat -> R, forall k i j s,
  dynamic_scaling n ns (fun k => log_skalierung (e k)) k i j s =
  scal (kap k) i * exp (log_skalierung (e k) i j s) * (scal (kap k) j)^-1.
Proof.
exists (fun k => if Nat.eqb n 1 then 0 else
  let M := log_skalierung (e k) in let o := argmax (fun s => M O (n - 1)%coq_nat s) ns in
  let K := Rmult (Rabs (Rminus (M O O o) (Rmax (M O (n - 1)%coq_nat o) (M (n - 1)%coq_nat O o)))) (Rdiv 1 (Rminus (INR n) 1)) in
  if Rltb (M O (n - 1)%coq_nat o) (M (n - 1)%coq_nat O o) then Ropp K else K).
move=> k i j s; rewrite -exp_scale /dynamic_scaling; congr exp; rewrite /single_k_scale.
case: Nat.eqb; first by rewrite -?zE Rmult_0_l Rplus_0_l.
by case: Rltb; cbv zeta; rewrite !S_INR; ring.
Qed.

Lemma channels_paths nk n ns e : exists kap : nat -> R,
  (forall t p r q, List.nth_error channel_list t = Some (p, r, q) -> exists A,
     List.nth_error (channel_arrays nk n ns e (fun _ => no_force)) t = Some A /\
     is_arr nk A (fun k => Dm n (kap k) *m path n ns (e k) p r q *m Di n (kap k))).
Proof.
have [kap h] := scaling_kap n ns e; exists kap => t p r q ht.
have ht8 : (t < 8)%N by move: ht; case: t => [|[|[|[|[|[|[|[|t]]]]]]]] //; case: t.
exists (Arr3 nk n n (fun k => List.nth t (channels ns (dynamic_scaling n ns (fun k => log_skalierung (e k)) k) (e k) no_force) zero_mat)).
split.
  by move: ht8 {ht}; rewrite /channel_arrays; case: t => [|[|[|[|[|[|[|[|t]]]]]]]].
by split=> // k _; exact: (@channel_path n ns (e k) _ (kap k) t p r q (h k) ht).
Qed.

(** ** pairs of channels add up to the blocks *)
Lemma sumn_split n f g h : (forall s, f s + g s = h s) -> sumn n f + sumn n g = sumn n h.
Proof. by move=> e; rewrite !sumnE -big_split; apply: eq_bigr => s _; exact: e. Qed.

Lemma channels_blocks ns skal e i j :
  let ch t := List.nth t (channels ns skal e no_force) zero_mat i j in
  let: b := blocks ns skal e in
  [/\ ch 0%N + ch 1%N = EE b i j, ch 4%N + ch 5%N = EM b i j, ch 6%N + ch 7%N = ME b i j & ch 2%N + ch 3%N = MM b i j].
Proof. by split; apply: sumn_split => s /=; rewrite -?RmultE -?RplusE; ring. Qed.

Lemma channels_force m ns skal e d i j :
  let ch t := List.nth t (channels ns skal e (force_factors m e d)) zero_mat i j in
  let: b := blocks_force m ns skal e d in
  [/\ ch 0%N + ch 1%N = EE b i j, ch 4%N + ch 5%N = EM b i j, ch 6%N + ch 7%N = ME b i j & ch 2%N + ch 3%N = MM b i j].
Proof. by split; apply: sumn_split => s /=; rewrite -?RmultE -?RplusE; ring. Qed.

Lemma channels_add nk n ns e : adds_up (channel_arrays nk n ns e (fun _ => no_force)) (block_arrays nk n ns e).
Proof.
by split; split=> // k i j;
   have [h1 h2 h3 h4] := channels_blocks ns (dynamic_scaling n ns (fun k => log_skalierung (e k)) k) (e k) i j;
   [exact: h1|exact: h2|exact: h3|exact: h4].
Qed.

Lemma path_round_trip n ns e : let P := path n ns e in
  round_trip n ns e = block_mx (P E E E + P E M E) (P E E M + P E M M) (P M E E + P M M E) (P M E M + P M M M).
Proof.
rewrite /round_trip /T1 /V12 /T2 /V21 !mulmx_block !mul0mx !mulmx0 !addr0 !add0r /path /refl1 /refl2 /go /back /=.
by [].
Qed.

Lemma sum_prepend A B C a b x : sum_of A B C -> (forall i j, a i j + b i j = x i j) ->
  sum_of (prepend a A) (prepend b B) (prepend x C).
Proof. by move=> [[h1 h2 h3] [h1' h2' h3'] h] hx; split; rewrite /= ?h1 ?h2 ?h3 ?h1' ?h2' ?h3' // => -[|k] i j. Qed.

Section RT.
Context (mieb : list R -> nat -> Z -> res (list (list R) * list (list R))) (transb : bessel_fun) (c : config).

Lemma rt_channels_blocks m ks : both adds_up (rt_channels mieb transb c m ks) (rt_blocks_all mieb transb c m ks).
Proof.
have fin : forall l, both adds_up
    (obind (elements mieb transb c m l) (fun e => of_res (blockmatrices_channels (length l) (n1 c m) (n2 c m) e (fun _ => no_force))))
    (rt_blocks mieb transb c m l).
  move=> l; rewrite /rt_blocks; case: (elements mieb transb c m l) => [e|//|//] /=.
  rewrite /blockmatrices_channels /blockmatrices; case: (scale_shape _ _ _) => [?|//] /=.
  exact: channels_add.
rewrite /rt_channels /rt_blocks_all; case: ks => [//|k rest].
case: (Reqb k _); last exact: fin.
have := fin rest; case: (obind _ _) => [l|x|]; case: (rt_blocks _ _ _ _ _) => [b|y|] //=.
case: b => [[[A B] C] D]; case: (blockmatrices_k0 transb c m) => [[te tm]|//|//].
do 8! [case: l => [//|? l]]; case: l => [|//] /=.
by move=> [hA hB hC hD]; split; apply: sum_prepend => // i j; rewrite -RplusE; exact: Rplus_0_r.
Qed.
End RT.
