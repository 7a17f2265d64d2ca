(** * The terms of the sums over m, with the attributes of the object *)
From Coq Require Import Reals.
From Coq Require Import List Lia Lra ZArith.
From mathcomp Require Import all_ssreflect ssralg matrix mxalgebra poly mxpoly.
From Verif Require Import Base RStruct Mat_Model Mat_Spec Thermo_Model Geo_Model Geo_Spec Bessel_Model Scat_Model Scat_Spec Scat_Proofs Scat_Proofs7 Scat_Proofs9 Scat_Proofs10 Trans_Model Trans_Spec
  Lin_Model Lin_Spec Lin_Proofs Lin_Proofs2 RT_Model RT_Spec RT_Proofs2 RT_Proofs3 RT_Proofs4 RT_Props RT_Props2 Run_Model Run_Spec Run_Proofs Run_Proofs2.
Set Implicit Arguments.
Unset Strict Implicit.
Import GRing.Theory.
Local Open Scope ring_scope.
Delimit Scope R_scope with Re.

(** fuel that suffices for m = 0..n *)
Lemma enough (P : nat -> nat -> Prop) n : (forall m, (m <= n)%N -> exists N, forall fuel, (N <= fuel)%N -> P m fuel) ->
  exists N, forall fuel, (N <= fuel)%N -> forall m, (m <= n)%N -> P m fuel.
Proof.
elim: n => [|n IH] h; first by have [N hN] := h 0%N isT; exists N => fuel hf [|//] _; apply: hN.
have [N1 h1] := IH (fun m hm => h m (leqW hm)); have [N2 h2] := h n.+1 (leqnn _).
exists (maxn N1 N2) => fuel; rewrite geq_max => /andP [f1 f2] m; rewrite leq_eqVlt ltnS => /orP [/eqP ->|hm]; [exact: h2|exact: h1].
Qed.

Lemma stops_unique precision lmax f ks M M' : stops_at precision lmax f ks M -> stops_at precision lmax f ks M' -> M = M'.
Proof.
have aux a b : stops_at precision lmax f ks a -> stops_at precision lmax f ks b -> ~ lt a b.
  move=> [ha [_ hs]] [hb [hj _]] hlt; have [[i [hi ne]] hn] := hj a hlt.
  case: (hs (PeanoNat.Nat.lt_le_trans _ _ _ hlt hb)) => [h0|[h0 [i' [hl hc]]]]; first exact: (ne (h0 i hi)).
  exact: (hn h0 i' hl hc).
move=> h h'; have := aux _ _ h h'; have := aux _ _ h' h; lia.
Qed.
Lemma stops_k0_unique precision lmax f M M' : stops_at_k0 precision lmax f M -> stops_at_k0 precision lmax f M' -> M = M'.
Proof.
have aux a b : stops_at_k0 precision lmax f a -> stops_at_k0 precision lmax f b -> ~ lt a b.
  move=> [ha [_ hs]] [hb [hj _]] hlt; have [h0 hc] := hs (PeanoNat.Nat.lt_le_trans _ _ _ hlt hb).
  exact: (hj a (conj h0 hlt) hc).
move=> h h'; have := aux _ _ h h'; have := aux _ _ h' h; lia.
Qed.

Lemma map_seq_nth (B : Type) (g : R -> B) ks : List.map g ks = List.map (fun q => g (List.nth q ks 0%Re)) (List.seq 0 (List.length ks)).
Proof. by elim: ks => [//|k ks IH] /=; congr (_ :: _); rewrite IH -List.seq_shift List.map_map. Qed.

(** contribution of m at the wavenumber k *)
Definition lnd (mieb : list R -> nat -> Z -> res (list (list R) * list (list R))) (c : config) (m : nat) (k : R) : xr :=
  ln_abs_det (1%:M - trip mieb c (Z.of_nat m) k).

Section Solid.
Context (mieb : list R -> nat -> Z -> res (list (list R) * list (list R))) (c : config) (m1 m2 : material) (ra rb : R) (e u : R -> R) (conv : R).
Context (h1 : c_1 c = Solid m1 ra) (h2 : c_2 c = Solid m2 rb) (s1 : solid_ok m1) (s2 : solid_ok m2) (hm : has (c_med c) e u) (hL : (0 < c_L c)%Re).
Context (hl : (1 <= c_lmax c)%coq_nat) (hls : (c_lmax c <= c_lssmax c)%coq_nat) (hc : (conv < 1)%Re).
Definition good (ks : list R) : Prop := ks <> nil /\ (forall k, In k ks -> (0 < k)%Re) /\ elementwise_at mieb c ks.

Lemma lndet_state ks A B : good ks -> mieA mieb c ks = Val A -> mieB mieb c ks = Val B ->
  exists N, forall fuel, (N <= fuel)%N -> forall m, (m <= c_lmax c)%N -> forall unk s, sound mieb c s -> (m <= 1)%coq_nat \/ g_K s = Some ks ->
    s_lndet unk fuel mieb trans_bessels c conv m ks s = (loaded ks A B s, Ok (List.map (lnd mieb c m) ks)).
Proof.
move=> [hne [hp hel]] eA eB; apply: enough => m /leP hmx.
have [V [eV hV]] := trans_many c (Z.of_nat m) e u ks hm hL (proj2 hel) hne hp.
have hn : (0 < n1 c (Z.of_nat m))%N by rewrite /n1 /lmin; apply/ltP; lia.
have hs : n1 c (Z.of_nat m) = 1%N \/ (0 < n2 c (Z.of_nat m))%N by right; rewrite /n2 /lmin; apply/ltP; lia.
have [N hN] := lndet_round_trip (List.length ks) (n1 c (Z.of_nat m)) (n2 c (Z.of_nat m)) (pack (Z.of_nat m) A B V) hc.
exists N => fuel hf unk s hsnd hm1; have := hN fuel hf.
rewrite /s_lndet /s_blocks /mbind (@elements_run unk mieb trans_bessels c (Z.of_nat m) ks s A B V hsnd eA eB eV); last by case: hm1 => [h|h]; [left; lia|right].
rewrite scale_ok //= => -[M [eM eD]]; move: eM => /= ->; rewrite /= eD /=.
congr (_, Ok _).
have -> : List.map (lnd mieb c m) ks = List.map (fun q => lnd mieb c m (List.nth q ks 0%Re)) (List.seq 0 (List.length ks)).
  exact: map_seq_nth.
apply: List.map_ext_in => q /List.in_seq [_ hq].
have := @coefs_many mieb c m1 m2 ra rb e u ks h1 h2 s1 s2 hm hL hne hp hel (Z.of_nat m) A B V q eA eB eV hq.
by move=> /same_round_trip; rewrite /lnd /trip => ->.
Qed.

Lemma coefs_exist ks : good ks -> exists A B, mieA mieb c ks = Val A /\ mieB mieb c ks = Val B.
Proof.
move=> [hne [hp hel]].
have [A [eA _]] := mieA_many mieb c m1 ra e u ks h1 s1 hm hp hel.
by have [B [eB _]] := mieB_many mieb c m2 rb e u ks h2 s2 hm hp hel; exists A, B.
Qed.

Lemma good_hd ks : good ks -> List.hd 0%Re ks <> 0%Re.
Proof. by case: ks => [[]|k ks [_ [hp _]]] // h; have := hp k (or_introl erefl); move: h => /= ->; lra. Qed.
Lemma lnd_stops precision ks : good ks -> exists M, stops_at precision (c_lmax c) (lnd mieb c) ks M.
Proof.
move=> hg; have [M [hM _]] := @mSumme_run unit (fun m ks => ret (List.map (lnd mieb c m) ks)) (fun _ => ret (Fin 0)) (c_lmax c) precision ks (lnd mieb c) tt tt (proj1 hg) (good_hd hg) erefl (fun m _ => erefl).
by exists M.
Qed.
Lemma mSumme_state precision ks : good ks -> exists A B M N, [/\ mieA mieb c ks = Val A, mieB mieb c ks = Val B, stops_at precision (c_lmax c) (lnd mieb c) ks M &
  forall fuel, (N <= fuel)%N -> forall unk s, sound mieb c s ->
    geo_mSumme unk fuel mieb trans_bessels c precision conv ks s = (loaded ks A B s, Ok (List.map (fun k => msum (fun m => lnd mieb c m k) M) ks))].
Proof.
move=> hg; have [A [B [eA eB]]] := coefs_exist hg; have [M hM] := lnd_stops precision hg; have [N hN] := lndet_state hg eA eB.
exists A, B, M, N; split=> // fuel hf unk s hs.
have hl0 : sound mieb c (loaded ks A B s) := sound_loaded mieb c ks s A B hs eA eB.
rewrite /geo_mSumme; have [|m hm0|M' [hM' ->]] := @mSumme_run _ (s_lndet unk fuel mieb trans_bessels c conv) (s_lndet_k0 unk fuel trans_bessels c conv) (c_lmax c) precision ks (lnd mieb c) s (loaded ks A B s) (proj1 hg) (good_hd hg).
- by rewrite hN //; left; lia.
- by rewrite hN //; [apply/leP; lia|right].
- by rewrite (stops_unique hM hM').
Qed.
End Solid.

(** ** zero frequency *)
Section Static.
Context (c : config) (m1 m2 : material) (ra rb : R) (e : list osc) (b : bprops) (conv : R) (d0 : nat -> R).
Context (HC : two_spheres c m1 m2 ra rb e b) (S1 : static_sphere m1) (S2 : static_sphere m2) (hext : c_ext c = true) (hmu : mu_val b 0 = 1%Re).
Context (hl : (1 <= c_lmax c)%coq_nat) (hls : (c_lmax c <= c_lssmax c)%coq_nat) (hc : (conv < 1)%Re).
Context (hd : forall m, (m <= c_lmax c)%coq_nat -> limit0 (fun k => \det (1%:M - trip mie_bessels c (Z.of_nat m) k)) (d0 m) /\ (0 < d0 m)%Re).
Lemma orders_m m : (m <= c_lmax c)%coq_nat -> some_orders c (Z.of_nat m).
Proof. by move=> h; split; [lia|split; lia]. Qed.
Lemma lndet_k0_state : exists N, forall fuel, (N <= fuel)%N -> forall m, (m <= c_lmax c)%N -> forall mieb unk s, sound mieb c s ->
  s_lndet_k0 unk fuel trans_bessels c conv m s = (with_static s (Z.of_nat m), Ok (Fin (ln (d0 m)))).
Proof.
apply: enough => m /leP hmx; have [hlim hpos] := hd hmx.
have [d [hd1 hd2]] := C57_lndet HC S1 S2 hext (orders_m hmx) hmu hc.
have ed : d = d0 m := limit0_unique _ _ _ hd1 hlim.
move: hd2; rewrite ed => /(_ hpos) [[N hN] _]; exists N => fuel hf mieb unk s hs; have := hN fuel hf.
rewrite /single_m_k0; case eB: (blockmatrices_k0 _ _ _) => [[A0 B0]| |] //; case eD: (sln_det_blockdiagonal _ _ _ _) => [r|] // [er].
have [X [eX eC]] : exists X, elements_k0 trans_bessels c (Z.of_nat m) = Val X /\ static_coefs c = Val tt.
  have eE : exists X, elements_k0 trans_bessels c (Z.of_nat m) = Val X.
    by move: eB; rewrite /blockmatrices_k0 hext /blockmatrices_k0_ext; case: (elements_k0 _ _ _) => [X| |] //; exists X.
  case: eE => X eX; exists X; split=> //; move: eX; rewrite /elements_k0 /static_coefs; case: (c_1 c) => [? ?|//]; case: (c_2 c) => [? ?|//].
  case: (mie_k0 _ _ _ _ _) => [?| |] //=; rewrite hext; case: (mie_k0 _ _ _ _ _) => [?| |] //=.
rewrite /s_lndet_k0 /mbind (@blocks_k0_run unk mieb trans_bessels c (Z.of_nat m) s X (A0, B0) hs eC eX eB) eD.
by move: er; case: r {eD} => [v|] //= [->].
Qed.
Lemma mSumme_k0_state precision : exists M N, stops_at_k0 precision (c_lmax c) (fun m => Fin (ln (d0 m))) M /\
  forall fuel, (N <= fuel)%N -> forall mieb unk s, sound mieb c s ->
    geo_mSumme_k0 unk fuel trans_bessels c precision conv s = (with_static s 0, Ok [:: msum (fun m => Fin (ln (d0 m))) M]).
Proof.
have [M [hM _]] := @mSumme_k0_run unit (fun m => ret (Fin (ln (d0 m)))) (c_lmax c) precision (fun m => Fin (ln (d0 m))) tt tt erefl (fun m _ => erefl).
have [N hN] := lndet_k0_state; exists M, N; split=> // fuel hf mieb unk s hs.
have hs' : sound mieb c (with_static s 0) by apply: sound_static.
rewrite /geo_mSumme_k0; have [|m hm0|M' [hM' ->]] := @mSumme_k0_run _ (s_lndet_k0 unk fuel trans_bessels c conv) (c_lmax c) precision (fun m => Fin (ln (d0 m))) s (with_static s 0).
- exact: (hN fuel hf 0%N isT _ _ _ hs).
- rewrite (hN fuel hf m _ _ _ _ hs'); last by apply/leP; lia.
  by congr (_, _); rewrite /with_static; case E0: (g_0 s) => [m0|] //=; rewrite E0.
- by rewrite (stops_k0_unique hM hM').
Qed.
End Static.
