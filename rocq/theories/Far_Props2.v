(** * Property C85 (second part): spheres on different sides of the medium, and what worker.py writes *)
From Coq Require Import Reals.
From Coq Require Import String List Lia Lra ZArith.
From mathcomp Require Import all_ssreflect ssralg ssrnum fingroup perm matrix mxalgebra poly mxpoly.
From Verif Require Import Base RStruct Mat_Model Mat_Spec Mat_Proofs Thermo_Model Thermo_Spec Thermo_Proofs Geo_Model Geo_Spec Bessel_Model Scat_Model Scat_Spec Scat_Proofs Scat_Proofs4 Scat_Proofs7 Scat_Proofs9 Scat_Proofs10 Scat_Props2 Trans_Model Trans_Spec Trans_Proofs3
  Lin_Model Lin_Spec Bal_Proofs Lin_Proofs Trip_Proofs Lin_Proofs2 RT_Model RT_Spec RT_Spec2 RT_Proofs RT_Proofs2 RT_Proofs3 RT_Proofs4 RT_Proofs5 RT_Proofs6 RT_Proofs7 RT_Proofs8 RT_Proofs9 RT_Proofs10
  RT_Props RT_Props2 RT_Props3 RT_Props5
  Run_Model Run_Spec Run_Proofs Run_Proofs2 Run_Proofs3 Run_Proofs4 Run_Proofs5 Run_Proofs9 Run_Props Run_Props2 Run_Props7 Conv_Spec Conv_Spec2 Conv_Props2
  Misc_Model Worker_Model Worker_Spec Worker_Proofs Worker_Props Worker_Props2 Far_Proofs Far_Proofs2 Far_Proofs3 Far_Props.
Set Implicit Arguments.
Unset Strict Implicit.
Import GRing.Theory.
Local Open Scope ring_scope.
Delimit Scope R_scope with Re.

(** ** one sphere denser, the other thinner than the medium: any distance without overlap *)
Lemma repel_det c m1 m2 ra rb e u m k s : c_1 c = Solid m1 ra -> c_2 c = Solid m2 rb -> has (c_med c) e u -> (0 < ra)%Re -> (0 < rb)%Re -> (0 < k)%Re ->
  some_orders c m -> contrast s m1 e u k -> contrast (- s) m2 e u k -> let U := trip exact_bessels c m k in (\tr U <= 0)%Re /\ (1 - \tr U <= \det (1%:M - U) <= exp (- \tr U))%Re.
Proof.
move=> e1 e2 hm ha hb hk ho g1 g2 U.
have s1 : signed s (c_lmax c) k (mieA exact_bessels c) by rewrite /mieA e1; apply: (ext_signed _ _ ha _ _ _ hm _ hk).
have s2 : signed (- s) (c_lssmax c) k (mieB exact_bessels c) by rewrite /mieB e2; case: (c_ext c); [apply: (ext_signed _ _ hb _ _ _ hm _ hk)|apply: (int_signed _ _ hb _ _ _ hm _ hk)].
have [d1 d2] := solid_definite ho s1 s2; have ss := contrast_sq g1.
have sq : s_of m s * s_of m s = 1 by rewrite s_ofM.
have sq' : s_of m (- s) * s_of m (- s) = 1 by rewrite s_ofM mulrNN.
have sq2 : s_of m s * s_of m (- s) = -1 by rewrite s_ofM mulrN ss.
have [B [hd ht _]] := definite_gram (@parity_rt exact_bessels c m k) sq sq' d1 d2.
have t1 : \tr U = - \tr (B *m B^T) by have := ht 0%N; rewrite /mxpow /= !mulmx1 sq2 expr1 mulN1r.
have hd' : \det (1%:M - U) = \det (1%:M + B *m B^T) by rewrite /U /trip hd sq2 scaleN1r opprK.
have pp := psd_plus (psd_gram B); have [_ pu] := psd_plus_up (psd_gram B); have p0 := tr_gram_nonneg B.
have t2 : \tr U = (- \tr (B *m B^T))%Re by [].
rewrite hd' t2; move: (\tr (B *m B^T)) (\det _) p0 pp pu => x y p0 pp pu; rewrite Ropp_involutive; split; [lra|split; [lra|exact: pu]].
Qed.

Theorem C85_repulsion : forall c m1 m2 ra rb e b s precision conv t nmax,
  two_spheres c m1 m2 ra rb e b -> static_sphere m1 -> static_sphere m2 -> c_ext c = true -> mu_val b 0 = 1%Re ->
  (forall k, (0 < k)%Re -> contrast s m1 (eps_spec e) (mu_val b) k /\ contrast (- s) m2 (eps_spec e) (mu_val b) k) ->
  (1 <= c_lmax c)%coq_nat -> (c_lmax c <= c_lssmax c)%coq_nat -> (conv < 1)%Re -> ready exact_bessels c t nmax -> t_analytic t = true ->
  yields exact_bessels c precision conv t (fun x => 0 <= x)%Re.
Proof.
move=> c m1 m2 ra rb e b s precision conv t nmax HC S1 S2 hx hmu hcon hl hls hc hR hA.
have [h1 [h2 [hm [ha [hb hL]]]]] := HC; have [_ [_ [_ [HT _]]]] := hR.
have om m : (m <= c_lmax c)%coq_nat -> some_orders c (Z.of_nat m) by move=> hmx; split; [lia|split; lia].
have ge1 m k : (m <= c_lmax c)%coq_nat -> (0 < k)%Re -> (1 <= \det (1%:M - trip exact_bessels c (Z.of_nat m) k))%Re.
  move=> hmx hk; have [g1 g2] := hcon k hk; have [t0 [l _]] := repel_det h1 h2 (insulator_has _ _ _ hm) ha hb hk (om m hmx) g1 g2.
  by apply: (Rle_trans _ _ _ _ l); lra.
have [d0 hd0] : exists d0 : nat -> R, forall m, (m <= c_lmax c)%coq_nat -> limit0 (fun k => \det (1%:M - trip mie_bessels c (Z.of_nat m) k)) (d0 m) /\ (1 <= d0 m)%Re.
  apply: (@choose_upto R (fun m d => limit0 (fun k => \det (1%:M - trip mie_bessels c (Z.of_nat m) k)) d /\ (1 <= d)%Re) 0%Re (c_lmax c)) => m hmx.
  have [A0 [B0 [TE0 [TM0 [_ _ _ hz]]]]] := C85_static_limit HC S1 S2 hx (om m hmx) hmu.
  have [z1 _] := hz mie_bessels (or_introl erefl); have [z2 _] := hz exact_bessels (or_intror erefl).
  exists (\det (1%:M - TE0) * \det (1%:M - TM0))%Re; split; first exact (z1 1).
  by apply: (lim0_below _ _ _ (z2 1)) => k hk; exact: ge1.
have pos n : (1 <= n)%coq_nat /\ (n <= nmax)%coq_nat -> (0 < t_deltaT t * INR n)%Re by move=> [hn1 _]; apply: Rmult_lt_0_compat => //; apply: lt_0_INR; lia.
have hreg n m : (1 <= n)%coq_nat /\ (n <= nmax)%coq_nat -> (m <= c_lmax c)%coq_nat -> \det (1%:M - trip exact_bessels c (Z.of_nat m) (t_deltaT t * INR n)%Re) <> 0.
  by move=> hn hmx E; have := ge1 m _ hmx (pos n hn); rewrite E; change (GRing.zero R_ringType) with 0%Re; lra.
have hd m : (m <= c_lmax c)%coq_nat -> limit0 (fun k => \det (1%:M - trip mie_bessels c (Z.of_nat m) k)) (d0 m) /\ (0 < d0 m)%Re.
  by move=> hmx; have [z1 z2] := hd0 m hmx; split; [exact z1|lra].
have hel q : freqs (t_deltaT t) nmax q <> nil -> elementwise_at exact_bessels c (freqs (t_deltaT t) nmax q) by move=> _; exact: (exact_at _ _ (trans_at_ext _ _ hx)).
have [cut0 [cut [N [hc0 hcut hN]]]] := C66_free_energy precision HC S1 S2 hx hmu hl hls hc hR hA hel hd hreg.
have lnpos (x : R) : (1 <= x -> 0 <= ln x)%Re by move=> h; rewrite -ln_1; apply: ln_le => //; lra.
exists N => fuel hf unk garbage empty; have [t' [F [E1 E2 E3 E4]]] := hN fuel hf unk garbage empty; exists t', F; split=> //.
apply: (in_table E4) => i [hi _]; apply: sliced_nonneg => //.
- apply: rsum_nonneg => m hmM; have hmx : (m <= c_lmax c)%coq_nat by have [h _] := hc0; lia.
  by have [_ z] := hd0 m hmx; exact: lnpos.
- move=> n hn1; apply: rsum_nonneg => m hmM.
  have hin := freqs_has (t_deltaT t) nmax n hn1.
  have hne : freqs (t_deltaT t) nmax (PeanoNat.Nat.div n 50) <> nil by move=> h0; rewrite h0 in hin.
  have [h _] := hcut _ hne; have hmx : (m <= c_lmax c)%coq_nat by lia.
  have z := ge1 m _ hmx (pos n hn1); rewrite Rabs_pos_eq; [exact: lnpos|lra].
Qed.
Print Assumptions C85_repulsion.

(** ** what worker.py writes *)
Theorem C85_worker : forall to_float eval_mat argv s j m1 m2 med e b sg,
  describes to_float argv s j "free_energy()" ->
  eval_mat (j_v1 j) = Ok (OneMat m1) -> eval_mat (j_v2 j) = Ok (OneMat m2) -> eval_mat (j_v3 j) = Ok (OneMat med) ->
  static_sphere m1 -> static_sphere m2 -> insulator med e b -> (forall k, (0 <= k)%Re -> mu_val b k = 1%Re) ->
  (0 < j_ra j)%Re -> (0 < j_rb j)%Re -> (5 * (j_ra j + j_rb j) <= j_L j)%Re -> (0 < j_dT j)%Re -> (1 <= j_lmax j)%coq_nat -> (j_lmax j <= j_lssmax j)%coq_nat ->
  (forall k, (0 < k)%Re -> contrast sg m1 (eps_spec e) (mu_val b) k /\ contrast sg m2 (eps_spec e) (mu_val b) k) ->
  exists N, forall fuel, (N <= fuel)%N -> forall other trips unk garbage empty fs, exists h F,
      [/\ worker to_float eval_mat other trips unk fuel garbage empty exact_bessels argv s fs =
            (write fs (target fs (List.nth 2 argv EmptyString)) (Opened (Some h) F), Done tt), tells to_float argv s h,
          List.length F = Z.to_nat (pyround (j_Tmax j / j_dT j)) &
          forall i : nat, (i < List.length F)%coq_nat -> exists x, [/\ List.nth_error F i = Some x,
            (let T := INR i.+1 * j_dT j in let r := exp (- (j_L j / 70 * T)) in - (T * (2 + 4 * (r / (1 - r)))) <= x <= 0)%Re &
            (forall k, (0 < k)%Re -> sharp sg m1 (eps_spec e) (mu_val b) k /\ sharp sg m2 (eps_spec e) (mu_val b) k) -> (i < j_nmax j)%coq_nat -> (x < 0)%Re]].
Proof.
move=> to_float eval_mat argv s j m1 m2 med e b sg D E1 E2 E3 S1 S2 hm hmu ha hb hL hT hl hls hcon.
pose c := spheres_of j m1 m2 med.
have HC : two_spheres c m1 m2 (j_ra j) (j_rb j) e b by rewrite /two_spheres; do 5 (split=> //); rewrite /c /=; lra.
have hx : c_ext c = true by rewrite /c /=; case: Rltb_spec => //; lra.
have hc : (conv09 < 1)%Re by rewrite /conv09; lra.
have [N hN] := @C85_free_energy c m1 m2 (j_ra j) (j_rb j) e b sg (j_precision j) conv09
  (object (thermo_of j) (Z.of_nat (j_nmax j))) (j_nmax j) HC S1 S2 hx hmu hL hcon hl hls hc (job_ready exact_bessels m1 m2 med hT) erefl.
exists N => fuel hf other trips unk garbage empty fs.
have [t' [F [EF _ LF NF]]] := hN fuel hf unk garbage empty.
have hT0 : j_dT j <> 0%Re by lra.
have hr : quantity_run empty "free_energy()" (ops unk fuel exact_bessels trans_bessels (config_of j m1 m2 med) (j_precision j) conv09 false garbage)
            (object (thermo_of j) (Z.of_nat (j_nmax j))) = Some (Ok F).
  by rewrite /quantity_run String.eqb_refl -/c EF.
have [h [Th W]] := @job_run to_float eval_mat other trips unk fuel garbage empty exact_bessels argv s j "free_energy()"%string m1 m2 med (Ok F) fs D hT0 E1 E2 E3 hr.
by exists h, F; split.
Qed.
Print Assumptions C85_worker.

Theorem C85_worker_repulsion : forall to_float eval_mat argv s j m1 m2 med e b sg,
  describes to_float argv s j "free_energy()" ->
  eval_mat (j_v1 j) = Ok (OneMat m1) -> eval_mat (j_v2 j) = Ok (OneMat m2) -> eval_mat (j_v3 j) = Ok (OneMat med) ->
  static_sphere m1 -> static_sphere m2 -> insulator med e b -> mu_val b 0 = 1%Re ->
  (0 < j_ra j)%Re -> (0 < j_rb j)%Re -> (j_ra j + j_rb j < j_L j)%Re -> (0 < j_dT j)%Re -> (1 <= j_lmax j)%coq_nat -> (j_lmax j <= j_lssmax j)%coq_nat ->
  (forall k, (0 < k)%Re -> contrast sg m1 (eps_spec e) (mu_val b) k /\ contrast (- sg) m2 (eps_spec e) (mu_val b) k) ->
  exists N, forall fuel, (N <= fuel)%N -> forall other trips unk garbage empty fs, exists h F,
      [/\ worker to_float eval_mat other trips unk fuel garbage empty exact_bessels argv s fs =
            (write fs (target fs (List.nth 2 argv EmptyString)) (Opened (Some h) F), Done tt), tells to_float argv s h,
          List.length F = Z.to_nat (pyround (j_Tmax j / j_dT j)) & forall x, In x F -> (0 <= x)%Re].
Proof.
move=> to_float eval_mat argv s j m1 m2 med e b sg D E1 E2 E3 S1 S2 hm hmu ha hb hL hT hl hls hcon.
pose c := spheres_of j m1 m2 med.
have HC : two_spheres c m1 m2 (j_ra j) (j_rb j) e b by rewrite /two_spheres; do 5 (split=> //); rewrite /c /=; lra.
have hx : c_ext c = true by rewrite /c /=; case: Rltb_spec => //; lra.
have hc : (conv09 < 1)%Re by rewrite /conv09; lra.
have [N hN] := @C85_repulsion c m1 m2 (j_ra j) (j_rb j) e b sg (j_precision j) conv09
  (object (thermo_of j) (Z.of_nat (j_nmax j))) (j_nmax j) HC S1 S2 hx hmu hcon hl hls hc (job_ready exact_bessels m1 m2 med hT) erefl.
exists N => fuel hf other trips unk garbage empty fs.
have [t' [F [EF _ LF NF]]] := hN fuel hf unk garbage empty.
have hT0 : j_dT j <> 0%Re by lra.
have hr : quantity_run empty "free_energy()" (ops unk fuel exact_bessels trans_bessels (config_of j m1 m2 med) (j_precision j) conv09 false garbage)
            (object (thermo_of j) (Z.of_nat (j_nmax j))) = Some (Ok F).
  by rewrite /quantity_run String.eqb_refl -/c EF.
have [h [Th W]] := @job_run to_float eval_mat other trips unk fuel garbage empty exact_bessels argv s j "free_energy()"%string m1 m2 med (Ok F) fs D hT0 E1 E2 E3 hr.
by exists h, F; split.
Qed.
Print Assumptions C85_worker_repulsion.

(** ** Non-vacuity *)
(** two perfect reflectors in water at distance 25 *)
Definition far_options : sections := fun a =>
  match cavity_options a with Some f => Some (fun o => if String.eqb o "d" then Some (CInt 25) else f o) | None => None end.
Definition far_job : job :=
  {| j_ra := 1; j_rb := 4; j_L := 25; j_precision := 0.0001; j_lmax := 2; j_lssmax := 3; j_nmax := 4; j_dT := 0.5; j_Tmax := 2;
     j_v1 := CStr "PEC"; j_v2 := CStr "PEC"; j_v3 := CStr "Water" |}.
Lemma far_described : describes (fun=> None) the_argv far_options far_job "free_energy()".
Proof.
rewrite /describes /opt /number /far_options /cavity_options /=.
split; first by left.
do 4 (split; first by (left + (right; eexists; split; reflexivity))).
do 2 split=> //.
split; first by eexists; reflexivity.
split=> //; split=> //; do 3 split=> //.
split; first by left.
split; last by [].
by right; eexists; split; reflexivity.
Qed.
Example C85_mirrors : exists N, forall fuel, (N <= fuel)%N -> forall other trips unk garbage empty fs, exists h F,
  [/\ worker (fun=> None) two_materials other trips unk fuel garbage empty exact_bessels the_argv far_options fs = (write fs (target fs "out") (Opened (Some h) F), Done tt),
      List.length F = 4%N & forall x, In x F -> (x < 0)%Re].
Proof.
have sh k : (0 < k)%Re -> sharp 1 PEC (eps_spec e_Water) (mu_val None) k /\ sharp 1 PEC (eps_spec e_Water) (mu_val None) k by move=> _; split; left.
have co k : (0 < k)%Re -> contrast 1 PEC (eps_spec e_Water) (mu_val None) k /\ contrast 1 PEC (eps_spec e_Water) (mu_val None) k by move=> _; split; left.
have L4 : Z.to_nat (pyround (2 / 0.5)) = 4%N.
  have -> : (2 / 0.5 = 4)%Re by lra.
  by rewrite (pyround_IZR 4).
have st : static_sphere PEC by left.
have HW := @C85_worker (fun=> None) two_materials the_argv far_options far_job PEC PEC (Lorentz e_Water None) e_Water None 1%Re far_described erefl erefl erefl st st water_insulator (fun _ _ => erefl).
have r1 : (0 < j_ra far_job)%Re by rewrite /=; lra.
have r2 : (0 < j_rb far_job)%Re by rewrite /=; lra.
have r3 : (5 * (j_ra far_job + j_rb far_job) <= j_L far_job)%Re by rewrite /=; lra.
have r4 : (0 < j_dT far_job)%Re by rewrite /=; lra.
have r5 : (1 <= j_lmax far_job)%coq_nat by rewrite /=; lia.
have r6 : (j_lmax far_job <= j_lssmax far_job)%coq_nat by rewrite /=; lia.
have [N hN] := HW r1 r2 r3 r4 r5 r6 co.
exists N => fuel hf other trips unk garbage empty fs; have [h [F [W _ LF NF]]] := hN fuel hf other trips unk garbage empty fs.
rewrite /= L4 in LF; exists h, F; split=> // x /(@List.In_nth_error _ _ _) [i hi].
have hl : (i < List.length F)%coq_nat by apply/List.nth_error_Some; rewrite hi.
have [y [E _ neg]] := NF i hl; move: E; rewrite hi => -[->]; apply: (neg sh); rewrite /= -LF; exact: hl.
Qed.
(** the bubble near a perfect reflector in water, with the analytic term *)
Example C85_bubble : yields exact_bessels bubble_in_water 1e-4 1e-10 (task 1 3 60 true) (fun x => 0 <= x)%Re.
Proof.
have hw := water_insulator.
have HC : two_spheres bubble_in_water (Lorentz [::] None) PEC 1 2 e_Water None by rewrite /two_spheres /=; do 2 split=> //; split; [exact hw|lra].
have s1 : static_sphere (Lorentz [::] None) by right; left; exists [::], None; split.
have s2 : static_sphere PEC by left.
apply: (@C85_repulsion _ _ _ 1%Re 2%Re _ _ (-1)%Re _ _ _ 60%N HC s1 s2) => //; try lra; try (rewrite /=; lia).
- by move=> k hk; have [g1 [g2 _]] := C61_bubble hk.
- by apply: task_ready; lra.
Qed.
