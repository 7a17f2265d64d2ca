(** * Stratified spheres with exact Bessel functions; coated spheres *)
From Coq Require Import Reals.
From Coquelicot Require Import Coquelicot.
From Coq Require Import Bool ZArith List Lia Lra Sorted.
From Verif Require Import Base Mat_Model Bessel_Model Bessel_Spec Bessel_Proofs Bessel_Proofs2 Scat_Model Scat_Spec Scat_Proofs Scat_Proofs2 Scat_Proofs3 Scat_Proofs4.
From Verif Require Misc_Model Misc_Proofs.
Import ListNotations.
Open Scope R_scope.

Lemma chain_same l k p n M : 0 < k -> 0 < p -> 0 < n -> forall z, Forall (fun y => 0 < fst (fst y) /\ snd (fst y) = p /\ snd y = n) z -> chain_val l k p n M z = M.
Proof.
  intros Hk Hp Hn z. revert M. induction z as [|[[r p'] n'] z IH]; intros M H; [reflexivity|].
  inversion H as [|? ? [A [B C]] H']; subst. cbn [fst snd] in *. subst. cbn [chain_val]. rewrite step_same by assumption. now apply IH.
Qed.
Lemma chain_trim l k (pf nf : nat -> R) : 0 < k -> forall a rs m ms M, length rs = length ms ->
  (forall m', In m' (m :: ms) -> 0 < pf m' /\ 0 < nf m') -> (forall r, In r rs -> 0 < r) ->
  (forall i, (a <= i <= length ms)%nat -> nth i (m :: ms) 0%nat = nth a (m :: ms) 0%nat) ->
  chain_val l k (pf m) (nf m) M (layers pf nf rs ms) = chain_val l k (pf m) (nf m) M (layers pf nf (firstn a rs) (firstn a ms)).
Proof.
  intros Hk. induction a as [|a IH]; intros rs m ms M Hlen Hp Hr HE.
  - cbn [firstn layers combine map chain_val]. destruct (Hp m (or_introl eq_refl)) as [A B]. apply chain_same; try assumption.
    unfold layers. apply Forall_forall. intros y Hy. apply in_map_iff in Hy. destruct Hy as [[r m'] [<- Hin]]. cbn [fst snd].
    split; [apply Hr; now apply in_combine_l in Hin|]. apply in_combine_r in Hin. apply (In_nth _ _ 0%nat) in Hin. destruct Hin as [i [Hi E]].
    assert (m' = m) by (rewrite <- E; apply (HE (S i)); lia). subst m'. now rewrite H.
  - destruct rs as [|r rs], ms as [|m' ms]; try discriminate; [reflexivity|]. cbn [firstn]. unfold layers. cbn [combine map chain_val fst snd]. fold (layers pf nf rs ms). fold (layers pf nf (firstn a rs) (firstn a ms)).
    apply IH.
    + now injection Hlen.
    + intros m'' H. apply Hp. now right.
    + intros r' H. apply Hr. now right.
    + intros i Hi. apply (HE (S i)). cbn. lia.
Qed.
Lemma sorted_head_pos r0 rs : 0 < r0 -> Sorted Rle (r0 :: rs) -> forall r, In r (r0 :: rs) -> 0 < r.
Proof.
  revert r0. induction rs as [|r1 rs IH]; intros r0 H0 Hs r [<-|Hr]; try assumption; [destruct Hr|].
  inversion Hs as [|? ? H1 H2]; subst. inversion H2; subst. apply (IH r1); [lra|assumption|assumption].
Qed.
Lemma sorted_firstn (rs : list R) a : Sorted Rle rs -> Sorted Rle (firstn a rs).
Proof.
  intros H. revert a. induction H as [|r rs Hs IH Hh]; intros [|a]; cbn [firstn]; try constructor; [apply IH|].
  destruct Hh as [|r' rs Hr]; [destruct a; constructor|]. destruct a; cbn [firstn]; constructor; assumption.
Qed.

Section Strat.
  Context (ks : list R) (l0 : nat) (lmax : Z) (Hks : forall k, In k ks -> 0 < k) (Hl : (Z.of_nat l0 <= lmax)%Z).
  Context (mat : nat -> material) (ef uf : nat -> R -> R).
  Let nk := length ks.
  Let nl := Z.to_nat (lmax - Z.of_nat l0).
  Notation LTE := (lte ef uf). Notation LTM := (ltm ef uf). Notation rf := (refr_of ef uf).
  Lemma strat_general m0 m1 r0 rs ms c fe fm : length rs = length ms -> (forall m, In m (m1 :: ms) -> has (mat m) (ef m) (uf m)) ->
    0 < r0 -> Sorted Rle (r0 :: rs) -> mie exact_bessels ks l0 lmax r0 (mat m0) (mat m1) = Val c -> cvals ks l0 lmax c fe fm ->
    (rs = [] \/ forall j q r1, (j < nl)%nat -> (q < nk)%nat -> hd_error rs = Some r1 ->
       good (l0 + j) (rf m1 (nth q ks 0) * nth q ks 0 * r1) (fe j q) /\ good (l0 + j) (rf m1 (nth q ks 0) * nth q ks 0 * r1) (fm j q)) ->
    exists c', strat exact_bessels ks l0 lmax mat (m0 :: m1 :: ms) (r0 :: rs) = Ok (Val c') /\
      cvals ks l0 lmax c' (fun j q => let k := nth q ks 0 in chain_val (l0 + j) k (uf m1 k) (rf m1 k) (fe j q) (LTE k rs ms))
               (fun j q => let k := nth q ks 0 in chain_val (l0 + j) k (ef m1 k) (rf m1 k) (fm j q) (LTM k rs ms)).
  Proof.
    intros Hlen Hm Hr0 Hs Ec Hc HG. unfold strat.
    set (mie' := fun m0 m1 r => Ok (mie exact_bessels ks l0 lmax r (mat m0) (mat m1))).
    set (coat' := fun ri ra m2 m3 inner => Ok (let! c := inner in coat exact_bessels ks l0 lmax ra (mat m2) (mat m3) c)).
    destruct (Misc_Proofs.strat_final mie' coat' (m0 :: m1 :: ms) (r0 :: rs) (Val c)) as [n [Hn [_ [HE [_ E]]]]].
    { cbn [length]. lia. }
    { exists m0, m1, r0, ms, rs. split; [reflexivity|split; [reflexivity|]]. unfold mie'. now rewrite Ec. }
    rewrite E. cbn [snd]. destruct n as [|[|a]]; [lia|lia|]. replace (S (S a) - 1)%nat with (S a) in * by lia. cbn [firstn tl hd].
    destruct (loop_exact ks l0 lmax Hks Hl mat ef uf (firstn a rs) r0 m1 (firstn a ms) c fe fm) as [c' [E' C']].
    { rewrite !firstn_length. lia. }
    { intros m' [<-|H']; apply Hm; [now left|right]. rewrite <- (firstn_skipn a ms). apply in_or_app. now left. }
    { assumption. }
    { apply (sorted_firstn (r0 :: rs) (S a)). assumption. }
    { assumption. }
    { destruct HG as [->|HG]; [left; now rewrite firstn_nil|]. destruct a as [|a]; [now left|]. destruct rs as [|r1 rs]; [now left|]. right. intros j q r' Hj Hq Hr'. now apply HG. }
    exists c'. split; [exact E'|]. intros j q Hj Hq. destruct (C' j q Hj Hq) as [A B]. cbv zeta in A, B |- *. rewrite A, B.
    assert (Hk : 0 < nth q ks 0) by (apply Hks, nth_In; exact Hq). unfold lte, ltm.
    assert (HE' : forall i, (a <= i <= length ms)%nat -> nth i (m1 :: ms) 0%nat = nth a (m1 :: ms) 0%nat).
    { intros i Hi. apply (HE (S i)). cbn [length]. lia. }
    assert (HR : forall r, In r rs -> 0 < r) by (intros r Hr; apply (sorted_head_pos r0 rs); [assumption|assumption|now right]).
    split; symmetry.
    - apply (chain_trim (l0 + j) (nth q ks 0) (fun m => uf m (nth q ks 0)) (fun m => rf m (nth q ks 0))); try assumption.
      intros m' H'. destruct (Hm m' H') as [_ [HP _]]. destruct (HP _ Hk). split; [assumption|now apply refr_pos].
    - apply (chain_trim (l0 + j) (nth q ks 0) (fun m => ef m (nth q ks 0)) (fun m => rf m (nth q ks 0))); try assumption.
      intros m' H'. destruct (Hm m' H') as [_ [HP _]]. destruct (HP _ Hk). split; [assumption|now apply refr_pos].
  Qed.
  Lemma layers_ok pf nf rs ms : (forall m, In m ms -> 0 < pf m /\ 0 < nf m) -> (forall r, In r rs -> 0 < r) -> Forall layer_ok (layers pf nf rs ms).
  Proof.
    intros H1 H2. unfold layers. apply Forall_forall. intros y Hy. apply in_map_iff in Hy. destruct Hy as [[r m] [<- Hin]]. unfold layer_ok. cbn [fst snd].
    split; [apply H2; now apply in_combine_l in Hin|]. apply H1. now apply in_combine_r in Hin.
  Qed.
  Lemma layers_above pf nf : forall rs ms r0, Sorted Rle (r0 :: rs) -> above r0 (layers pf nf rs ms).
  Proof.
    induction rs as [|r rs IH]; intros ms r0 Hs; [exact I|]. destruct ms as [|m ms]; [exact I|]. unfold layers. cbn [combine map above fst snd].
    inversion Hs as [|? ? H1 H2]; subst. inversion H2; subst. split; [assumption|]. now apply IH.
  Qed.
  (** the stratified sphere with a core of finite permittivity *)
  Theorem strat_solves m0 m1 r0 rs ms : length rs = length ms -> (forall m, In m (m0 :: m1 :: ms) -> has (mat m) (ef m) (uf m)) ->
    0 < r0 -> Sorted Rle (r0 :: rs) ->
    exists c, strat exact_bessels ks l0 lmax mat (m0 :: m1 :: ms) (r0 :: rs) = Ok (Val c) /\
      forall j q a, (j < nl)%nat -> (q < nk)%nat -> let k := nth q ks 0 in
        ((exists b, strat_match (S (l0 + j)) k (uf m0 k) (rf m0 k) b 0 (LTE k (r0 :: rs) (m1 :: ms)) a) <-> a = TE c j q) /\
        ((exists b, strat_match (S (l0 + j)) k (ef m0 k) (rf m0 k) b 0 (LTM k (r0 :: rs) (m1 :: ms)) a) <-> a = TM c j q).
  Proof.
    intros Hlen Hm Hr0 Hs. assert (M0 := Hm m0 (or_introl eq_refl)). assert (M1 := Hm m1 (or_intror (or_introl eq_refl))).
    destruct (mie_exact ks l0 lmax Hks Hl r0 (mat m0) (mat m1) _ _ _ _ Hr0 M0 M1) as [c0 [E0 C0]].
    assert (HR := sorted_head_pos r0 rs Hr0 Hs).
    assert (EV : forall q, (q < nk)%nat -> 0 < nth q ks 0 /\ (forall m, In m (m0 :: m1 :: ms) -> 0 < ef m (nth q ks 0) /\ 0 < uf m (nth q ks 0) /\ 0 < rf m (nth q ks 0))).
    { intros q Hq. assert (Hk : 0 < nth q ks 0) by (apply Hks, nth_In; exact Hq). split; [exact Hk|]. intros m Hin. destruct (Hm m Hin) as [_ [HP _]]. destruct (HP _ Hk). split; [assumption|split; [assumption|now apply refr_pos]]. }
    assert (GG : forall j q, (q < nk)%nat -> good (l0 + j) (rf m0 (nth q ks 0) * nth q ks 0 * r0) 0).
    { intros j q Hq. destruct (EV q Hq) as [Hk HP]. apply good_0. destruct (HP m0 (or_introl eq_refl)) as [_ [_ P]]. repeat apply Rmult_lt_0_compat; assumption. }
    destruct (strat_general m0 m1 r0 rs ms c0 _ _ Hlen ltac:(intros m H; apply Hm; now right) Hr0 Hs E0 C0) as [c [E C]].
    { destruct rs as [|r1 rs]; [now left|right]. intros j q r' Hj Hq Hr'. injection Hr' as <-. destruct (EV q Hq) as [Hk HP].
      destruct (HP m0 (or_introl eq_refl)) as [A1 [A2 A3]]. destruct (HP m1 (or_intror (or_introl eq_refl))) as [B1 [B2 B3]]. cbv zeta. unfold ix. fold (rf m0 (nth q ks 0)) (rf m1 (nth q ks 0)).
      rewrite <- !step_0 by assumption. inversion Hs as [|? ? _ H2]; subst. inversion H2; subst.
      split; (apply good_scale with r0; [assumption|assumption|assumption|assumption|]); apply step_good; try assumption; now apply GG. }
    exists c. split; [exact E|]. intros j q a Hj Hq. destruct (EV q Hq) as [Hk HP]. destruct (C j q Hj Hq) as [-> ->]. cbv zeta. unfold ix. fold (rf m0 (nth q ks 0)) (rf m1 (nth q ks 0)).
    destruct (HP m0 (or_introl eq_refl)) as [A1 [A2 A3]]. destruct (HP m1 (or_intror (or_introl eq_refl))) as [B1 [B2 B3]].
    rewrite <- !step_0 by assumption.
    assert (SW : forall p n ly, (exists b, strat_match (S (l0 + j)) (nth q ks 0) p n b 0 ly a) <-> (exists b, strat_match (S (l0 + j)) (nth q ks 0) p n b (b * 0) ly a)).
    { intros p n ly. split; intros [b H]; exists b; [now rewrite Rmult_0_r|now rewrite Rmult_0_r in H]. }
    rewrite !SW. unfold lte, ltm. split.
    - apply (chain_solution (l0 + j) (nth q ks 0) Hk (layers (fun m => uf m (nth q ks 0)) (fun m => rf m (nth q ks 0)) (r0 :: rs) (m1 :: ms)) (uf m0 (nth q ks 0)) (rf m0 (nth q ks 0)) 0 r0); try assumption; [now apply GG| |].
      + apply layers_ok; [|assumption]. intros m H. destruct (HP m (or_intror H)) as [_ H']. exact H'.
      + apply layers_above. constructor; [assumption|]. constructor. lra.
    - apply (chain_solution (l0 + j) (nth q ks 0) Hk (layers (fun m => ef m (nth q ks 0)) (fun m => rf m (nth q ks 0)) (r0 :: rs) (m1 :: ms)) (ef m0 (nth q ks 0)) (rf m0 (nth q ks 0)) 0 r0); try assumption; [now apply GG| |].
      + apply layers_ok; [|assumption]. intros m H. destruct (HP m (or_intror H)) as [H' [_ H'']]. now split.
      + apply layers_above. constructor; [assumption|]. constructor. lra.
  Qed.
  (** a perfectly conducting core: the first interface is replaced by the conductor's boundary condition *)
  Lemma pec_states l n k r : 0 < n -> 0 < k -> 0 < r -> let x := n * k * r in
    weak l x (sgn (S l) * PI * 0.5 * pec_scale l n k r) /\ weak l x (sgn (S l) * PI * 0.5 * DI l x / DK l x * pec_scale l n k r).
  Proof.
    intros Hn Hk Hr x. assert (Hx : 0 < x) by (unfold x; repeat apply Rmult_lt_0_compat; assumption).
    generalize (sph_i_pos (S l) x Hx) (sph_h_0 (S l) x Hx) (DI_pos l x Hx) (DK_neg l x Hx) (pos_INR l). intros A B C D P.
    assert (E : sgn (S l) * PI * 0.5 * pec_scale l n k r = - (sph_i (S l) x / sph_h (S l) x)).
    { unfold pec_scale. fold x. rewrite exp_ln_diff by (now apply sph_i_pos || now apply sph_k_pos).
      transitivity (sph_i (S l) x * (sgn (S l) * PI * 0.5 / sph_k (S l) x)); [unfold Rdiv; ring|]. rewrite h_inv by assumption. unfold Rdiv. ring. }
    replace (sgn (S l) * PI * 0.5 * DI l x / DK l x * pec_scale l n k r) with (sgn (S l) * PI * 0.5 * pec_scale l n k r * (DI l x / DK l x)) by (unfold Rdiv; ring).
    rewrite E. unfold weak, fval, gval. split; split.
    - right. field. assumption.
    - replace (DI l x * sph_i (S l) x + - (sph_i (S l) x / sph_h (S l) x) * (DK l x * sph_h (S l) x)) with ((DI l x - DK l x) * sph_i (S l) x) by (field; assumption). left. apply Rmult_lt_0_compat; lra.
    - replace (sph_i (S l) x + - (sph_i (S l) x / sph_h (S l) x) * (DI l x / DK l x) * sph_h (S l) x) with ((DI l x - DK l x) * sph_i (S l) x / - DK l x) by (field; split; [lra|assumption]).
      left. apply Rdiv_lt_0_compat; [apply Rmult_lt_0_compat; lra|lra].
    - right. field. repeat split; lra || assumption.
  Qed.
  Theorem strat_pec_solves m0 m1 r0 rs ms : length rs = length ms -> mat m0 = PEC -> (forall m, In m (m1 :: ms) -> has (mat m) (ef m) (uf m)) ->
    0 < r0 -> Sorted Rle (r0 :: rs) -> (rs = [] \/ exists r1 rs', rs = r1 :: rs' /\ r0 < r1) ->
    exists c, strat exact_bessels ks l0 lmax mat (m0 :: m1 :: ms) (r0 :: rs) = Ok (Val c) /\
      forall j q a, (j < nl)%nat -> (q < nk)%nat -> let k := nth q ks 0 in
        ((exists c d, c <> 0 /\ c * sph_i (S (l0 + j)) (rf m1 k * k * r0) + d * sph_h (S (l0 + j)) (rf m1 k * k * r0) = 0 /\
            strat_match (S (l0 + j)) k (uf m1 k) (rf m1 k) c d (LTE k rs ms) a) <-> a = TE c j q) /\
        ((exists c d, c <> 0 /\ Derive (fun s => s * (c * sph_i (S (l0 + j)) (rf m1 k * k * s) + d * sph_h (S (l0 + j)) (rf m1 k * k * s))) r0 = 0 /\
            strat_match (S (l0 + j)) k (ef m1 k) (rf m1 k) c d (LTM k rs ms) a) <-> a = TM c j q).
  Proof.
    intros Hlen Hp Hm Hr0 Hs Hr1. assert (M1 := Hm m1 (or_introl eq_refl)).
    destruct (mie_pec_exact ks l0 lmax Hks Hl r0 (mat m1) _ _ Hr0 M1) as [c0 [E0 C0]].
    assert (HR := sorted_head_pos r0 rs Hr0 Hs).
    assert (EV : forall q, (q < nk)%nat -> 0 < nth q ks 0 /\ (forall m, In m (m1 :: ms) -> 0 < ef m (nth q ks 0) /\ 0 < uf m (nth q ks 0) /\ 0 < rf m (nth q ks 0))).
    { intros q Hq. assert (Hk : 0 < nth q ks 0) by (apply Hks, nth_In; exact Hq). split; [exact Hk|]. intros m Hin. destruct (Hm m Hin) as [_ [HP _]]. destruct (HP _ Hk). split; [assumption|split; [assumption|now apply refr_pos]]. }
    assert (LT : forall n k r r', 0 < n -> 0 < k -> r < r' -> n * k * r < n * k * r').
    { intros n k r r' H1 H2 H3. apply Rmult_lt_compat_l; [now apply Rmult_lt_0_compat|assumption]. }
    rewrite <- Hp in E0.
    destruct (strat_general m0 m1 r0 rs ms c0 _ _ Hlen Hm Hr0 Hs E0 C0) as [c [E C]].
    { destruct Hr1 as [->|[r1 [rs' [-> Hr1]]]]; [now left|right]. intros j q r' Hj Hq Hr'. injection Hr' as <-. destruct (EV q Hq) as [Hk HP].
      destruct (HP m1 (or_introl eq_refl)) as [A1 [A2 A3]]. cbv zeta. unfold ix. fold (rf m1 (nth q ks 0)).
      destruct (pec_states (l0 + j) (rf m1 (nth q ks 0)) (nth q ks 0) r0 A3 Hk Hr0) as [W1 W2].
      split; (apply weak_good with (rf m1 (nth q ks 0) * nth q ks 0 * r0); [repeat apply Rmult_lt_0_compat; assumption|now apply LT|assumption]). }
    exists c. split; [exact E|]. intros j q a Hj Hq k. destruct (EV q Hq) as [Hk HP]. destruct (C j q Hj Hq) as [-> ->]. cbv zeta. unfold ix. fold (rf m1 (nth q ks 0)). fold k in Hk, HP |- *.
    destruct (HP m1 (or_introl eq_refl)) as [A1 [A2 A3]].
    destruct (pec_states (l0 + j) (rf m1 k) k r0 A3 Hk Hr0) as [W1 W2].
    (* a radius from which on the states are good *)
    assert (RG : exists r1, r0 < r1 /\ above r1 (LTE k rs ms) /\ above r1 (LTM k rs ms)).
    { destruct Hr1 as [->|[r1 [rs' [-> Hr1]]]].
      - exists (r0 + 1). split; [lra|]. split; exact I.
      - exists r1. split; [assumption|]. inversion Hs as [|? ? H1 H2]; subst. split; apply layers_above; (constructor; [assumption|constructor; lra]). }
    destruct RG as [r1 [HR1 [AB1 AB2]]]. assert (HR1' : 0 < r1) by lra.
    assert (X0 : 0 < rf m1 k * k * r0) by (repeat apply Rmult_lt_0_compat; assumption).
    assert (Lok1 : Forall layer_ok (LTE k rs ms)) by (apply layers_ok; [intros m H; apply (HP m (or_intror H))|intros r H; apply HR; now right]).
    assert (Lok2 : Forall layer_ok (LTM k rs ms)) by (apply layers_ok; [intros m H; destruct (HP m (or_intror H)) as [? [_ ?]]; now split|intros r H; apply HR; now right]).
    assert (G1 := weak_good (l0 + j) _ _ _ X0 (LT _ _ _ _ A3 Hk HR1) W1). assert (G2 := weak_good (l0 + j) _ _ _ X0 (LT _ _ _ _ A3 Hk HR1) W2).
    generalize (chain_solution (l0 + j) k Hk _ (uf m1 k) (rf m1 k) _ r1 A2 A3 HR1' G1 Lok1 AB1 a). generalize (chain_solution (l0 + j) k Hk _ (ef m1 k) (rf m1 k) _ r1 A1 A3 HR1' G2 Lok2 AB2 a).
    intros <- <-. clear C C0 E E0.
    assert (CN : forall p n ly M, 0 < p -> 0 < n -> good (l0 + j) (n * k * r1) M -> Forall layer_ok ly -> above r1 ly -> forall b, strat_match (S (l0 + j)) k p n b (b * M) ly a -> b <> 0).
    { clear -Hk HR1'. intros p n ly M Hp Hn HG HF HA b H. revert p n M b r1 HR1' Hp Hn HG HF HA H. induction ly as [|[[r p'] n'] ly IH]; intros p n M b r1 HR1 Hp Hn HG HF HA H.
      - destruct H as [-> _]. lra.
      - cbn [strat_match] in H. destruct H as [c' [d' [H1 [H2 H3]]]]. inversion HF as [|? ? [Q1 [Q2 Q3]] HF']; subst. cbn [fst snd] in *. destruct HA as [HA1 HA2].
        assert (G : good (l0 + j) (n * k * r) M) by (now apply good_scale with r1).
        assert (I : interface (l0 + j) p p' n n' k r M b c' d') by (apply interface_derive; try assumption; split; assumption).
        apply interface_iff in I; try assumption. destruct I as [I1 I2].
        assert (c' <> 0). { rewrite I2 in H3. apply (IH p' n' (step_val (l0 + j) p p' n n' k r M) c' r); try assumption. now apply step_good. }
        intros ->. apply H. rewrite I1. ring. }
    split; split.
    - intros [b [d [Hb [Hd H]]]]. exists b. replace (b * _) with d; [exact H|].
      assert (U : pec_ext_TE (S (l0 + j)) (rf m1 k) k r0 (d / b)).
      { unfold pec_ext_TE. apply Rmult_eq_reg_l with b; [|assumption]. rewrite Rmult_0_r. rewrite <- Hd. field. assumption. }
      apply (proj1 (pec_ext_unique (l0 + j) (rf m1 k) k r0 A3 Hk Hr0 (d / b))) in U. rewrite <- U. field. assumption.
    - intros [b H]. exists b, (b * (sgn (S (l0 + j)) * PI * 0.5 * pec_scale (l0 + j) (rf m1 k) k r0)). split; [|split; [|exact H]].
      + revert H. now apply CN.
      + assert (U := proj2 (proj1 (pec_ext_unique (l0 + j) (rf m1 k) k r0 A3 Hk Hr0 _)) eq_refl). unfold pec_ext_TE in U.
        match goal with |- ?x = 0 => transitivity (b * 0); [rewrite <- U at 1; ring|ring] end.
    - intros [b [d [Hb [Hd H]]]]. exists b. replace (b * _) with d; [exact H|].
      assert (U : pec_ext_TM (S (l0 + j)) (rf m1 k) k r0 (d / b)).
      { unfold pec_ext_TM. apply Rmult_eq_reg_l with b; [|assumption]. rewrite Rmult_0_r. rewrite <- Hd. rewrite <- Derive_scal. apply Derive_ext. intros t. field. assumption. }
      apply (proj2 (pec_ext_unique (l0 + j) (rf m1 k) k r0 A3 Hk Hr0 (d / b))) in U. rewrite <- U. field. assumption.
    - intros [b H]. exists b. eexists. split; [revert H; now apply CN|]. split; [|exact H].
      assert (U := proj2 (proj2 (pec_ext_unique (l0 + j) (rf m1 k) k r0 A3 Hk Hr0 _)) eq_refl). unfold pec_ext_TM in U.
      transitivity (b * 0); [|ring]. rewrite <- U at 1. rewrite <- Derive_scal. apply Derive_ext. intros t. ring.
  Qed.
End Strat.
