(** * Proofs about the Misc area *)
From Coq Require Import Bool Reals ZArith String List Lia Lra.
From Verif Require Import Base Misc_Model Misc_Spec.
Import ListNotations.
Open Scope R_scope.

(** ** C51 *)
Lemma omega_eV_pos : 0 < omega_eV.
Proof. unfold omega_eV. apply Rdiv_lt_0_compat; lra. Qed.

Lemma convert_cell_ok h a : convertible (h a) ->
  convert_cell h a = (upd h a (converted (h a)), Ok tt).
Proof.
  intros (f & E & rest & Ea & Hf & HE). unfold convert_cell. rewrite Ea.
  pose proof omega_eV_pos as Hw.
  assert (0 <= E * omega_eV) by (apply Rmult_le_pos; lra).
  cbv zeta. destruct (Rltb_spec (f * (E * omega_eV) ^ 2) 0) as [H0|H0].
  { assert (0 <= f * (E * omega_eV) ^ 2) by (apply Rmult_le_pos; [lra|]; apply pow_le; lra). lra. }
  cbn [converted]. fold omega_eV. rewrite sqrt_mult by (try lra; apply pow_le; lra).
  rewrite sqrt_pow2 by lra. reflexivity.
Qed.

Lemma convert_cell_neg h a f E rest : h a = f :: E :: rest -> f < 0 -> E <> 0 ->
  convert_cell h a = (h, Err ValueError).
Proof.
  intros Ha Hf HE. unfold convert_cell. rewrite Ha. pose proof omega_eV_pos.
  destruct (Rltb_spec (f * (E * omega_eV) ^ 2) 0) as [H0|H0]; [reflexivity|].
  exfalso. assert (0 < (E * omega_eV) ^ 2).
  { assert (E * omega_eV <> 0) by (intros H1; apply Rmult_integral in H1; lra). apply Rsqr_pos_lt in H1. unfold Rsqr in H1. cbn [pow]. lra. }
  nra.
Qed.

Lemma upd_same h a v : upd h a v a = v.
Proof. unfold upd. now rewrite Nat.eqb_refl. Qed.
Lemma upd_other h a v b : b <> a -> upd h a v b = h b.
Proof. unfold upd. intros H. destruct (Nat.eqb_spec b a); [contradiction|reflexivity]. Qed.

Lemma convert_all_ok : forall params h, NoDup params -> (forall a, In a params -> convertible (h a)) ->
  exists h', convert_all h params = (h', Ok tt) /\
    (forall a, In a params -> h' a = converted (h a)) /\
    (forall a, ~ In a params -> h' a = h a).
Proof.
  induction params as [|a r IH]; intros h Hd Hc; cbn [convert_all].
  - exists h. split; [reflexivity|]. split; [intros a []|reflexivity].
  - inversion Hd as [|? ? Hn Hd']; subst.
    rewrite (convert_cell_ok h a (Hc a (or_introl eq_refl))).
    destruct (IH (upd h a (converted (h a))) Hd') as (h' & E & H1 & H2).
    { intros b Hb. rewrite upd_other by (intros ->; contradiction). apply Hc. now right. }
    exists h'. split; [assumption|]. split.
    + intros b [<-|Hb].
      * rewrite H2 by assumption. apply upd_same.
      * rewrite H1 by assumption. rewrite upd_other; [reflexivity|intros ->; contradiction].
    + intros b Hb. rewrite H2 by (intros H; apply Hb; now right).
      apply upd_other. intros ->. apply Hb. now left.
Qed.

Lemma transform_spec params h : NoDup params -> (forall a, In a params -> convertible (h a)) ->
  exists h', transform h params = (h', Ok params) /\
    (forall a, In a params -> h' a = converted (h a)) /\
    (forall a, ~ In a params -> h' a = h a).
Proof.
  intros Hd Hc. destruct (convert_all_ok params h Hd Hc) as (h' & E & H).
  exists h'. split; [|exact H]. unfold transform. now rewrite E.
Qed.

Lemma converted_fix l : convertible l -> (converted l = l <-> exists rest, l = 0 :: 0 :: rest \/ (exists f, l = f :: 0 :: rest /\ f = 0)).
Proof.
  intros (f & E & rest & -> & Hf & HE). cbn [converted]. fold omega_eV. split.
  - intros H. injection H as H1 H2. assert (HE0 : E = 0).
    { assert (1 < omega_eV). { unfold omega_eV. apply Rmult_lt_reg_r with 1.05457e-34; [lra|].
        unfold Rdiv. rewrite Rmult_assoc, Rinv_l by lra. lra. }
      nra. }
    subst E. rewrite Rmult_0_l, Rmult_0_r in H1. exists rest. left. now rewrite <- H1.
  - intros (r & [H|(f' & H & ->)]); injection H as -> -> ->; rewrite Rmult_0_l, Rmult_0_r; reflexivity.
Qed.

Lemma transform_failure h1 params1 a params2 f E rest :
  NoDup (params1 ++ a :: params2) -> (forall b, In b params1 -> convertible (h1 b)) ->
  h1 a = f :: E :: rest -> f < 0 -> E <> 0 ->
  exists h', transform h1 (params1 ++ a :: params2) = (h', Err ValueError) /\
    (forall b, In b params1 -> h' b = converted (h1 b)) /\
    (forall b, ~ In b params1 -> h' b = h1 b).
Proof.
  intros Hd Hc Ha Hf HE.
  assert (G : forall ps h, NoDup (ps ++ a :: params2) -> (forall b, In b ps -> convertible (h b)) -> h a = f :: E :: rest ->
    exists h', convert_all h (ps ++ a :: params2) = (h', Err ValueError) /\
    (forall b, In b ps -> h' b = converted (h b)) /\ (forall b, ~ In b ps -> h' b = h b)).
  { induction ps as [|b ps IH]; intros h Hd' Hc' Ha'; cbn [app convert_all].
    - rewrite (convert_cell_neg h a f E rest Ha' Hf HE). exists h. split; [reflexivity|]. split; [intros b []|reflexivity].
    - cbn [app] in Hd'. inversion Hd' as [|? ? Hn Hd'']; subst.
      rewrite (convert_cell_ok h b (Hc' b (or_introl eq_refl))).
      assert (Hba : b <> a) by (intros ->; apply Hn; apply in_or_app; right; now left).
      destruct (IH (upd h b (converted (h b))) Hd'') as (h' & E' & H1 & H2).
      { intros c Hb. rewrite upd_other; [apply Hc'; now right|].
        intros ->. apply Hn. apply in_or_app. now left. }
      { rewrite upd_other by congruence. assumption. }
      exists h'. split; [assumption|]. split.
      + intros c [<-|Hb].
        * rewrite H2; [apply upd_same|]. intros H. apply Hn. apply in_or_app. now left.
        * rewrite H1 by assumption. rewrite upd_other; [reflexivity|].
          intros ->. apply Hn. apply in_or_app. now left.
      + intros c Hb. rewrite H2 by (intros H; apply Hb; now right).
        apply upd_other. intros ->. apply Hb. now left. }
  destruct (G params1 h1 Hd Hc Ha) as (h' & E1 & H). exists h'. split; [|exact H].
  unfold transform. now rewrite E1.
Qed.

(** ** C50 *)
Section Save.
  Context {data : Type}.
  Implicit Types (fs : @fsys data).

  Lemma app1_neq (s : string) : (s ++ "1")%string <> s.
  Proof. induction s as [|c s IH]; cbn; [discriminate|]. intros H. injection H. exact IH. Qed.

  Lemma save_fresh fs f d : fs f = None ->
    save_result fs f d f = Some d /\ forall g, g <> f -> save_result fs f d g = fs g.
  Proof.
    intros H. unfold save_result. rewrite H. split; [now rewrite String.eqb_refl|].
    intros g Hg. destruct (String.eqb_spec g f); [contradiction|reflexivity].
  Qed.
  Lemma save_existing fs f d0 d : fs f = Some d0 ->
    save_result fs f d f = Some d0 /\ save_result fs f d (f ++ "1")%string = Some d /\
    forall g, g <> (f ++ "1")%string -> save_result fs f d g = fs g.
  Proof.
    intros H. unfold save_result. rewrite H. repeat split.
    - destruct (String.eqb_spec f (f ++ "1")); [|reflexivity]. exfalso. now apply (app1_neq f).
    - now rewrite String.eqb_refl.
    - intros g Hg. destruct (String.eqb_spec g (f ++ "1")); [contradiction|reflexivity].
  Qed.

  Definition save_all (fs : fsys) (f : string) (ds : list data) : fsys :=
    fold_left (fun fs d => save_result fs f d) ds fs.

  Lemma save_history_existing f : forall ds fs d0, fs f = Some d0 ->
    save_all fs f ds f = Some d0 /\
    (forall d ds', ds = ds' ++ [d] -> save_all fs f ds (f ++ "1")%string = Some d) /\
    (forall g, g <> (f ++ "1")%string -> save_all fs f ds g = fs g).
  Proof.
    induction ds as [|d ds IH]; intros fs d0 H.
    - cbn. split; [exact H|]. split; [|reflexivity]. intros d [|? ?]; discriminate.
    - change (save_all fs f (d :: ds)) with (save_all (save_result fs f d) f ds).
      destruct (save_existing fs f d0 d H) as (A & B & C).
      destruct (IH _ _ A) as (A' & B' & C'). repeat split.
      + exact A'.
      + intros e ds' He. destruct ds as [|d1 ds].
        * destruct ds' as [|x [|y z]]; cbn in He; try discriminate. injection He as <-. exact B.
        * destruct ds' as [|x ds']; [discriminate|]. injection He as <- He. now apply (B' e ds').
      + intros g Hg. rewrite C' by assumption. now apply C.
  Qed.

  Lemma save_history f d1 ds d fs : fs f = None ->
    save_all fs f (d1 :: ds ++ [d]) f = Some d1 /\
    save_all fs f (d1 :: ds ++ [d]) (f ++ "1")%string = Some d /\
    (forall g, g <> f -> g <> (f ++ "1")%string -> save_all fs f (d1 :: ds ++ [d]) g = fs g).
  Proof.
    intros H. change (save_all fs f (d1 :: ds ++ [d])) with (save_all (save_result fs f d1) f (ds ++ [d])).
    destruct (save_fresh fs f d1 H) as [A B].
    destruct (save_history_existing f (ds ++ [d]) (save_result fs f d1) d1 A) as (A' & B' & C').
    repeat split; [exact A'|now apply (B' d ds)|]. intros g H1 H2. rewrite C' by assumption. now apply B.
  Qed.
End Save.

(** ** C43 *)
Section Strat.
  Context {X : Type}.
  Context (mie : nat -> nat -> R -> res X) (mie_coated : R -> R -> nat -> nat -> X -> res X).
  Notation strat := (mie_stratified mie mie_coated).

  Definition trims (mats : list nat) : bool :=
    Nat.eqb (last mats 0%nat) (last (removelast mats) 0%nat) && Nat.leb 3 (List.length mats).

  Lemma strat_step fuel m0 m1 mats r0 rs inner :
    mie m0 m1 r0 = Ok inner ->
    strat (S fuel) (m0 :: m1 :: mats) (r0 :: rs) =
      if trims (m0 :: m1 :: mats) then strat fuel (removelast (m0 :: m1 :: mats)) (removelast (r0 :: rs))
      else ((m0 :: m1 :: mats, r0 :: rs), coat_loop mie_coated r0 rs (m1 :: mats) inner).
  Proof. intros H. cbn [mie_stratified]. rewrite H. reflexivity. Qed.

  Lemma trims_snoc mats m n : trims (mats ++ [m; n]) = Nat.eqb n m && Nat.leb 1 (List.length mats).
  Proof.
    unfold trims. replace (mats ++ [m; n]) with ((mats ++ [m]) ++ [n]) by now rewrite <- app_assoc.
    rewrite removelast_last, !last_last. rewrite !app_length. cbn [List.length]. f_equal.
    apply eq_true_iff_eq. rewrite !Nat.leb_le. lia.
  Qed.

  Lemma removelast_firstn {A} (l : list A) n : List.length l = S n -> removelast l = firstn n l.
  Proof. intros H. rewrite (removelast_firstn_len l), H. reflexivity. Qed.

  (** popping shells: the run of equal materials at the outside is cut to one element (but at least
      two materials remain) *)
  Lemma strat_trim m k : forall fuel pre rs m0 m1 r0 inner,
    (pre <> []) -> last pre 0%nat <> m ->
    List.length rs = (List.length pre + k)%nat -> (k < fuel)%nat ->
    hd_error (pre ++ m :: repeat m k) = Some m0 -> hd_error (tl (pre ++ m :: repeat m k)) = Some m1 ->
    hd_error rs = Some r0 -> mie m0 m1 r0 = Ok inner ->
    strat fuel (pre ++ m :: repeat m k) rs =
      ((pre ++ [m], firstn (List.length pre) rs),
       coat_loop mie_coated r0 (tl (firstn (List.length pre) rs)) (tl (pre ++ [m])) inner).
  Proof.
    induction k as [|k IH]; intros fuel pre rs m0 m1 r0 inner Hp Hl Hr Hf H0 H1 Hr0 Hm.
    - destruct fuel as [|fuel]; [lia|]. rewrite Nat.add_0_r in Hr.
      cbn [repeat] in *. rewrite <- Hr, firstn_all.
      destruct (pre ++ [m]) as [|a [|b mats]] eqn:Epm; try discriminate.
      destruct rs as [|r rs]; [discriminate|]. injection H0 as ->. injection H1 as ->. injection Hr0 as ->.
      rewrite (strat_step _ _ _ _ _ _ inner Hm).
      replace (trims (m0 :: m1 :: mats)) with false.
      + reflexivity.
      + rewrite <- Epm. destruct (exists_last Hp) as (pre' & p & ->). rewrite last_last in Hl.
        rewrite <- app_assoc. cbn [app]. rewrite trims_snoc. destruct (Nat.eqb_spec m p); [congruence|reflexivity].
    - destruct fuel as [|fuel]; [lia|].
      assert (Em : pre ++ m :: repeat m (S k) = (pre ++ repeat m k) ++ [m; m]).
      { rewrite <- app_assoc. f_equal. cbn [repeat].
        change (m :: m :: repeat m k) with (repeat m (2 + k)). rewrite (Nat.add_comm 2 k), repeat_app. reflexivity. }
      assert (Em' : pre ++ m :: repeat m k = (pre ++ repeat m k) ++ [m]).
      { rewrite <- app_assoc. f_equal. change (m :: repeat m k) with (repeat m (1 + k)). rewrite (Nat.add_comm 1 k), repeat_app. reflexivity. }
      assert (Ht : trims (pre ++ m :: repeat m (S k)) = true).
      { rewrite Em, trims_snoc, Nat.eqb_refl. cbn [andb]. apply Nat.leb_le. destruct pre; [contradiction|]. cbn. lia. }
      assert (Er : removelast (pre ++ m :: repeat m (S k)) = pre ++ m :: repeat m k).
      { rewrite Em, Em'. replace ((pre ++ repeat m k) ++ [m; m]) with (((pre ++ repeat m k) ++ [m]) ++ [m]) by now rewrite <- app_assoc.
        apply removelast_last. }
      assert (Hs : strat (S fuel) (pre ++ m :: repeat m (S k)) rs =
                   strat fuel (pre ++ m :: repeat m k) (removelast rs)).
      { destruct (pre ++ m :: repeat m (S k)) as [|a [|b mats]] eqn:Epm; try discriminate.
        destruct rs as [|r rs]; [discriminate|]. injection H0 as ->. injection H1 as ->. injection Hr0 as ->.
        rewrite (strat_step _ _ _ _ _ _ inner Hm), Ht, Er. reflexivity. }
      rewrite Hs. rewrite (removelast_firstn rs (List.length pre + k)) by lia.
      rewrite (IH fuel pre (firstn (List.length pre + k) rs) m0 m1 r0 inner); auto; try lia.
      + rewrite firstn_firstn, Nat.min_l by lia. reflexivity.
      + rewrite firstn_length. lia.
      + destruct pre as [|p pre]; [contradiction|]. exact H0.
      + destruct pre as [|p [|q pre]]; [contradiction| |]; exact H1.
      + destruct rs as [|r rs]; [discriminate|]. destruct pre; [contradiction|]. exact Hr0.
  Qed.

  (** all materials equal *)
  Lemma strat_trim_all m k : forall fuel rs r0 inner,
    List.length rs = S k -> (k < fuel)%nat -> hd_error rs = Some r0 -> mie m m r0 = Ok inner ->
    strat fuel (m :: m :: repeat m k) rs = (([m; m], [r0]), Ok inner).
  Proof.
    induction k as [|k IH]; intros fuel rs r0 inner Hr Hf Hr0 Hm.
    - destruct fuel as [|fuel]; [lia|]. destruct rs as [|r [|? ?]]; try discriminate. injection Hr0 as ->.
      cbn [repeat]. rewrite (strat_step _ _ _ _ _ _ inner Hm). unfold trims. cbn [List.length Nat.leb]. rewrite andb_false_r. reflexivity.
    - destruct fuel as [|fuel]; [lia|]. destruct rs as [|r rs]; [discriminate|]. injection Hr0 as ->.
      rewrite (strat_step _ _ _ _ _ _ inner Hm).
      assert (Em : m :: m :: repeat m (S k) = (repeat m (S k)) ++ [m; m]).
      { change (m :: m :: repeat m (S k)) with (repeat m (2 + S k)). rewrite (Nat.add_comm 2 (S k)), repeat_app. reflexivity. }
      assert (Er : removelast (m :: m :: repeat m (S k)) = m :: m :: repeat m k).
      { change (m :: m :: repeat m (S k)) with (repeat m (S k + 2)%nat ) at 1 || idtac.
        transitivity (repeat m (S (S k))); [|reflexivity].
        replace (m :: m :: repeat m (S k)) with (repeat m (S (S k)) ++ [m]).
        - apply removelast_last.
        - rewrite <- repeat_cons. reflexivity. }
      assert (Ht : trims (m :: m :: repeat m (S k)) = true).
      { rewrite Em, trims_snoc, Nat.eqb_refl. reflexivity. }
      rewrite Ht, Er. cbn [List.length] in Hr.
      apply IH; [|lia| |assumption].
      + rewrite (removelast_firstn (r0 :: rs) (S k)) by (cbn; lia). rewrite firstn_length. cbn [List.length]. lia.
      + destruct rs as [|r rs]; [cbn in Hr; lia|]. reflexivity.
  Qed.

  (** every list of materials ends in a maximal run *)
  Lemma run_decomp (l : list nat) : l <> [] ->
    exists pre m k, l = pre ++ m :: repeat m k /\ (pre = [] \/ last pre 0%nat <> m).
  Proof.
    induction l as [|a l IH] using rev_ind; [congruence|]. intros _.
    destruct l as [|b l].
    - exists [], a, 0%nat. split; [reflexivity|now left].
    - destruct IH as (pre & m & k & E & H); [discriminate|]. rewrite E.
      destruct (Nat.eq_dec a m) as [->|Ha].
      + exists pre, m, (S k). split; [|assumption]. rewrite <- app_assoc. f_equal. cbn [app].
        rewrite <- repeat_cons. reflexivity.
      + exists (pre ++ m :: repeat m k), a, 0%nat. split; [reflexivity|]. right.
        replace (m :: repeat m k) with (repeat m k ++ [m]) by (symmetry; apply repeat_cons).
        rewrite app_assoc, last_last. congruence.
  Qed.
End Strat.

Section StratValue.
  Context {X : Type}.
  Context (coat : R -> R -> nat -> nat -> X -> X).
  Let mc := fun ri ra m2 m3 x => Ok (coat ri ra m2 m3 x).
  Lemma coat_loop_shells : forall rs mats r0 core, List.length mats = S (List.length rs) ->
    coat_loop mc r0 rs mats core = Ok (shells coat (r0 :: rs) (0%nat :: mats) core).
  Proof.
    induction rs as [|ra rs IH]; intros mats r0 core Hl; [reflexivity|].
    destruct mats as [|m2 [|m3 mats]]; try discriminate.
    cbn [coat_loop]. unfold mc at 1. cbn [bind]. fold (coat_loop mc). rewrite IH by (cbn in *; lia). f_equal.
    unfold shells. cbn [List.length]. replace (S (S (List.length rs)) - 1)%nat with (S (List.length rs)) by lia.
    replace (S (List.length rs) - 1)%nat with (List.length rs) by lia.
    cbn [seq fold_left nth Nat.sub]. rewrite <- (seq_shift (List.length rs) 1).
    set (c := coat r0 ra m2 m3 core). clearbody c. revert c.
    assert (G : forall l c, (forall i, In i l -> (1 <= i)%nat) ->
      fold_left (fun x i => coat (nth (i - 1) (ra :: rs) 0) (nth i (ra :: rs) 0) (nth i (0%nat :: m3 :: mats) 0%nat)
         (nth (S i) (0%nat :: m3 :: mats) 0%nat) x) l c =
      fold_left (fun x i => coat (nth (i - 1) (r0 :: ra :: rs) 0) (nth i (r0 :: ra :: rs) 0)
         (nth i (0%nat :: m2 :: m3 :: mats) 0%nat) (nth (S i) (0%nat :: m2 :: m3 :: mats) 0%nat) x) (map S l) c).
    { induction l as [|i l IHl]; intros c H; [reflexivity|]. cbn [map fold_left]. rewrite IHl by (intros; apply H; now right).
      f_equal. pose proof (H i (or_introl eq_refl)). destruct i as [|i]; [lia|].
      replace (S (S i) - 1)%nat with (S i) by lia. replace (S i - 1)%nat with i by lia. reflexivity. }
    intros c. apply G. intros i Hi. apply in_seq in Hi. lia.
  Qed.
End StratValue.

Lemma nth_rep (m : nat) : forall n i, (i < n)%nat -> nth i (repeat m n) 0%nat = m.
Proof. induction n as [|n IH]; intros [|i] H; try lia; cbn; [reflexivity|]. apply IH. lia. Qed.

(** *** C43, final form *)
Section StratFinal.
  Context {X : Type}.
  Context (mie : nat -> nat -> R -> res X) (mie_coated : R -> R -> nat -> nat -> X -> res X).

  Definition starts (mats : list nat) (rs : list R) (inner : X) : Prop :=
    exists m0 m1 r0 mats' rs', mats = m0 :: m1 :: mats' /\ rs = r0 :: rs' /\ mie m0 m1 r0 = Ok inner.

  Lemma strat_final mats rs inner :
    List.length mats = S (List.length rs) -> starts mats rs inner ->
    exists n, (2 <= n <= List.length mats)%nat /\
      (n = List.length mats <-> (List.length mats = 2%nat \/ last mats 0%nat <> last (removelast mats) 0%nat)) /\
      (forall i, (n - 1 <= i < List.length mats)%nat -> nth i mats 0%nat = nth (n - 1) mats 0%nat) /\
      (n = 2%nat \/ nth (n - 2) mats 0%nat <> nth (n - 1) mats 0%nat) /\
      mie_strat mie mie_coated mats rs =
        ((firstn n mats, firstn (n - 1) rs),
         coat_loop mie_coated (hd 0 rs) (tl (firstn (n - 1) rs)) (tl (firstn n mats)) inner).
  Proof.
    intros Hl (m0 & m1 & r0 & mats' & rs' & Em & Er & Hm).
    destruct (run_decomp mats) as (pre & m & k & E & H); [rewrite Em; discriminate|].
    destruct pre as [|p pre].
    - (* all equal *)
      clear H. cbn [app] in E. destruct k as [|k]; [rewrite Em in E; discriminate|].
      cbn [repeat] in E. assert (m0 = m /\ m1 = m) as [-> ->] by (rewrite Em in E; injection E; intros; subst; auto).
      exists 2%nat. assert (Hk : List.length mats = S (S k)) by (rewrite E; cbn; now rewrite repeat_length).
      assert (Hn : forall i, (i < S (S k))%nat -> nth i mats 0%nat = m).
      { intros i Hi. rewrite E. change (m :: m :: repeat m k) with (repeat m (S (S k))). apply nth_rep. exact Hi. }
      split; [lia|]. split; [|split; [|split; [now left|]]].
      + split; [intros <-; now left|]. intros [H2|H2]; [lia|]. exfalso. apply H2. rewrite E.
        replace (m :: m :: repeat m k) with ((m :: repeat m k) ++ [m]) by (cbn [app]; now rewrite <- repeat_cons).
        rewrite last_last, removelast_last.
        replace (m :: repeat m k) with (repeat m k ++ [m]) by (symmetry; apply repeat_cons). now rewrite last_last.
      + intros i Hi. rewrite !Hn by lia. reflexivity.
      + unfold mie_strat. rewrite Hk. rewrite E.
        rewrite (strat_trim_all mie mie_coated m k (S (S k)) rs r0 inner); [|lia|lia|now rewrite Er|assumption].
        rewrite Er. reflexivity.
    - assert (Hne : p :: pre <> []) by discriminate.
      destruct H as [H|H]; [discriminate|].
      set (q := p :: pre) in *.
      assert (Hlen : List.length mats = (List.length q + S k)%nat).
      { rewrite E, app_length. cbn [List.length]. rewrite repeat_length. reflexivity. }
      assert (Hnth : forall i, (List.length q <= i < List.length mats)%nat -> nth i mats 0%nat = m).
      { intros i Hi. rewrite E, app_nth2 by lia. change (m :: repeat m k) with (repeat m (S k)).
        apply nth_rep. lia. }
      assert (Hlast : nth (List.length q - 1) mats 0%nat <> m).
      { rewrite E, app_nth1 by (unfold q; cbn; lia).
        destruct (exists_last Hne) as (q' & z & Ez). rewrite Ez in H |- *. rewrite last_last in H.
        rewrite app_length. cbn [List.length]. rewrite app_nth2 by lia.
        replace (List.length q' + 1 - 1 - List.length q')%nat with 0%nat by lia. exact H. }
      exists (S (List.length q)). assert (1 <= List.length q)%nat by (unfold q; cbn; lia).
      split; [lia|]. split; [|split; [|split]].
      + assert (Hends : ((k = 0 /\ last mats 0 <> last (removelast mats) 0) \/ (k <> 0 /\ last mats 0 = last (removelast mats) 0 /\ List.length mats <> 2))%nat).
        { destruct k as [|k].
          - left. split; [reflexivity|]. rewrite E. cbn [repeat]. rewrite last_last, removelast_last. congruence.
          - right. split; [lia|]. split; [|lia]. rewrite E.
            replace (q ++ m :: repeat m (S k)) with (((q ++ repeat m k) ++ [m]) ++ [m]).
            + now rewrite last_last, removelast_last, last_last.
            + rewrite <- !app_assoc. f_equal. cbn [repeat app].
              change (m :: m :: repeat m k) with (repeat m (2 + k)). rewrite (Nat.add_comm 2 k), repeat_app. reflexivity. }
        split.
        * intros Hn. right. destruct Hends as [[_ ?]|[? _]]; [assumption|lia].
        * intros Hc. destruct Hends as [[-> _]|(Hk & He & H2)]; [lia|]. destruct Hc; [lia|congruence].
      + intros i Hi. rewrite !Hnth by lia. reflexivity.
      + right. replace (S (List.length q) - 2)%nat with (List.length q - 1)%nat by lia.
        replace (S (List.length q) - 1)%nat with (List.length q) by lia. rewrite (Hnth (List.length q)) by lia. exact Hlast.
      + unfold mie_strat. rewrite E at 2.
        rewrite (strat_trim mie mie_coated m k (List.length mats) q rs m0 m1 r0 inner); auto; try lia.
        * replace (S (List.length q) - 1)%nat with (List.length q) by lia.
          replace (firstn (S (List.length q)) mats) with (q ++ [m]).
          -- rewrite Er. reflexivity.
          -- rewrite E. rewrite firstn_app. replace (S (List.length q) - List.length q)%nat with 1%nat by lia.
             rewrite firstn_all2 by lia. reflexivity.
        * rewrite <- E, Em. reflexivity.
        * rewrite <- E, Em. reflexivity.
        * rewrite Er. reflexivity.
  Qed.

  Lemma strat_unchanged mats rs inner :
    List.length mats = S (List.length rs) -> starts mats rs inner ->
    (fst (mie_strat mie mie_coated mats rs) = (mats, rs) <->
     (List.length mats = 2%nat \/ last mats 0%nat <> last (removelast mats) 0%nat)).
  Proof.
    intros Hl Hs. destruct (strat_final mats rs inner Hl Hs) as (n & Hn & Hi & _ & _ & E).
    rewrite E. cbn [fst]. rewrite <- Hi. split.
    - intros H. injection H as H _. apply (f_equal (@List.length nat)) in H. rewrite firstn_length in H. lia.
    - intros ->. rewrite firstn_all. rewrite firstn_all2 by lia. reflexivity.
  Qed.

  Lemma strat_again mats rs inner :
    List.length mats = S (List.length rs) -> starts mats rs inner ->
    let (st, v) := mie_strat mie mie_coated mats rs in
    mie_strat mie mie_coated (fst st) (snd st) = (st, v).
  Proof.
    intros Hl Hs. destruct (strat_final mats rs inner Hl Hs) as (n & Hn & Hi & Heq & Hd & E).
    rewrite E. cbn [fst snd].
    assert (L1 : List.length (firstn n mats) = n) by (rewrite firstn_length; lia).
    assert (L2 : List.length (firstn (n - 1) rs) = (n - 1)%nat) by (rewrite firstn_length; lia).
    assert (Hs' : starts (firstn n mats) (firstn (n - 1) rs) inner).
    { destruct Hs as (m0 & m1 & r0 & mats' & rs' & -> & -> & Hm).
      destruct n as [|[|n]]; try lia. exists m0, m1, r0, (firstn n mats'), (firstn n rs').
      split; [reflexivity|]. split; [|assumption]. replace (S (S n) - 1)%nat with (S n) by lia. reflexivity. }
    destruct (strat_final (firstn n mats) (firstn (n - 1) rs) inner ltac:(lia) Hs') as (n' & Hn' & Hi' & _ & _ & E').
    assert (n' = n) as ->.
    { rewrite L1 in *. apply Hi'. destruct Hd as [Hd|Hd]; [now left|]. right.
      assert (D : firstn n mats = firstn (n - 2) mats ++ [nth (n - 2) mats 0%nat; nth (n - 1) mats 0%nat]).
      { assert (G : forall l k, (S (S k) <= List.length l)%nat -> firstn (S (S k)) l = firstn k l ++ [nth k l 0%nat; nth (S k) l 0%nat]).
        { clear. induction l as [|a l IH]; intros k Hk; [cbn in Hk; lia|].
          destruct k as [|k].
          - destruct l; [cbn in Hk; lia|reflexivity].
          - cbn [firstn app nth]. f_equal. apply IH. cbn in Hk. lia. }
        destruct n as [|[|n]]; try lia. rewrite G by lia.
        replace (S (S n) - 2)%nat with n by lia. replace (S (S n) - 1)%nat with (S n) by lia. reflexivity. }
      rewrite D. replace (firstn (n - 2) mats ++ [nth (n - 2) mats 0%nat; nth (n - 1) mats 0%nat])
        with ((firstn (n - 2) mats ++ [nth (n - 2) mats 0%nat]) ++ [nth (n - 1) mats 0%nat]) by now rewrite <- app_assoc.
      rewrite removelast_last, !last_last. congruence. }
    rewrite E'. rewrite !firstn_firstn, !Nat.min_id.
    replace (hd 0 (firstn (n - 1) rs)) with (hd 0 rs); [reflexivity|].
    destruct rs as [|r rs]; [now rewrite firstn_nil|]. destruct (n - 1)%nat eqn:En; [lia|]. reflexivity.
  Qed.
End StratFinal.

(** ** C49 *)
From Coq Require Import Sorted.

Lemma first_gt d : forall om xl, StronglySorted Rlt om -> first_of (filter (fun x => Rltb d x) om) = Ok xl ->
  forall w, In w om -> Rltb w xl = negb (Rltb d w) /\ Rleb xl w = Rltb d w.
Proof.
  induction om as [|a om IH]; intros xl Hs E w Hw; [destruct Hw|].
  apply StronglySorted_inv in Hs. destruct Hs as [Hs Ha]. rewrite Forall_forall in Ha. cbn [filter] in E.
  destruct (Rltb_spec d a) as [H|H].
  - cbn in E. injection E as <-. destruct Hw as [<-|Hw].
    + destruct (Rltb_spec a a), (Rleb_spec a a), (Rltb_spec d a); try lra; auto.
    + specialize (Ha w Hw). destruct (Rltb_spec w a), (Rleb_spec a w), (Rltb_spec d w); try lra; auto.
  - destruct Hw as [<-|Hw]; [|now apply IH].
    assert (In xl om).
    { clear - E. destruct (filter _ om) eqn:F; [discriminate|]. cbn in E. injection E as <-.
      assert (In r (filter (fun x => Rltb d x) om)) by (rewrite F; now left). now apply filter_In in H. }
    specialize (Ha xl H0). destruct (Rltb_spec a xl), (Rleb_spec xl a), (Rltb_spec d a); try lra; auto.
Qed.

Lemma last_of_app l (x : R) : last_of (l ++ [x]) = Ok x.
Proof. induction l as [|a [|b l] IH]; [reflexivity|reflexivity|]. exact IH. Qed.

Lemma SSorted_snoc : forall om a, StronglySorted Rlt (om ++ [a]) -> StronglySorted Rlt om /\ forall w, In w om -> w < a.
Proof.
  induction om as [|b om IH]; intros a H; [split; [constructor|intros w []]|].
  cbn in H. apply StronglySorted_inv in H. destruct H as [H Hb]. destruct (IH a H) as [H1 H2].
  rewrite Forall_forall in Hb. split.
  - constructor; [assumption|]. rewrite Forall_forall. intros w Hw. apply Hb. apply in_or_app. now left.
  - intros w [<-|Hw]; [|now apply H2]. apply Hb. apply in_or_app. right. now left.
Qed.

Lemma last_lt d : forall om xu, StronglySorted Rlt om -> last_of (filter (fun x => Rltb x d) om) = Ok xu ->
  forall w, In w om -> Rltb xu w = negb (Rltb w d) /\ Rleb w xu = Rltb w d.
Proof.
  induction om as [|a om IH] using rev_ind; intros xu Hs E w Hw; [destruct Hw|].
  apply SSorted_snoc in Hs. destruct Hs as [Hs Ha]. rewrite filter_app in E. cbn [filter] in E.
  apply in_app_or in Hw.
  destruct (Rltb_spec a d) as [H|H].
  - rewrite last_of_app in E. injection E as <-. destruct Hw as [Hw|[<-|[]]].
    + specialize (Ha w Hw). destruct (Rltb_spec a w), (Rleb_spec w a), (Rltb_spec w d); try lra; auto.
    + destruct (Rltb_spec a a), (Rleb_spec a a), (Rltb_spec a d); try lra; auto.
  - rewrite app_nil_r in E. destruct Hw as [Hw|[<-|[]]]; [now apply IH|].
    assert (In xu om).
    { clear - E. assert (G : forall l x, last_of l = Ok x -> In x l).
      { induction l as [|b [|c l] IHl]; intros x Hx; [discriminate|injection Hx as <-; now left|]. right. now apply IHl. }
      apply G in E. now apply filter_In in E. }
    specialize (Ha xu H0). destruct (Rltb_spec xu a), (Rleb_spec a xu), (Rltb_spec a d); try lra; auto.
Qed.

Lemma filter_none {A} (p : A -> bool) l : (forall x, In x l -> p x = false) -> filter p l = [].
Proof.
  induction l as [|a l IH]; intros H; [reflexivity|]. cbn. rewrite (H a (or_introl eq_refl)).
  apply IH. intros; apply H; now right.
Qed.

Lemma partition3 d0 d1 : d0 < d1 -> forall om, StronglySorted Rlt om ->
  om = filter (fun x => negb (Rltb d0 x)) om ++ filter (fun x => Rltb d0 x && Rltb x d1) om
       ++ filter (fun x => negb (Rltb x d1)) om.
Proof.
  intros Hd. induction om as [|a om IH]; intros Hs; [reflexivity|].
  apply StronglySorted_inv in Hs. destruct Hs as [Hs Ha]. rewrite Forall_forall in Ha. specialize (IH Hs).
  cbn [filter]. destruct (Rltb_spec d0 a) as [H0|H0]; cbn [negb andb].
  - assert (F0 : filter (fun x => negb (Rltb d0 x)) om = []).
    { apply filter_none. intros x Hx. specialize (Ha x Hx). destruct (Rltb_spec d0 x); [reflexivity|lra]. }
    rewrite F0 in IH |- *. destruct (Rltb_spec a d1) as [H1|H1]; cbn [negb].
    + cbn [app] in *. f_equal. exact IH.
    + assert (F1 : filter (fun x => Rltb d0 x && Rltb x d1) om = []).
      { apply filter_none. intros x Hx. specialize (Ha x Hx). destruct (Rltb_spec x d1); [lra|apply andb_false_r]. }
      rewrite F1 in IH |- *. cbn [app] in *. f_equal. exact IH.
  - destruct (Rltb_spec a d1) as [H1|H1]; cbn [negb]; [|lra]. cbn [app]. f_equal. exact IH.
Qed.

Lemma interp_seg_ok : forall xs ys x0 y0 x, List.length ys = List.length xs -> StronglySorted Rlt (x0 :: xs) ->
  x0 <= x -> x <= last xs 0 -> xs <> [] ->
  exists y, interp_seg x0 y0 (combine xs ys) x = Ok y /\ on_polyline (x0 :: xs) (y0 :: ys) x y.
Proof.
  induction xs as [|x1 xs IH]; intros ys x0 y0 x Hl Hs H0 H1 Hne; [congruence|].
  destruct ys as [|y1 ys]; [discriminate|]. cbn [combine interp_seg].
  apply StronglySorted_inv in Hs. destruct Hs as [Hs Hf]. apply Forall_inv in Hf.
  destruct (Rleb_spec x x1) as [Hx|Hx].
  - eexists. split; [reflexivity|]. exists 0%nat. cbn [nth List.length]. split; [lia|]. split; [lra|]. field. lra.
  - destruct xs as [|x2 xs]; [cbn in H1; lra|].
    destruct (IH ys x1 y1 x) as (y & E & i & Hi & Hb & Hy); auto; [lra|discriminate|].
    exists y. split; [exact E|]. exists (S i). split; [cbn [List.length] in *; lia|]. split; [exact Hb|exact Hy].
Qed.

Lemma interp1d_ok xs ys x : List.length ys = List.length xs -> StronglySorted Rlt xs -> (2 <= List.length xs)%nat ->
  hd 0 xs <= x <= last xs 0 -> exists y, interp1d xs ys x = Ok y /\ on_polyline xs ys x y.
Proof.
  intros Hl Hs H2 [H0 H1]. destruct xs as [|x0 [|x1 xs]]; cbn in H2; try lia. destruct ys as [|y0 ys]; [discriminate|].
  unfold interp1d. cbn [combine]. cbn [hd] in H0. destruct (Rltb_spec x x0); [lra|].
  apply (interp_seg_ok (x1 :: xs) ys x0 y0 x); auto. discriminate.
Qed.

Lemma map_res_ok {A B} (f : A -> res B) (P : A -> B -> Prop) l :
  (forall x, In x l -> exists y, f x = Ok y /\ P x y) -> exists ys, map_res f l = Ok ys /\ Forall2 P l ys.
Proof.
  induction l as [|a l IH]; intros H; cbn [map_res].
  - exists []. split; [reflexivity|constructor].
  - destruct (H a (or_introl eq_refl)) as (y & -> & Hy). destruct IH as (ys & -> & Hys); [intros; apply H; now right|].
    cbn [bind]. exists (y :: ys). split; [reflexivity|now constructor].
Qed.

Lemma drude_ok wp g w : w * (w + g) <> 0 -> epsilon_drude w wp g = Fin (drude wp g w).
Proof.
  intros H. unfold epsilon_drude, drude, xdiv. 
  destruct (Reqb_spec (w * g + w ^ 2) 0) as [H0|_].
  - exfalso. apply H. rewrite <- H0. ring.
  - cbn [xadd]. do 2 f_equal. f_equal. ring.
Qed.

Lemma first_of_ok l : l <> [] -> exists x, first_of l = Ok x.
Proof. destruct l; [congruence|]. intros _. eexists. reflexivity. Qed.
Lemma last_of_ok l : l <> [] -> exists x, last_of l = Ok x.
Proof. destruct l as [|a l] using rev_ind; [congruence|]. intros _. eexists. apply last_of_app. Qed.
Lemma last_of_last l : l <> [] -> last_of l = Ok (last l 0).
Proof. destruct l as [|a l] using rev_ind; [congruence|]. intros _. now rewrite last_of_app, last_last. Qed.

Lemma Forall2_map_r {A B} (P : A -> B -> Prop) (f : A -> B) l : (forall x, In x l -> P x (f x)) -> Forall2 P l (map f l).
Proof. induction l as [|a l IH]; intros H; cbn; constructor; [apply H; now left|apply IH; intros; apply H; now right]. Qed.
Lemma Forall2_In_impl {A B} (P Q : A -> B -> Prop) l l' :
  (forall x y, In x l -> P x y -> Q x y) -> Forall2 P l l' -> Forall2 Q l l'.
Proof. intros H F. induction F; constructor; [apply H; [now left|assumption]|apply IHF; intros; apply H; [now right|assumption]]. Qed.

Section Drude.
  Context (xdata ydata : list R) (wp gamma : R).
  Context (Hlen : List.length ydata = List.length xdata) (Hsort : StronglySorted Rlt xdata)
          (H2 : (2 <= List.length xdata)%nat).
  Let d0 := hd 0 xdata.
  Let d1 := last xdata 0.

  Lemma d0_lt_d1 : d0 < d1.
  Proof.
    unfold d0, d1. destruct xdata as [|x0 [|x1 xs]]; cbn in H2; try lia.
    apply StronglySorted_inv in Hsort. destruct Hsort as [_ Hf]. rewrite Forall_forall in Hf. cbn [hd].
    apply Hf. change (last (x0 :: x1 :: xs) 0) with (last (x1 :: xs) 0).
    destruct (exists_last (l:=x1 :: xs)) as (l' & z & ->); [discriminate|]. rewrite last_last. apply in_or_app. right. now left.
  Qed.

  Lemma drude_data om : StronglySorted Rlt om -> List.length om <> 1%nat ->
    (exists w, In w om /\ d0 < w) -> (exists w, In w om /\ w < d1) ->
    (forall w, In w om -> w * (w + gamma) <> 0) ->
    exists data, get_drude_data xdata ydata wp gamma om = Ok (map Fin data) /\
      Forall2 (value_at xdata ydata d0 d1 wp gamma) om data.
  Proof.
    intros Hs H1 (wl & Hwl & Hl) (wu & Hwu & Hu) Hnz.
    destruct (first_of_ok (filter (fun x => Rltb d0 x) om)) as [xl El].
    { intros E. assert (In wl (filter (fun x => Rltb d0 x) om)).
      { apply filter_In. split; [assumption|]. destruct (Rltb_spec d0 wl); [reflexivity|lra]. }
      rewrite E in H. destruct H. }
    destruct (last_of_ok (filter (fun x => Rltb x d1) om)) as [xu Eu].
    { intros E. assert (In wu (filter (fun x => Rltb x d1) om)).
      { apply filter_In. split; [assumption|]. destruct (Rltb_spec wu d1); [reflexivity|lra]. }
      rewrite E in H. destruct H. }
    pose proof (first_gt d0 om xl Hs El) as Fl. pose proof (last_lt d1 om xu Hs Eu) as Fu.
    set (a := filter (fun x => negb (Rltb d0 x)) om).
    set (b := filter (fun x => Rltb d0 x && Rltb x d1) om).
    set (c := filter (fun x => negb (Rltb x d1)) om).
    assert (Ea : filter (fun x => Rltb x xl) om = a) by (apply filter_ext_in; intros w Hw; apply (Fl w Hw)).
    assert (Ec : filter (fun x => Rltb xu x) om = c) by (apply filter_ext_in; intros w Hw; apply (Fu w Hw)).
    assert (Eb : filter (fun x => Rleb xl x && Rleb x xu) om = b).
    { apply filter_ext_in. intros w Hw. now rewrite (proj2 (Fl w Hw)), (proj2 (Fu w Hw)). }
    destruct (map_res_ok (interp1d xdata ydata) (on_polyline xdata ydata) b) as (ys & Eys & Hys).
    { intros w Hw. apply filter_In in Hw. destruct Hw as [Hw Hb]. apply andb_true_iff in Hb. destruct Hb as [Hb0 Hb1].
      apply interp1d_ok; auto. fold d0 d1. destruct (Rltb_spec d0 w), (Rltb_spec w d1); try discriminate. lra. }
    exists (map (drude wp gamma) a ++ ys ++ map (drude wp gamma) c). split.
    - assert (Ei : interpolate xdata ydata om = Ok (ys, (xl, xu))).
      { unfold interpolate. replace (first_of xdata) with (Ok d0 : res R).
        - cbn [bind]. rewrite El. cbn [bind]. rewrite last_of_last. 2:{ intros ->; cbn in H2; lia. }
          fold d1. cbn [bind]. rewrite Eu. cbn [bind]. rewrite Eb, Eys. reflexivity.
        - unfold d0. destruct xdata; [cbn in H2; lia|reflexivity]. }
      assert (Hm : forall l, (forall w, In w l -> In w om) -> map (fun w => epsilon_drude w wp gamma) l = map Fin (map (drude wp gamma) l)).
      { intros l Hin. rewrite map_map. apply map_ext_in. intros w Hw. apply drude_ok. now apply Hnz, Hin. }
      unfold get_drude_data. destruct om as [|o1 [|o2 om']]; [destruct Hwl|cbn in H1; lia|].
      rewrite Ei. cbn [bind]. rewrite Ea, Ec.
      rewrite !Hm by (intros w Hw; apply filter_In in Hw; apply Hw). now rewrite !map_app.
    - rewrite (partition3 d0 d1 d0_lt_d1 om Hs). fold a b c.
      apply Forall2_app; [|apply Forall2_app].
      + assert (G : forall w, In w a -> w <= d0).
        { intros w Hw. apply filter_In in Hw. destruct Hw as [_ Hw]. destruct (Rltb_spec d0 w); [discriminate|lra]. }
        apply Forall2_map_r. intros w Hw. left. split; [left; now apply G|reflexivity].
      + assert (G : forall w, In w b -> d0 < w < d1).
        { intros w Hw. apply filter_In in Hw. destruct Hw as [_ Hw]. apply andb_true_iff in Hw. destruct Hw as [Hw0 Hw1].
          destruct (Rltb_spec d0 w), (Rltb_spec w d1); try discriminate. lra. }
        apply (Forall2_In_impl (on_polyline xdata ydata)); [|exact Hys].
        intros w v Hw Hv. right. split; [now apply G|assumption].
      + assert (G : forall w, In w c -> d1 <= w).
        { intros w Hw. apply filter_In in Hw. destruct Hw as [_ Hw]. destruct (Rltb_spec w d1); [discriminate|lra]. }
        apply Forall2_map_r. intros w Hw. left. split; [right; now apply G|reflexivity].
  Qed.

  Lemma drude_data_fail om : List.length om <> 1%nat ->
    ((forall w, In w om -> w <= d0) \/ (forall w, In w om -> d1 <= w)) ->
    get_drude_data xdata ydata wp gamma om = Err IndexError.
  Proof using H2.
    clear Hlen Hsort. intros H1 H. assert (Ei : interpolate xdata ydata om = Err IndexError).
    { unfold interpolate. replace (first_of xdata) with (Ok d0 : res R) by (unfold d0; destruct xdata; [cbn in H2; lia|reflexivity]).
      cbn [bind]. rewrite last_of_last by (intros ->; cbn in H2; lia). fold d1. destruct H as [H|H].
      - rewrite filter_none; [reflexivity|]. intros w Hw. specialize (H w Hw). destruct (Rltb_spec d0 w); [lra|reflexivity].
      - destruct (first_of _) as [xl|e] eqn:E; cbn [bind].
        + rewrite filter_none; [reflexivity|]. intros w Hw. specialize (H w Hw). destruct (Rltb_spec w d1); [lra|reflexivity].
        + destruct (filter _ om); cbn in E; [injection E as <-; reflexivity|discriminate]. }
    unfold get_drude_data. destruct om as [|o1 [|o2 om']]; [|cbn in H1; lia|]; now rewrite Ei.
  Qed.
End Drude.

Lemma polyline_between xs ys x y lo hi : StronglySorted Rlt xs -> List.length ys = List.length xs ->
  (forall v, In v ys -> lo <= v <= hi) -> on_polyline xs ys x y -> lo <= y <= hi.
Proof.
  intros Hs Hl Hv (i & Hi & Hx & ->).
  assert (Hlt : nth i xs 0 < nth (S i) xs 0).
  { clear - Hs Hi. revert i Hi. induction xs as [|a xs IH]; intros i Hi; [cbn in Hi; lia|].
    apply StronglySorted_inv in Hs. destruct Hs as [Hs Hf]. destruct i as [|i].
    - rewrite Forall_forall in Hf. apply Hf. cbn [nth]. apply nth_In. cbn in Hi. lia.
    - cbn [nth]. apply IH; [assumption|]. cbn in Hi. lia. }
  pose proof (Hv (nth i ys 0) ltac:(apply nth_In; lia)) as A.
  pose proof (Hv (nth (S i) ys 0) ltac:(apply nth_In; lia)) as B.
  set (t := (x - nth i xs 0) / (nth (S i) xs 0 - nth i xs 0)).
  assert (0 <= t <= 1).
  { unfold t. split.
    - apply Rmult_le_pos; [lra|]. left. apply Rinv_0_lt_compat. lra.
    - apply Rmult_le_reg_r with (nth (S i) xs 0 - nth i xs 0); [lra|]. unfold Rdiv. rewrite Rmult_assoc, Rinv_l by lra. lra. }
  split; nra.
Qed.

(** ** C53 *)
Definition is_number (v : option cfgval) : Prop :=
  match v with Some (CInt _) | Some (CFloat _) => True | _ => False end.
Definition is_radius (v : option cfgval) : Prop :=
  match v with Some (CInt _) | Some (CFloat _) | Some (CList _) => True | _ => False end.
Definition is_intval (v : option cfgval) : Prop := match v with Some (CInt _) => True | _ => False end.

Lemma getfloat_cases c s o :
  (is_number (c s o) /\ exists r, getfloat c s o = Ok r) \/
  (c s o = None /\ getfloat c s o = Err NoOptionError) \/
  (~ is_number (c s o) /\ c s o <> None /\ getfloat c s o = Err ValueError).
Proof.
  unfold getfloat, cget. destruct (c s o) as [[z|r|l| |t]|]; cbn.
  - left. split; [exact I|eexists; reflexivity].
  - left. split; [exact I|eexists; reflexivity].
  - right. right. repeat split; auto. discriminate.
  - right. right. repeat split; auto. discriminate.
  - right. right. repeat split; auto. discriminate.
  - right. left. split; reflexivity.
Qed.

Lemma assign_radius_ok c o : (exists r, assign_radius c o = Ok r) <-> is_radius (c "geometry"%string o).
Proof.
  unfold assign_radius, getfloat, cget. destruct (c "geometry"%string o) as [[z|r|l| |t]|] eqn:E; cbn; rewrite ?E;
    split; intros H; try exact I; try (destruct H; discriminate); try (destruct H; fail); eauto;
    try (destruct H as [x H]; discriminate); destruct H.
Qed.

Lemma int_or_string_ok c s o : (exists a, int_or_string c s o = Ok a) <-> c s o <> None.
Proof.
  unfold int_or_string, getint, cget. destruct (c s o) as [[z|r|l| |t]|] eqn:E; cbn;
    split; try (intros [x H]; discriminate); try congruence; try (intros _; eexists; reflexivity).
Qed.
Lemma int_or_string_auto c s o : int_or_string c s o = Ok AAutomatic <-> c s o = Some CAuto.
Proof.
  unfold int_or_string, getint, cget. destruct (c s o) as [[z|r|l| |t]|] eqn:E; cbn; split; congruence.
Qed.

Lemma return_geometry_iff c arg3 :
  (exists g, return_geometry c arg3 = Ok g) <->
  is_radius (c "geometry" "ra")%string /\ is_radius (c "geometry" "rb")%string /\
  match arg3 with Some x => exists L, x = Ok L | None => is_number (c "geometry" "d")%string end /\
  is_number (c "geometry" "precision")%string /\
  c "geometry"%string "lmax"%string <> None /\ c "geometry"%string "lssmax"%string <> None /\
  match c "geometry" "l_offset" with
  | Some (CInt _) => True
  | None => c "geometry" "lmax" <> Some CAuto
  | _ => False
  end%string.
Proof.
  unfold return_geometry. split.
  - intros [g H].
    destruct (assign_radius c "ra") as [r1|] eqn:E1; [|discriminate].
    destruct (assign_radius c "rb") as [r2|] eqn:E2; [|discriminate]. cbn [bind] in H.
    assert (A1 : is_radius (c "geometry" "ra")%string) by (apply assign_radius_ok; eauto).
    assert (A2 : is_radius (c "geometry" "rb")%string) by (apply assign_radius_ok; eauto).
    split; [exact A1|]. split; [exact A2|].
    assert (A3 : match arg3 with Some x => exists L, x = Ok L | None => is_number (c "geometry" "d")%string end).
    { destruct arg3 as [[L|e]|]; [eauto|discriminate|].
      destruct (getfloat_cases c "geometry" "d") as [[? _]|[[_ E]|(_ & _ & E)]]; [assumption| |]; rewrite E in H; discriminate. }
    split; [exact A3|].
    destruct (match arg3 with Some x => x | None => getfloat c "geometry" "d" end) as [L|]; [|discriminate]. cbn [bind] in H.
    destruct (getfloat_cases c "geometry" "precision") as [[A4 [pr E]]|[[_ E]|(_ & _ & E)]]; rewrite E in H; try discriminate.
    split; [exact A4|]. cbn [bind] in H.
    destruct (int_or_string c "geometry" "lmax") as [lm|] eqn:E5; [|discriminate]. cbn [bind] in H.
    split; [apply int_or_string_ok; eauto|].
    destruct (int_or_string c "geometry" "lssmax") as [ls|] eqn:E6.
    2:{ cbn [bind] in H. destruct lm; try discriminate. destruct (getint c "geometry" "l_offset") as [|[]]; discriminate. }
    split; [apply int_or_string_ok; eauto|].
    assert (Ho : forall (k : unit -> res geo_args), True) by auto. clear Ho.
    destruct (c "geometry"%string "l_offset"%string) as [[z|r|l| |t]|] eqn:E7; auto;
      unfold getint, cget in H; rewrite E7 in H; cbn [bind] in H;
      try (destruct lm; discriminate).
    intros Hc. apply int_or_string_auto in Hc. rewrite Hc in E5. injection E5 as <-. discriminate.
  - intros (A1 & A2 & A3 & A4 & A5 & A6 & A7).
    apply assign_radius_ok in A1, A2. destruct A1 as [r1 ->], A2 as [r2 ->]. cbn [bind].
    assert (exists L, match arg3 with Some x => x | None => getfloat c "geometry" "d" end = Ok L) as [L ->].
    { destruct arg3 as [x|]; [destruct A3 as [L ->]; eauto|].
      destruct (getfloat_cases c "geometry" "d") as [[_ [L E]]|[[E _]|(E & _)]]; [eauto| |contradiction].
      rewrite E in A3. destruct A3. }
    cbn [bind].
    destruct (getfloat_cases c "geometry" "precision") as [[_ [pr ->]]|[[E _]|(E & _)]]; [|rewrite E in A4; destruct A4|contradiction].
    cbn [bind].
    apply int_or_string_ok in A6. destruct A6 as [ls ->].
    pose proof A5 as A5'. apply int_or_string_ok in A5'. destruct A5' as [lm E5]. rewrite E5. cbn [bind].
    assert (exists v, match cget c "geometry" "evaluation" with Err NoOptionError => Ok (CStr "lndet") | x => x end = Ok v) as [v Ev].
    { unfold cget. destruct (c "geometry"%string "evaluation"%string); eauto. }
    rewrite Ev. unfold getint, cget.
    destruct (c "geometry"%string "l_offset"%string) as [[z|r|l| |t]|] eqn:E7; try contradiction; cbn [bind].
    + destruct lm; cbn [bind]; eauto.
    + destruct lm; cbn [bind].
      * eexists; reflexivity.
      * apply int_or_string_auto in E5. now rewrite E5 in A7.
      * eexists; reflexivity.
Qed.

Lemma return_geometry_precision c arg3 :
  is_radius (c "geometry" "ra")%string -> is_radius (c "geometry" "rb")%string ->
  match arg3 with Some x => exists L, x = Ok L | None => is_number (c "geometry" "d")%string end ->
  ~ is_number (c "geometry" "precision")%string -> c "geometry"%string "precision"%string <> None ->
  return_geometry c arg3 = Err UnboundLocalError.
Proof.
  intros A1 A2 A3 A4 A4'. unfold return_geometry.
  apply assign_radius_ok in A1, A2. destruct A1 as [r1 ->], A2 as [r2 ->]. cbn [bind].
  assert (exists L, match arg3 with Some x => x | None => getfloat c "geometry" "d" end = Ok L) as [L ->].
  { destruct arg3 as [x|]; [destruct A3 as [L ->]; eauto|].
    destruct (getfloat_cases c "geometry" "d") as [[_ [L E]]|[[E _]|(E & _)]]; [eauto| |contradiction].
    rewrite E in A3. destruct A3. }
  cbn [bind].
  destruct (getfloat_cases c "geometry" "precision") as [[E _]|[[E _]|(_ & _ & ->)]]; [contradiction|contradiction|reflexivity].
Qed.

Lemma return_geometry_values c arg3 g : return_geometry c arg3 = Ok g ->
  (c "geometry" "l_offset" = None -> g_offset g = 0%Z)%string /\
  (forall z, c "geometry" "l_offset" = Some (CInt z) -> g_offset g = z)%string /\
  (forall z, c "geometry" "lmax" = Some (CInt z) -> g_lmax g = AInteger z)%string /\
  (forall r, c "geometry" "precision" = Some (CFloat r) -> g_precision g = r)%string /\
  (forall L, arg3 = Some (Ok L) -> g_L g = L) /\
  (c "geometry" "evaluation" = None -> g_eval g = CStr "lndet")%string /\
  (forall v, c "geometry" "evaluation" = Some v -> g_eval g = v)%string.
Proof.
  unfold return_geometry. intros H.
  destruct (assign_radius c "ra") as [r1|]; [|discriminate].
  destruct (assign_radius c "rb") as [r2|]; [|discriminate]. cbn [bind] in H.
  destruct (match arg3 with Some x => x | None => getfloat c "geometry" "d" end) as [L|] eqn:EL; [|discriminate]. cbn [bind] in H.
  destruct (getfloat c "geometry" "precision") as [pr|e] eqn:Ep; cbn [bind] in H; [|destruct e; discriminate].
  destruct (int_or_string c "geometry" "lmax") as [lm|] eqn:E5; [|discriminate]. cbn [bind] in H.
  destruct (match lm with AAutomatic => _ | _ => _ end) as [[]|]; [|discriminate]. cbn [bind] in H.
  destruct (int_or_string c "geometry" "lssmax") as [ls|] eqn:E6; [|discriminate]. cbn [bind] in H.
  destruct (match getint c "geometry" "l_offset" with Err NoOptionError => Ok 0%Z | x => x end) as [off|] eqn:Eo; [|discriminate]. cbn [bind] in H.
  destruct (match cget c "geometry" "evaluation" with Err NoOptionError => Ok (CStr "lndet") | x => x end) as [ev|] eqn:Ee; [|discriminate]. cbn [bind] in H.
  injection H as <-. cbn.
  unfold getint, getfloat, int_or_string, getint, cget in *.
  repeat split.
  - intros E. rewrite E in Eo. cbn in Eo. congruence.
  - intros z E. rewrite E in Eo. cbn in Eo. congruence.
  - intros z E. rewrite E in E5. cbn in E5. congruence.
  - intros z E. rewrite E in Ep. cbn in Ep. congruence.
  - intros L' ->. congruence.
  - intros E. rewrite E in Ee. congruence.
  - intros v E. rewrite E in Ee. congruence.
Qed.

Lemma do_calculation_n0 c g t : do_calculation c g = Ok t ->
  c "geometry"%string "analytic_n0"%string <> None /\
  (t_n0 t = true <-> (exists x, g_r1 g = RFloat x) /\ (exists y, g_r2 g = RFloat y)).
Proof.
  unfold do_calculation. intros H.
  destruct (getfloat c "thermodynamics" "Tmin"); [|discriminate]. cbn [bind] in H.
  destruct (int_or_string c "thermodynamics" "nmax"); [|discriminate]. cbn [bind] in H.
  unfold cget in H. destruct (c "geometry"%string "analytic_n0"%string); [|discriminate]. cbn [bind] in H.
  destruct (getfloat c "thermodynamics" "Tmax"); [|discriminate]. cbn [bind] in H. injection H as <-.
  split; [discriminate|]. cbn. destruct (g_r1 g), (g_r2 g); split; try discriminate; eauto.
  - intros [_ [y Hy]]. discriminate.
  - intros [[y Hy] _]. discriminate.
  - intros [[y Hy] _]. discriminate.
Qed.

Definition with_option (c : config) (s o : string) (v : option cfgval) : config :=
  fun s' o' => if String.eqb s' s && String.eqb o' o then v else c s' o'.

Lemma do_calculation_ignores c g v v' :
  do_calculation (with_option c "geometry" "analytic_n0" (Some v)) g =
  do_calculation (with_option c "geometry" "analytic_n0" (Some v')) g.
Proof.
  unfold do_calculation, getfloat, int_or_string, getint, cget, with_option.
  cbn [String.eqb Ascii.eqb Bool.eqb andb]. reflexivity.
Qed.
