(** * Polynomials over the reals: evaluation, derivatives, integrals *)
From Coq Require Import Reals Lra Psatz.
From Coquelicot Require Import Coquelicot.
From mathcomp Require Import ssreflect ssrfun ssrbool eqtype ssrnat seq choice fintype bigop ssralg poly.
From Verif Require Import RStruct.
Set Implicit Arguments.
Unset Strict Implicit.
Unset Printing Implicit Defensive.
Import GRing.Theory.
Delimit Scope R_scope with Re.
Local Open Scope ring_scope.

Notation PR := {poly R}.
(** evaluation and derivative with the operations of the reals on the right-hand sides *)
Definition ev (p : PR) (x : R) : R := p.[x].
Lemma evD p q x : ev (p + q) x = (ev p x + ev q x)%Re. Proof. by rewrite /ev hornerD. Qed.
Lemma evN p x : ev (- p) x = (- ev p x)%Re. Proof. by rewrite /ev hornerN. Qed.
Lemma evB p q x : ev (p - q) x = (ev p x - ev q x)%Re. Proof. by rewrite evD evN. Qed.
Lemma evM p q x : ev (p * q) x = (ev p x * ev q x)%Re. Proof. by rewrite /ev hornerM. Qed.
Lemma evC (c : R) x : ev c%:P x = c. Proof. by rewrite /ev hornerC. Qed.
Lemma evX x : ev 'X x = x. Proof. by rewrite /ev hornerX. Qed.
Lemma evZ (c : R) p x : ev (c *: p) x = (c * ev p x)%Re. Proof. by rewrite /ev hornerZ. Qed.
Lemma ev0 x : ev 0 x = 0%Re. Proof. by rewrite /ev horner0. Qed.
Lemma ev1 x : ev 1 x = 1%Re. Proof. by rewrite /ev -[1]/(1%:P) hornerC. Qed.
Lemma evXn p n x : ev (p ^+ n) x = (ev p x ^ n)%Re. Proof. by rewrite /ev horner_exp RpowE. Qed.
Definition evE := (evB, evD, evN, evM, evC, evX, evZ, ev0, ev1).
Definition dv (p : PR) : PR := p^`().
Lemma dvD p q : dv (p + q) = dv p + dv q. Proof. exact: derivD. Qed.
Lemma dvN p : dv (- p) = - dv p. Proof. exact: derivN. Qed.
Lemma dvB p q : dv (p - q) = dv p - dv q. Proof. exact: derivB. Qed.
Lemma dvM p q : dv (p * q) = dv p * q + p * dv q. Proof. exact: derivM. Qed.
Lemma dvC (c : R) : dv c%:P = 0. Proof. exact: derivC. Qed.
Lemma dvX : dv 'X = 1. Proof. exact: derivX. Qed.
Lemma dvZ (c : R) p : dv (c *: p) = c *: dv p. Proof. exact: derivZ. Qed.
Lemma dv0 : dv 0 = 0. Proof. by rewrite -[0]/(0%:P) dvC. Qed.
Lemma dv1 : dv 1 = 0. Proof. by rewrite -[1]/(1%:P) dvC. Qed.
Definition dvE := (dvB, dvD, dvN, dvM, dvC, dvX, dvZ, dv0, dv1).

Lemma INR_uniq n : uniq [seq INR i | i <- iota 0 n].
Proof. rewrite map_inj_uniq ?iota_uniq // => a b; exact: INR_eq. Qed.
Lemma poly_zero_ext (p : PR) : (forall x, ev p x = 0%Re) -> p = 0.
Proof.
move=> h; apply/eqP; case: (boolP (p == 0)) => // np.
have hr : all (root p) [seq INR i | i <- iota 0 (size p)].
  by apply/allP => y _; rewrite /root; apply/eqP; exact: h.
move: (max_poly_roots np hr (INR_uniq _)). by rewrite size_map size_iota ltnn.
Qed.
Lemma poly_ext (p q : PR) : (forall x, ev p x = ev q x) -> p = q.
Proof.
move=> h; apply/eqP; rewrite -subr_eq0; apply/eqP; apply: poly_zero_ext => x; rewrite evB h; lra.
Qed.
Lemma dv_ext (p q : PR) : (forall x, ev p x = ev q x) -> forall x, ev (dv p) x = ev (dv q) x.
Proof. by move=> h x; rewrite (poly_ext h). Qed.
Lemma ev_mul_cancel (q p r : PR) : q <> 0 -> (forall x, (ev q x * ev p x)%Re = (ev q x * ev r x)%Re) -> forall x, ev p x = ev r x.
Proof.
move=> nq h x. have e : q * p = q * r by apply: poly_ext => y; rewrite !evM.
have/mulfI H : q != 0 by apply/eqP. by rewrite (H _ _ e).
Qed.

(** ** analysis *)
Lemma ev_is_derive (p : PR) x : is_derive (ev p) x (ev (dv p) x).
Proof.
elim/poly_ind: p => [|p c IH].
- apply: (is_derive_ext (fun _ => 0%Re)) => [t|]; first by rewrite ev0.
  rewrite dv0 ev0; exact: is_derive_const.
- apply: (is_derive_ext (fun t => (ev p t * t + c)%Re)) => [t|]; first by rewrite !evE.
  rewrite !dvE !evE.
  auto_derive; first by exists (ev (dv p) x); exact: IH.
  rewrite (is_derive_unique (fun t => ev p t) x _ IH); ring.
Qed.
Lemma ev_Derive p x : Derive (ev p) x = ev (dv p) x.
Proof. exact: is_derive_unique (ev_is_derive p x). Qed.
Lemma ev_Derive_n p n x : Derive_n (ev p) n x = ev (iter n dv p) x.
Proof.
elim: n x => [//|n IH] x /=. rewrite (Derive_ext _ (ev (iter n dv p))) //. exact: ev_Derive.
Qed.
Lemma ev_continuous p x : continuous (ev p) x.
Proof. apply: ex_derive_continuous; eexists; exact: ev_is_derive. Qed.
Lemma ev_ex_RInt p a b : ex_RInt (ev p) a b.
Proof. apply: ex_RInt_continuous => z _; exact: ev_continuous. Qed.

Definition itg (p : PR) : R := RInt (ev p) (-1)%Re 1%Re.
Lemma itgD p q : itg (p + q) = (itg p + itg q)%Re.
Proof.
apply: (eq_trans (RInt_ext (ev (p + q)) (fun x => plus (ev p x) (ev q x)) _ _ _)); first by move=> x _; rewrite evD.
exact: (RInt_plus (V := R_CompleteNormedModule) (ev p) (ev q) _ _ (ev_ex_RInt _ _ _) (ev_ex_RInt _ _ _)).
Qed.
Lemma itgZ c p : itg (c *: p) = (c * itg p)%Re.
Proof.
apply: (eq_trans (RInt_ext (ev (c *: p)) (fun x => scal c (ev p x)) _ _ _)); first by move=> x _; rewrite evZ.
exact: (RInt_scal (V := R_CompleteNormedModule) (ev p) _ _ c (ev_ex_RInt _ _ _)).
Qed.
Lemma itgN p : itg (- p) = (- itg p)%Re.
Proof. rewrite -scaleN1r itgZ -[- 1]/(- 1)%Re. lra. Qed.
Lemma itgB p q : itg (p - q) = (itg p - itg q)%Re.
Proof. by rewrite itgD itgN. Qed.
Lemma itg0 : itg 0 = 0%Re.
Proof. rewrite -(scale0r 0) itgZ; apply: Rmult_0_l. Qed.
Lemma itg_sum (I : Type) (r : seq I) (F : I -> PR) : itg (\sum_(i <- r) F i) = \sum_(i <- r) itg (F i).
Proof. elim: r => [|i r IH]; rewrite ?big_nil ?itg0 // !big_cons itgD IH //. Qed.
Lemma itg_deriv p : itg (dv p) = (ev p 1 - ev p (-1))%Re.
Proof.
rewrite /itg; apply: is_RInt_unique; apply: is_RInt_derive => x _; [exact: ev_is_derive|exact: ev_continuous].
Qed.
Lemma itg_parts p q : itg (dv p * q) = (ev (p * q) 1 - ev (p * q) (-1) - itg (p * dv q))%Re.
Proof. have := itg_deriv (p * q); rewrite dvM itgD; lra. Qed.
