(** * Legendre polynomials *)
From Coq Require Import Reals Lra Psatz.
From Coquelicot Require Import Coquelicot.
From mathcomp Require Import ssreflect ssrfun ssrbool eqtype ssrnat seq choice fintype bigop ssralg poly.
From Verif Require Import RStruct Gaunt_Spec Gaunt_Proofs2.
Set Implicit Arguments.
Unset Strict Implicit.
Unset Printing Implicit Defensive.
Import GRing.Theory.
Delimit Scope R_scope with Re.
Local Open Scope ring_scope.

Fixpoint lg2 (n : nat) : PR * PR :=
  match n with
  | O => (1, 'X)
  | S k => let ab := lg2 k in
      (ab.2, (/ (INR k + 2))%Re *: ((2 * INR k + 3)%Re *: ('X * ab.2) - (INR k + 1)%Re *: ab.1))
  end.
Definition leg (n : nat) : PR := (lg2 n).1.
Lemma leg2 n : (lg2 n).2 = leg n.+1. Proof. by []. Qed.
Lemma INRp n : (0 <= INR n)%Re. Proof. exact: pos_INR. Qed.
Lemma leg0 : leg 0 = 1. Proof. by []. Qed.
Lemma leg1 : leg 1 = 'X. Proof. by []. Qed.
Lemma legS n : leg n.+2 = (/ (INR n + 2))%Re *: ((2 * INR n + 3)%Re *: ('X * leg n.+1) - (INR n + 1)%Re *: leg n).
Proof. by []. Qed.
Lemma leg_rec n x : ((INR n + 2) * ev (leg n.+2) x = (2 * INR n + 3) * x * ev (leg n.+1) x - (INR n + 1) * ev (leg n) x)%Re.
Proof. rewrite legS !evE. have := INRp n => h. field; lra. Qed.
Lemma leg_drec n x : ((INR n + 2) * ev (dv (leg n.+2)) x =
  (2 * INR n + 3) * (ev (leg n.+1) x + x * ev (dv (leg n.+1)) x) - (INR n + 1) * ev (dv (leg n)) x)%Re.
Proof. rewrite legS !dvE !evE. have := INRp n => h. field; lra. Qed.

Lemma legendre_ev n x : legendre n x = ev (leg n) x /\ (legendre2 n x).2 = ev (leg n.+1) x.
Proof.
elim: n => [|n [IH1 IH2]]; first by rewrite /legendre /= leg0 leg1 ev1 evX.
have h := INRp n. have hr := leg_rec n x.
move: IH1 IH2; rewrite /legendre /=. case: (legendre2 n x) => a b /= -> ->; split=> //.
have -> : ((2 * INR n + 3) * x * ev (leg n.+1) x - (INR n + 1) * ev (leg n) x = (INR n + 2) * ev (leg n.+2) x)%Re by [].
field; lra.
Qed.

(** d_(n+1) = x d_n + (n+1) p_n and x d_(n+1) - d_n = (n+1) p_(n+1) *)
Lemma leg_ladder n : (forall x, ev (dv (leg n.+1)) x = x * ev (dv (leg n)) x + (INR n + 1) * ev (leg n) x)%Re /\
  (forall x, x * ev (dv (leg n.+1)) x - ev (dv (leg n)) x = (INR n + 1) * ev (leg n.+1) x)%Re.
Proof.
elim: n => [|n [IHa IHb]].
  rewrite leg0 leg1; split=> x; rewrite !dvE !evE /=; ring.
have h := INRp n.
have Ha : forall x, (ev (dv (leg n.+2)) x = x * ev (dv (leg n.+1)) x + (INR n + 2) * ev (leg n.+1) x)%Re.
  move=> x. apply: (Rmult_eq_reg_l (INR n + 2)%Re); last lra.
  rewrite leg_drec. have e := IHb x.
  have -> : (ev (dv (leg n)) x = x * ev (dv (leg n.+1)) x - (INR n + 1) * ev (leg n.+1) x)%Re by lra.
  ring.
split=> x; rewrite S_INR.
  rewrite Ha; ring.
rewrite Ha. have e1 := IHa x. have e2 := IHb x. have e3 := leg_rec n x.
have -> : ((INR n + 1 + 1) = INR n + 2)%Re by ring.
rewrite e3.
have e4 : ((1 - x * x) * ev (dv (leg n.+1)) x = (INR n + 1) * (ev (leg n) x - x * ev (leg n.+1) x))%Re.
  have -> : ((1 - x * x) * ev (dv (leg n.+1)) x = ev (dv (leg n.+1)) x - x * (x * ev (dv (leg n.+1)) x - ev (dv (leg n)) x) - x * ev (dv (leg n)) x)%Re by ring.
  rewrite e2 e1; ring.
have -> : (x * (x * ev (dv (leg n.+1)) x + (INR n + 2) * ev (leg n.+1) x) - ev (dv (leg n.+1)) x =
  - ((1 - x * x) * ev (dv (leg n.+1)) x) + (INR n + 2) * x * ev (leg n.+1) x)%Re by ring.
rewrite e4; ring.
Qed.
Lemma leg_a n x : (ev (dv (leg n.+1)) x = x * ev (dv (leg n)) x + (INR n + 1) * ev (leg n) x)%Re.
Proof. exact: (proj1 (leg_ladder n)). Qed.
Lemma leg_b n x : (x * ev (dv (leg n.+1)) x - ev (dv (leg n)) x = (INR n + 1) * ev (leg n.+1) x)%Re.
Proof. exact: (proj2 (leg_ladder n)). Qed.
(** (1-x^2) d_(n+1) = (n+1) (p_n - x p_(n+1)) *)
Lemma leg_c n x : ((1 - x * x) * ev (dv (leg n.+1)) x = (INR n + 1) * (ev (leg n) x - x * ev (leg n.+1) x))%Re.
Proof.
have -> : ((1 - x * x) * ev (dv (leg n.+1)) x = ev (dv (leg n.+1)) x - x * (x * ev (dv (leg n.+1)) x - ev (dv (leg n)) x) - x * ev (dv (leg n)) x)%Re by ring.
rewrite leg_b leg_a; ring.
Qed.
(** p'_(n+2) - p'_n = (2n+3) p_(n+1) *)
Lemma leg_d n x : (ev (dv (leg n.+2)) x - ev (dv (leg n)) x = (2 * INR n + 3) * ev (leg n.+1) x)%Re.
Proof. rewrite leg_a. have := leg_b n x. rewrite S_INR => e. lra. Qed.
Lemma leg_d2 n x : (ev (dv (dv (leg n.+2))) x - ev (dv (dv (leg n))) x = (2 * INR n + 3) * ev (dv (leg n.+1)) x)%Re.
Proof.
have H : forall y, ev (dv (leg n.+2) - dv (leg n)) y = ev ((2 * INR n + 3)%Re *: leg n.+1) y.
  by move=> y; rewrite !evE; exact: leg_d.
by have := dv_ext H x; rewrite dvB dvZ !evE.
Qed.

Definition qq : PR := locked (1 - 'X * 'X).
Lemma ev_qq x : ev qq x = (1 - x * x)%Re. Proof. by rewrite /qq -lock !evE. Qed.
Lemma dv_qq : dv qq = - ('X + 'X). Proof. by rewrite /qq -lock !dvE mul1r mulr1 sub0r. Qed.
Lemma qq_neq0 : qq <> 0.
Proof. move=> h; have := ev_qq 0%Re; rewrite h ev0; lra. Qed.
(** Legendre's differential equation, in the form ((1-x^2) P')' = - n(n+1) P *)
Lemma leg_ode n x : ev (dv (qq * dv (leg n))) x = (- (INR n * (INR n + 1)) * ev (leg n) x)%Re.
Proof.
case: n => [|n].
  rewrite leg0 !dvE !evE /=; ring.
have H : forall y, ev (qq * dv (leg n.+1)) y = ev ((INR n + 1)%Re *: (leg n - 'X * leg n.+1)) y.
  move=> y; rewrite !evE ev_qq; exact: leg_c.
rewrite (dv_ext H x) dvZ dvB dvM dvX !evE S_INR. have := leg_b n x => e.
have -> : ev (dv (leg n)) x = (x * ev (dv (leg n.+1)) x - (INR n + 1) * ev (leg n.+1) x)%Re by lra.
ring.
Qed.
(** the equation of the m-th derivative *)
Definition dvn (m : nat) (p : PR) : PR := iter m dv p.
Lemma leg_ode_m n m x : ((1 - x * x) * ev (dv (dv (dvn m (leg n)))) x - 2 * (INR m + 1) * x * ev (dv (dvn m (leg n))) x
  + (INR n * (INR n + 1) - INR m * (INR m + 1)) * ev (dvn m (leg n)) x = 0)%Re.
Proof.
elim: m x => [|m IH] x.
  have := leg_ode n x. rewrite dvM dv_qq !evE ev_qq /dvn /=; lra.
set U := dvn m (leg n) in IH *.
have -> : dvn m.+1 (leg n) = dv U by [].
have H : forall y, ev (qq * dv (dv U) - (2 * (INR m + 1))%Re *: ('X * dv U) + (INR n * (INR n + 1) - INR m * (INR m + 1))%Re *: U) y = ev 0 y.
  move=> y; rewrite !evE ev_qq -(IH y); ring.
have := dv_ext H x. rewrite !dvE dv_qq !evE ev_qq S_INR => e. rewrite -e; ring.
Qed.
