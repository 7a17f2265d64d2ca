(** * Reference notions for stratified spheres *)
From Coq Require Import Reals ZArith List Sorted.
From Verif Require Import Base Mat_Model Mat_Spec Bessel_Model Scat_Model Scat_Spec RT_Model RT_Spec2 Rad_Spec.
Import ListNotations.
Open Scope R_scope.

(** [M'] has at least the permittivity and at most the permeability of [M]; a perfect reflector counts as the largest *)
Definition weaker (M M' : material) (k : R) : Prop :=
  M' = PEC \/ exists e u e' u', has M e u /\ has M' e' u' /\ e k <= e' k /\ u' k <= u k.
(** a core and shells up to the medium: radii in ascending order; only the core may be a perfect reflector, and then the
    next interface is at a larger radius *)
Definition stacked (mat : nat -> material) (med : material) (mats : list nat) (rs : list R) : Prop :=
  exists m0 m1 ms r0 rs', mats = m0 :: m1 :: ms /\ rs = r0 :: rs' /\ length rs' = length ms /\ 0 < r0 /\ Sorted Rle rs /\
    mat (last (m1 :: ms) 0%nat) = med /\ (forall m, In m (m1 :: ms) -> exists e u, has (mat m) e u) /\
    ((exists e u, has (mat m0) e u) \/ mat m0 = PEC /\ (rs' = [] \/ exists r1 rs'', rs' = r1 :: rs'' /\ r0 < r1)).
(** a solid or stratified sphere with a common sign of the contrast to the medium *)
Definition body (c : config) (s : R) (sp : sphere) (e u : R -> R) (k : R) : Prop :=
  match sp with
  | Solid m r => 0 < r /\ contrast s m e u k
  | Layered mats rs => stacked (c_mat c) (c_med c) mats rs /\
      ((s = 1 /\ Forall (fun i => weaker (c_med c) (c_mat c i) k) mats) \/ (s = -1 /\ Forall (fun i => weaker (c_mat c i) (c_med c) k) mats))
  end.
(** the radius of the outermost interface *)
Definition rim (sp : sphere) : R := match sp with Solid _ r => r | Layered _ rs => last rs 0 end.
(** [sp'] scatters more than [sp]: a larger solid sphere of denser material; the same interfaces with denser materials; a
    perfect reflector that reaches beyond the outermost interface *)
Definition outdone (c : config) (s : R) (sp sp' : sphere) (k : R) : Prop :=
  match sp, sp' with
  | Solid m r, Solid m' r' => r <= r' /\ stronger s m' m k
  | Layered mats rs, Layered mats' rs' => rs' = rs /\
      ((s = 1 /\ Forall2 (fun i i' => weaker (c_mat c i) (c_mat c i') k) mats mats') \/ (s = -1 /\ Forall2 (fun i i' => weaker (c_mat c i') (c_mat c i) k) mats mats'))
  | Layered mats rs, Solid m' r' => s = 1 /\ m' = PEC /\ last rs 0 <= r'
  | Solid _ _, Layered _ _ => False
  end.
