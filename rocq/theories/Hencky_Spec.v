(** Specification vocabulary for the Hencky-Mises law. *)
From Coq Require Import List Arith Bool Reals.
From Verif Require Import Common Tensor_Model Tensor_Spec Law_Model Hencky_Model.
Import ListNotations.
Local Open Scope R_scope.

(** trace and deviator of a D x D matrix *)
Definition tr (D : nat) (A : mtx) : R := sig D (fun i => A i i).
Definition dv (D : nat) (A : mtx) : mtx := fun i j => A i j - tr D A / INR D * delta i j.
Definition msub (A B : mtx) : mtx := madd A (mscal (-1) B).
(** product of the D^4 coefficients of a tensor with a D x D matrix *)
Definition tapplyD (D : nat) (T H : mtx) : mtx := fun i j =>
  sig D (fun k => sig D (fun l => (match coeff D T i j k l with Ok x => x | _ => 0 end) * H k l)).
(** the entries of f have the entries of L as derivatives at F in the direction H *)
Definition has_derivative (D : nat) (f : mtx -> mtx) (F H L : mtx) : Prop :=
  forall i j, (i < D)%nat -> (j < D)%nat -> derivable_pt_lim (fun t => f (madd F (mscal t H)) i j) 0 (L i j).
(** the stress s is the gradient of the energy psi *)
Definition derives_from (D : nat) (psi : mtx -> R) (s : mtx -> mtx) : Prop :=
  forall F H, derivable_pt_lim (fun t => psi (madd F (mscal t H))) 0 (ddot D (s F) H).
(** the stress and the tangent returned for a strain, as functions of the strain *)
Definition stress_at (DIM : nat) (m : material) (q : hmqp) (strain : mtx) : mtx := let '(_, s, _) := hm_whole DIM m q strain true in s.
Definition tangent_at (DIM : nat) (m : material) (q : hmqp) (strain : mtx) : mtx := let '(_, _, C) := hm_whole DIM m q strain true in C.
(** the energy of the law in the plane *)
Definition energy_plane (m : material) (e : mtx) : R :=
  m_mu m * (ddot 2 (dv 2 e) (dv 2 e) / 2 + sqrt (1 + ddot 2 (dv 2 e) (dv 2 e))) + (m_lambda m + m_mu m) / 2 * (tr 2 e * tr 2 e).
