(** Model of the Hencky-Mises law at a quadrature point,
    mechanics/behaviors/laws/HenckyMises/HenckyMises_qp.hpp.  Scalars are exact reals.
    [derivativetildemu] and [derivativetildelambda] (lines 79-91) are called by nothing (the second
    calls the first with an argument missing) and are left out. *)
From Coq Require Import List Arith Bool Reals.
From Verif Require Import Common Tensor_Model Law_Model.
Import ListNotations.
Local Open Scope R_scope.

(** lines 67-71 and 73-77 *)
Definition tildemu (m : material) (normL2dev : R) : R := m_mu m * (1 + 1 / sqrt (1 + normL2dev * normL2dev)).
Definition tildelambda (m : material) (normL2dev : R) : R :=
  (m_lambda m + m_mu m / 2) - m_mu m / (2 * sqrt (1 + normL2dev * normL2dev)).
(** the members the law uses, law_qp_bones.hpp:57-61: elastic strain, previous and current *)
Record hmqp := mkHm { hm_prev : mtx; hm_curr : mtx }.
(** law_qp_bones.hpp:84-87 and 150-154 *)
Definition hm_make : hmqp := mkHm mzero mzero.
Definition hm_update (q : hmqp) : hmqp := mkHm (hm_curr q) (hm_curr q).
(** lines 101-110: 3 x 3 matrices, whatever DIM is *)
Definition hm_stress3D (m : material) (q : hmqp) : mtx :=
  let Gs := hm_curr q in
  let normFrodev := mnorm 3 (deviator 3 Gs) in
  mplus (mtimes (tildemu m normFrodev) Gs) (mtimes (tildelambda m normFrodev * trace 3 Gs) mident).
(** lines 112-121 *)
Definition hm_stress (DIM : nat) (m : material) (q : hmqp) : mtx :=
  let Gs := get_block (hm_curr q) 0 0 in
  let normFrodev := mnorm DIM (deviator DIM Gs) in
  mplus (mtimes (tildemu m normFrodev) Gs) (mtimes (tildelambda m normFrodev * trace DIM Gs) mident).
(** law_qp_bones.hpp:63-68; the identity exists for DIM = 1, 2, 3 *)
Definition hm_modulus (DIM : nat) (m : material) : mtx :=
  mplus (mtimes (2 * m_mu m) (match IdentitySymTensor4 DIM with Some t => t | None => mzero end)) (mtimes (m_lambda m) IxI).
(** lines 123-135: new state, stress, tangent; the flag is not used *)
Definition hm_whole (DIM : nat) (m : material) (q : hmqp) (strain : mtx) (tangentmodulus : bool) : hmqp * mtx * mtx :=
  let Cep := hm_modulus DIM m in
  let q := mkHm (hm_prev q) (embed DIM strain) in
  (q, hm_stress DIM m q, Cep).
