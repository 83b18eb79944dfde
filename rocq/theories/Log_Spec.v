(** Vocabulary for C198-C200. *)
From Coq Require Import Reals.
From Verif Require Import Tensor_Model Tensor_Spec Law_Model Log_Model.
Open Scope R_scope.

(** V has orthonormal rows and columns; lam and V diagonalise C *)
Definition orthonormal (V : mtx) : Prop := forall i j, (i < 3)%nat -> (j < 3)%nat ->
  sig 3 (fun a => V a i * V a j) = delta i j /\ sig 3 (fun a => V i a * V j a) = delta i j.
Definition eigen (C : mtx) (lam : nat -> R) (V : mtx) : Prop := orthonormal V /\
  forall a b, (a < 3)%nat -> (b < 3)%nat -> C a b = sig 3 (fun i => V a i * lam i * V b i).
Definition positive (lam : nat -> R) : Prop := forall i, (i < 3)%nat -> 0 < lam i.
(** half the logarithm, its derivative and half its second derivative *)
Definition hlog (x : R) : R := ln x / 2.
Definition hlog' (x : R) : R := / (2 * x).
Definition hlog2 (x : R) : R := - / (4 * x ^ 2).
(** divided differences of half the logarithm, with their limits when points coincide *)
Definition dd1 (x y : R) : R := if Req_EM_T x y then hlog' x else (hlog x - hlog y) / (x - y).
Definition dd2 (x y z : R) : R :=
  if Req_EM_T x z then (if Req_EM_T x y then hlog2 x else (dd1 y x - dd1 x x) / (y - x)) else (dd1 x y - dd1 y z) / (x - z).
(** the matrix A is differentiable at 0 with derivative A' *)
Definition mderiv (A : R -> mtx) (A' : mtx) : Prop := forall a b, (a < 3)%nat -> (b < 3)%nat -> derivable_pt_lim (fun t => A t a b) 0 (A' a b).
(** right Cauchy-Green tensor *)
Definition cauchy_green (F : mtx) : mtx := mmul 3 (mtr F) F.
(** two eigenvalues are equal, or the test of the code tells them apart *)
Definition separated (lam : vec) : Prop := forall i j, (i < 3)%nat -> (j < 3)%nat -> lam i = lam j \/ almost_equal (lam i) (lam j) = false.
(** the two last eigenvalues coincide only when the three do (Eigen sorts the
    eigenvalues: the two largest do not coincide) *)
Definition last_two_apart (lam : nat -> R) : Prop := lam 1%nat = lam 2%nat -> lam 0%nat = lam 1%nat.
(** T and the matrix diagonalised by V have the same eigenvectors *)
Definition coaxial (T V : mtx) : Prop := forall i j, (i < 3)%nat -> (j < 3)%nat -> i <> j -> sig 3 (fun a => sig 3 (fun b => V a i * T a b * V b j)) = 0.
(** a motion of the deformation gradient: its derivative F', and a differentiable
    diagonalisation of the Cauchy-Green tensor *)
Definition motion (F : R -> mtx) (F' : mtx) (L : R -> nat -> R) (W : R -> mtx) : Prop := mderiv F F' /\
  (forall t, eigen (cauchy_green (F t)) (L t) (W t)) /\ (exists W', mderiv W W') /\
  forall i, (i < 3)%nat -> exists l, derivable_pt_lim (fun t => L t i) 0 l.
(** the first and last eigenvalues coincide only when the three do *)
Definition ends_apart (lam : nat -> R) : Prop := lam 0%nat = lam 2%nat -> lam 0%nat = lam 1%nat.
Definition symmetric (A : mtx) : Prop := meq 3 A (mtr A).
(** rate of the strain for the rate K of the Cauchy-Green tensor with eigenvalues lam and eigenvectors V *)
Definition strain_rate (lam : nat -> R) (V K : mtx) : mtx := fun a b => sig 3 (fun i => sig 3 (fun j =>
  dd1 (lam i) (lam j) * V a i * V b j * sig 3 (fun c => sig 3 (fun d => V c i * K c d * V d j)))).
(** rate of the Cauchy-Green tensor for the rate G of the deformation gradient F *)
Definition cauchy_green_rate (F G : mtx) : mtx := fun a b => sig 3 (fun k => G k a * F k b + F k a * G k b).
(** P is the first Piola-Kirchhoff stress of the stress T: it has the power of T for every rate of the deformation gradient F *)
Definition conjugate (P T F : mtx) (lam : nat -> R) (V : mtx) : Prop := forall G, InnerProduct 3 P G = InnerProduct 3 T (strain_rate lam V (cauchy_green_rate F G)).
(** major symmetry of a tensor of order four *)
Definition major (D : mtx) : Prop := forall a b c d, (a < 3)%nat -> (b < 3)%nat -> (c < 3)%nat -> (d < 3)%nat -> rd 3 D a b c d = rd 3 D c d a b.
