(** Specification vocabulary for matrices and fourth order tensors. *)
From Coq Require Import List Reals.
From Verif Require Import Common Tensor_Model.
Import ListNotations.
Local Open Scope R_scope.

(** equality of D x D matrices, and of the D^4 coefficients of two tensors *)
Definition meq (D : nat) (A B : mtx) : Prop := forall i j, (i < D)%nat -> (j < D)%nat -> A i j = B i j.
Definition teq (D : nat) (S T : mtx) : Prop := forall i j k l, coeff D S i j k l = coeff D T i j k l.
(** the tensor whose coefficient (i,j,k,l) is f i j k l *)
Definition is_tensor (D : nat) (T : mtx) (f : nat -> nat -> nat -> nat -> R) : Prop :=
  forall i j k l, (i < D)%nat -> (j < D)%nat -> (k < D)%nat -> (l < D)%nat -> coeff D T i j k l = Ok (f i j k l).
Definition delta (i j : nat) : R := if Nat.eqb i j then 1 else 0.
(** sum over i < n *)
Fixpoint sig (n : nat) (f : nat -> R) : R := match n with O => 0 | S n => sig n f + f n end.
Definition mmul (D : nat) (A B : mtx) : mtx := fun i j => sig D (fun k => A i k * B k j).
Definition mtr (A : mtx) : mtx := fun i j => A j i.
Definition madd (A B : mtx) : mtx := fun i j => A i j + B i j.
Definition mscal (c : R) (A : mtx) : mtx := fun i j => c * A i j.
(** A : B *)
Definition ddot (D : nat) (A B : mtx) : R := sig D (fun i => sig D (fun j => A i j * B i j)).
(** matrix times vector, the matrix stored row after row *)
Definition apply_packed (K : list R) (x : list R) : list R :=
  map (fun a => sig (length x) (fun b => nth (a * length x + b) K 0 * nth b x 0)) (seq 0 (length x)).
(** a 6x6 (or smaller) matrix times a vector *)
Definition apply_mtx (M : mtx) (x : list R) : list R :=
  map (fun a => sig (length x) (fun b => M a b * nth b x 0)) (seq 0 (length x)).
Definition sym3 (E : mtx) : Prop := forall i j, E i j = E j i.
(** no shear with the third direction (plane strain) *)
Definition plane3 (E : mtx) : Prop := E 0%nat 2%nat = 0 /\ E 1%nat 2%nat = 0 /\ E 2%nat 0%nat = 0 /\ E 2%nat 1%nat = 0.
