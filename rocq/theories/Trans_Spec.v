(** Vocabulary for the transformations of a mesh: affine maps.  Nothing here refers to the program. *)
From Coq Require Import Reals List.
From Verif Require Import Poly_Spec HHO_Spec.
Import ListNotations.
Open Scope R_scope.

(** x -> M x + v in dimension D *)
Definition affine (D : nat) (M : mtx) (v : pt) (x : pt) : pt := fun i => sg D (fun j => M i j * x j) + v i.
Definition det2 (M : mtx) : R := M 0%nat 0%nat * M 1%nat 1%nat - M 0%nat 1%nat * M 1%nat 0%nat.
Definition det3 (M : mtx) : R :=
  M 0%nat 0%nat * (M 1%nat 1%nat * M 2%nat 2%nat - M 1%nat 2%nat * M 2%nat 1%nat) -
  M 0%nat 1%nat * (M 1%nat 0%nat * M 2%nat 2%nat - M 1%nat 2%nat * M 2%nat 0%nat) +
  M 0%nat 2%nat * (M 1%nat 0%nat * M 2%nat 1%nat - M 1%nat 1%nat * M 2%nat 0%nat).
