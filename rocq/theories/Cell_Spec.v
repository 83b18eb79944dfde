(** Vocabulary for the material points of a cell.  Nothing here refers to the program. *)
From Coq Require Import List Reals.
From Verif Require Import Poly_Spec.
Import ListNotations.
Open Scope R_scope.

(** data at weighted points: the sum of weight * f point value *)
Fixpoint dsum {S : Type} (l : list (pt * R * S)) (f : pt -> S -> R) : R :=
  match l with [] => 0 | (x, w, s) :: t => w * f x s + dsum t f end.
