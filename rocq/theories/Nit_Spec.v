(** Vocabulary for the Nitsche terms: sums over the faces of a cell that lie on the boundary of the domain. *)
From Coq Require Import List Arith Reals.
From Verif Require Import Poly_Spec HHO_Spec.
Import ListNotations.
Open Scope R_scope.

(** sum of [g] over the boundary faces of the functions of the face in two families of unknowns *)
Fixpoint bsum2 (fs : list facet) (bnd : list bool) (us vs : list (option pexp)) (g : facet -> pexp -> pexp -> R) : R :=
  match fs, bnd, us, vs with
  | f :: fs, b :: bnd, Some u :: us, Some v :: vs => (if b then g f u v else 0) + bsum2 fs bnd us vs g
  | _, _, _, _ => 0
  end.
(** the same with one family *)
Definition bsum (fs : list facet) (bnd : list bool) (us : list (option pexp)) (g : facet -> pexp -> R) : R :=
  bsum2 fs bnd us us (fun f u _ => g f u).
(** the measure of a face; the normal derivative grad p . n on it *)
Definition fa_measure (f : facet) : R := fa_int f (PC 1).
Definition ndiff (d : nat) (f : facet) (p : pexp) : pexp := psum d (fun k => pscal (fa_normal f k) (pdiff k p)).
