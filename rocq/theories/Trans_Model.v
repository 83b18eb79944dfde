(** Model of mesh::transform, mesh/mesh.hpp:597-605, and of the points of an element, geometry/geometry_all.hpp:92-107.
    Coordinates are real numbers; the elements, which hold the numbers of their points, are not part of what transform
    touches. *)
From Coq Require Import Reals List Arith.
From Verif Require Import Common Poly_Spec.
Import ListNotations.
Open Scope R_scope.

(** std::transform over all points, in place *)
Definition transform (tr : pt -> pt) (points : list pt) : list pt := map tr points.
(** points(msh, elem): *std::next(points_begin, id) for each id; past the end it is undefined *)
Definition points_of_elem (points : list pt) (ids : list nat) : outcome (list pt) :=
  if forallb (fun i => Nat.ltb i (length points)) ids then Ok (map (fun i => nth i points (fun _ => 0)) ids) else UB.
