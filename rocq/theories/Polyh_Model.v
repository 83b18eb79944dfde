(** Volume and quadrature of the cells and faces of a polyhedral mesh
    (generic_mesh<T,3>).

    Models quadratures/bits/raw_simplices.hpp:305-338, geometry/geometry_generic.hpp:155-164,
    quadratures/bits/quad_phys_generic.hpp:132-224 and quadratures/quad_bones.hpp:318-330.

    A cell is what the queries read of it: the coordinates of its points and,
    for each of its faces, the coordinates of the points of the face in the order
    the mesh stores them.  Coordinates are real numbers instead of floating-point
    numbers; asserts are compiled out. *)
From Coq Require Import Reals List Arith.
From Verif Require Import Common Poly_Spec Quad_Model Geo_Model GM_Model Tri_Tables Tri_Model.
Import ListNotations.
Local Open Scope R_scope.

Definition tetra : Type := pt * pt * pt * pt.

(** raw_simplices.hpp:305-338.  The push_backs of the two nested loops append
    the tetrahedra of one face after the other. *)
Definition split_in_raw_tetrahedra (pts : list pt) (faces : list (list pt)) : outcome (list tetra) :=
  let p i := nth i pts (fun _ => 0) in
  if Nat.eqb (length pts) 4 then Ok [(p 0%nat, p 1%nat, p 2%nat, p 3%nat)]
  else
    do bar <- barycenter pts;
    fold_left (fun acc fc =>
      do raw_simplices <- acc;
      do tris <- split_in_raw_triangles fc;
      Ok (raw_simplices ++ map (fun t => let '(a, b, c) := t in (bar, a, b, c)) tris)) faces (Ok []).

(** geometry_generic.hpp:155-164, with measure(raw_simplex<PtT,3>), raw_simplices.hpp:103-112 *)
Definition measure_cell (pts : list pt) (faces : list (list pt)) : outcome R :=
  do rss <- split_in_raw_tetrahedra pts faces;
  Ok (fold_left (fun vol rs => let '(a, b, c, d) := rs in vol + volume_tetrahedron_kahan a b c d) rss 0).

(** quad_phys_generic.hpp:132-153 *)
Definition integrate_polyhedron (pts : list pt) (faces : list (list pt)) (degree : nat) : outcome (list (pt * R)) :=
  do rss <- split_in_raw_tetrahedra pts faces;
  fold_left (fun acc rs =>
    do ret <- acc;
    let '(a, b, c, d) := rs in
    do quad_tet <- grundmann_moeller_3 degree a b c d;
    Ok (ret ++ quad_tet)) rss (Ok []).

(** quad_bones.hpp:318-330 and quad_phys_generic.hpp:182-203 *)
Definition integrate_cell (pts : list pt) (faces : list (list pt)) (degree : nat) : outcome (list (pt * R)) :=
  if Nat.eqb degree 0 then
    do bar <- barycenter pts;
    do meas <- measure_cell pts faces;
    Ok [(bar, meas)]
  else if Nat.ltb (length pts) 4 then Throw InvalidArgument
  else integrate_polyhedron pts faces degree.

(** quad_phys_generic.hpp:155-178.  Line 164 reads the table of the triangle
    rules at [degree] before anything else is checked: past the end this is
    undefined. *)
Definition integrate_polyhedron_face (triquad : nat -> pt -> pt -> pt -> list (pt * R)) (pts : list pt) (degree : nat)
  : outcome (list (pt * R)) :=
  do rss <- split_in_raw_triangles pts;
  do _rule <- vget triangle_gauss_rules degree;
  fold_left (fun acc rs =>
    do ret <- acc;
    let '(a, b, c) := rs in
    do quad_tri <- triangle_gauss triquad 3 degree a b c;
    Ok (ret ++ quad_tri)) rss (Ok []).

(** quad_phys_generic.hpp:205-224.  [points.size() - 1] of an empty face wraps
    around in measure; it is only reached after the barycenter, which is already
    undefined there. *)
Definition integrate_face (triquad : nat -> pt -> pt -> pt -> list (pt * R)) (pts : list pt) (degree : nat) : outcome (list (pt * R)) :=
  if Nat.eqb degree 0 then
    do bar <- barycenter pts;
    Ok [(bar, measure_face3 pts)]
  else if Nat.ltb (length pts) 3 then Throw InvalidArgument
  else integrate_polyhedron_face triquad pts degree.
