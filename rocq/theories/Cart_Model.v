(** Model of the geometry and the quadratures of cartesian meshes
    (geometry_hexahedral.hpp, quad_phys_cartesian.hpp).  An element is the list of
    its points in the order of point_ids(); exact reals.  The assertions are
    compiled out: with assertions on, measure of a 3D cell (265-276) stops on
    every cell, because it asserts four points and gets eight. *)
From Coq Require Import Reals List Arith.
From Verif Require Import Common Poly_Spec Quad_Model Geo_Model.
Import ListNotations.
Local Open Scope R_scope.

(** pts[i] of a std::array of points *)
Definition at_pt (pts : list pt) (i : nat) : pt := nth i pts (fun _ => 0).

(** geometry_hexahedral.hpp:134-153: faces of a 2D cell *)
Definition cart_faces2 (c : list pt) : list (pt * pt) :=
  [(at_pt c 0, at_pt c 1); (at_pt c 0, at_pt c 2); (at_pt c 1, at_pt c 3); (at_pt c 2, at_pt c 3)].
(** geometry_hexahedral.hpp:163-184: faces of a 3D cell *)
Definition cart_faces3 (c : list pt) : list (list pt) :=
  [[at_pt c 0; at_pt c 2; at_pt c 6; at_pt c 4]; [at_pt c 1; at_pt c 3; at_pt c 7; at_pt c 5];
   [at_pt c 0; at_pt c 1; at_pt c 3; at_pt c 2]; [at_pt c 4; at_pt c 5; at_pt c 7; at_pt c 6];
   [at_pt c 0; at_pt c 4; at_pt c 5; at_pt c 1]; [at_pt c 2; at_pt c 6; at_pt c 7; at_pt c 3]].

(** geometry_hexahedral.hpp:252-262: measure of a 2D cell *)
Definition measure_cart2 (c : list pt) : R := norm 2 (psubt (at_pt c 1) (at_pt c 0)) * norm 2 (psubt (at_pt c 2) (at_pt c 0)).
(** geometry_hexahedral.hpp:264-275: measure of a 3D cell *)
Definition measure_cart3 (c : list pt) : R :=
  norm 3 (psubt (at_pt c 1) (at_pt c 0)) * norm 3 (psubt (at_pt c 2) (at_pt c 0)) * norm 3 (psubt (at_pt c 4) (at_pt c 0)).
(** geometry_hexahedral.hpp:286-294: measure of an edge *)
Definition measure_cart_edge (f : pt * pt) : R := norm 2 (psubt (snd f) (fst f)).
(** geometry_hexahedral.hpp:296-306: measure of a 3D face *)
Definition measure_cart_face (f : list pt) : R := norm 3 (psubt (at_pt f 1) (at_pt f 0)) * norm 3 (psubt (at_pt f 3) (at_pt f 0)).

(** quad_phys_cartesian.hpp:44-54, 67-81, 82-92: the reordering of the points *)
Definition integrate_cart2 (c : list pt) (degree : nat) : outcome (list (pt * R)) :=
  tensorized_gauss_legendre degree (at_pt c 0) (at_pt c 1) (at_pt c 3) (at_pt c 2).
Definition integrate_cart3 (c : list pt) (degree : nat) : outcome (list (pt * R)) :=
  tensorized_gauss_legendre_hex degree (at_pt [at_pt c 0; at_pt c 1; at_pt c 3; at_pt c 2; at_pt c 4; at_pt c 5; at_pt c 7; at_pt c 6]).
Definition integrate_cart_face (f : list pt) (degree : nat) : outcome (list (pt * R)) :=
  tensorized_gauss_legendre_face degree (at_pt f 0) (at_pt f 1) (at_pt f 2) (at_pt f 3).
