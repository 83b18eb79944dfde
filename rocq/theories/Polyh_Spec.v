(** Vocabulary for C188-C191: convex polyhedra given by their vertices and their
    faces, each face listed in one of its two directions. *)
From Coq Require Import Reals List Permutation.
From Verif Require Import Poly_Spec Quad_Spec Geo_Spec Shape_Spec.
Import ListNotations.
Open Scope R_scope.

(** a face and its direction: true when its vertices turn counterclockwise for
    someone who looks at the cell from outside *)
Definition oface : Type := bool * list pt.
Definition sgn (out : bool) : R := if out then 1 else -1.

(** the face is a plane convex polygon, and the cell lies on one side of its
    plane: behind it with respect to the direction in which it turns, or in front *)
Definition face_of (cell : list pt) (f : oface) : Prop :=
  exists n, convex_face n (snd f) /\ outward_normal 3 cell (snd f) (fun i => sgn (fst f) * n i).

(** the edges of the face as seen from outside *)
Definition swap (e : pt * pt) : pt * pt := (snd e, fst e).
Definition outer_edges (f : oface) : list (pt * pt) := if fst f then edges (snd f) else map swap (edges (snd f)).
(** no boundary: every edge is traversed as often in one direction as in the other *)
Definition closed_surface (fs : list oface) : Prop :=
  Permutation (flat_map outer_edges fs) (map swap (flat_map outer_edges fs)).

Definition convex_polyhedron (cell : list pt) (fs : list oface) : Prop :=
  cell <> [] /\ (forall f, In f fs -> face_of cell f) /\ closed_surface fs.

(** the volume by the divergence theorem: the cone with base f and apex x is a
    third of the height times the area, with a minus sign when f is seen from
    outside; [area_vector] is the area times the unit normal *)
Definition area_vector (pts : list pt) : pt := fun i =>
  match i with O => poly_area2 1 2 pts / 2 | 1%nat => poly_area2 2 0 pts / 2 | _ => poly_area2 0 1 pts / 2 end.
Definition cone_volume (x : pt) (f : oface) : R :=
  sgn (fst f) * sprod 3 (fun i => nth 0 (snd f) (fun _ => 0) i - x i) (area_vector (snd f)) / 3.
Definition polyhedron_volume (x : pt) (fs : list oface) : R := sumR (map (cone_volume x) fs).

(** the four faces of a tetrahedron, and the same face listed the other way *)
Definition tetra_faces (a b c d : pt) : list oface := [(true, [a; c; b]); (true, [a; b; d]); (true, [b; c; d]); (true, [a; d; c])].
Definition same_face (f g : oface) : Prop := f = g \/ f = (negb (fst g), rev (snd g)).

(** integral over a union of non-overlapping tetrahedra, of triangles of space *)
Fixpoint is_int_tetras (l : list (pt * pt * pt * pt)) (f : pt -> R) (I : R) : Prop :=
  match l with
  | [] => I = 0
  | (a, b, c, d) :: t => exists I1 I2, is_int_tetra a b c d f I1 /\ is_int_tetras t f I2 /\ I = I1 + I2
  end.
Fixpoint is_int_triangles3 (l : list (pt * pt * pt)) (f : pt -> R) (I : R) : Prop :=
  match l with
  | [] => I = 0
  | (a, b, c) :: t => exists I1 I2, is_int_triangle3 a b c f I1 /\ is_int_triangles3 t f I2 /\ I = I1 + I2
  end.

(** ** the cell as a set of points *)
(** x is on the inner side of every face *)
Definition in_cell (fs : list oface) (x : pt) : Prop := forall f, In f fs -> forall p, In p (snd f) ->
  sgn (fst f) * sprod 3 (fun i => x i - p i) (area_vector (snd f)) <= 0.
(** every edge of the polygon sees one of its vertices at a positive area: no empty edge, no flat polygon *)
Definition proper_polygon (pts : list pt) : Prop := forall a b, In (a, b) (edges pts) -> exists c, In c pts /\ 0 < cross3_sq a b c.
(** two faces that share an edge are not in the same plane *)
Definition bent (fs : list oface) : Prop := forall f g a b, In f fs -> In g fs -> In (a, b) (outer_edges f) -> In (b, a) (outer_edges g) ->
  exists p q r c, In p (snd g) /\ In q (snd g) /\ In r (snd g) /\ In c (snd f) /\ triple p q r c <> 0.
Definition strictly_convex (cell : list pt) (fs : list oface) : Prop :=
  convex_polyhedron cell fs /\ fs <> [] /\ (forall f p, In f fs -> In p (snd f) -> In p cell) /\
  (forall f, In f fs -> proper_polygon (snd f)) /\ bent fs.
(** the closed triangle abc of space *)
Definition in_triangle3 (a b c x : pt) : Prop := exists la lb lc, 0 <= la /\ 0 <= lb /\ 0 <= lc /\ la + lb + lc = 1 /\
  forall i, (i < 3)%nat -> x i = la * a i + lb * b i + lc * c i.
(** the closed polygon: the points of its plane on the inner side of every edge *)
Definition in_polygon (pts : list pt) (y : pt) : Prop :=
  (forall p, In p pts -> sprod 3 (fun i => y i - p i) (area_vector pts) = 0) /\
  forall a b, In (a, b) (edges pts) ->
    0 <= area_vector pts 0%nat * tri_area2 1 2 (a, b, y) + area_vector pts 1%nat * tri_area2 2 0 (a, b, y) + area_vector pts 2%nat * tri_area2 0 1 (a, b, y).
