(** Vocabulary for the geometry properties. *)
From Coq Require Import Reals List Permutation.
From Verif Require Import Poly_Spec Quad_Spec.
Import ListNotations.
Open Scope R_scope.

(** a, b, c on a line; a, b, c, d in a plane (in dimension D) *)
Definition collinear (D : nat) (a b c : pt) : Prop :=
  exists s t, (s <> 0 \/ t <> 0) /\ forall i, (i < D)%nat -> s * (b i - a i) + t * (c i - a i) = 0.
Definition coplanar (a b c d : pt) : Prop :=
  exists r s t, (r <> 0 \/ s <> 0 \/ t <> 0) /\
    forall i, (i < 3)%nat -> r * (b i - a i) + s * (c i - a i) + t * (d i - a i) = 0.

(** x is the point with the given barycentric coordinates; the closed and the
    open tetrahedron *)
Definition in_tetra (a b c d x : pt) : Prop :=
  exists la lb lc ld, 0 <= la /\ 0 <= lb /\ 0 <= lc /\ 0 <= ld /\ la + lb + lc + ld = 1 /\
    forall i, (i < 3)%nat -> x i = la * a i + lb * b i + lc * c i + ld * d i.
Definition in_open_tetra (a b c d x : pt) : Prop :=
  exists la lb lc ld, 0 < la /\ 0 < lb /\ 0 < lc /\ 0 < ld /\ la + lb + lc + ld = 1 /\
    forall i, (i < 3)%nat -> x i = la * a i + lb * b i + lc * c i + ld * d i.

(** edges (p_i, p_(i+1)) of a closed polygon *)
Definition edges (pts : list pt) : list (pt * pt) :=
  match pts with [] => [] | p :: t => combine pts (t ++ [p]) end.
(** counterclockwise convex polygon: no vertex to the right of an edge, no
    empty edge *)
Definition convex_polygon (pts : list pt) : Prop :=
  (3 <= length pts)%nat /\
  forall a b, In (a, b) (edges pts) -> (a 0%nat <> b 0%nat \/ a 1%nat <> b 1%nat) /\ forall c, In c pts -> 0 <= cross2 a b c.
(** signed area: half the sum of the cross products of the edges *)
Fixpoint sumR (l : list R) : R := match l with [] => 0 | x :: t => x + sumR t end.
Definition signed_area (pts : list pt) : R :=
  sumR (map (fun e => (fst e 0%nat * snd e 1%nat - snd e 0%nat * fst e 1%nat) / 2) (edges pts)).

(** the triangles p0 p_i p_(i+1) *)
Fixpoint fan_from (p0 : pt) (l : list pt) : list (pt * pt * pt) :=
  match l with
  | p :: ((q :: _) as t) => (p0, p, q) :: fan_from p0 t
  | _ => []
  end.
Definition fan (pts : list pt) : list (pt * pt * pt) := match pts with [] => [] | p :: t => fan_from p t end.
(** integral over a union of non-overlapping triangles *)
Fixpoint is_int_triangles (l : list (pt * pt * pt)) (f : pt -> R) (I : R) : Prop :=
  match l with
  | [] => I = 0
  | (a, b, c) :: t => exists I1 I2, is_int_triangle a b c f I1 /\ is_int_triangles t f I2 /\ I = I1 + I2
  end.

(** translation by v *)
Definition shift (v : pt) (p : pt) : pt := fun i => p i + v i.
(** the point (1-t) a + t b of the segment ab *)
Definition on_segment (t : R) (a b : pt) : pt := fun i => (1 - t) * a i + t * b i.
(** fc joins the two ends of the edge e, in one direction or the other *)
Definition same_edge (fc e : pt * pt) : Prop := fc = e \/ fc = (snd e, fst e).
(** [faces] are the edges of the polygon, in any order and direction *)
Definition edges_as_faces (faces : list (pt * pt)) (pts : list pt) : Prop :=
  exists es, Permutation es (edges pts) /\ Forall2 same_edge faces es.

(** scalar product in dimension D; Euclidean distance *)
Definition sprod (D : nat) (u v : pt) : R := sumR (map (fun i => u i * v i) (seq 0 D)).
Definition edist (D : nat) (p q : pt) : R := sqrt (sumR (map (fun i => (p i - q i) ^ 2) (seq 0 D))).
(** n is the unit normal of the face through the points [face], pointing away
    from the cell with vertices [cell] *)
Definition outward_normal (D : nat) (cell face : list pt) (n : pt) : Prop :=
  sprod D n n = 1 /\
  (forall p q, In p face -> In q face -> sprod D n (fun i => q i - p i) = 0) /\
  (forall p x, In p face -> In x cell -> sprod D n (fun i => x i - p i) <= 0).
