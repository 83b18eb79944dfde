(** Vocabulary for C101-C103: oriented areas of polygons in coordinate planes. *)
From Coq Require Import List Reals.
From Verif Require Import Poly_Spec Geo_Spec.
Import ListNotations.
Open Scope R_scope.

(** component of a x b on the coordinates (i, j) *)
Definition wedge (i j : nat) (a b : pt) : R := a i * b j - b i * a j.
(** twice the signed area of the projection on the coordinates (i, j): of a triangle, of a closed polygon *)
Definition tri_area2 (i j : nat) (t : pt * pt * pt) : R := let '(a, b, c) := t in wedge i j a b + wedge i j b c + wedge i j c a.
Definition poly_area2 (i j : nat) (pts : list pt) : R := sumR (map (fun e => wedge i j (fst e) (snd e)) (edges pts)).
(** a plane convex polygon in space that turns counterclockwise around the unit vector n: seen from every edge,
    every vertex spans with it an area along n *)
Definition convex_face (n : pt) (pts : list pt) : Prop :=
  (3 <= length pts)%nat /\ n 0%nat ^ 2 + n 1%nat ^ 2 + n 2%nat ^ 2 = 1 /\
  forall a b c, In (a, b) (edges pts) -> In c pts -> exists k, 0 <= k /\
    tri_area2 1 2 (a, b, c) = k * n 0%nat /\ tri_area2 2 0 (a, b, c) = k * n 1%nat /\ tri_area2 0 1 (a, b, c) = k * n 2%nat.
