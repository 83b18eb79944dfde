(** Numbering of the unknowns on the edges of a planar mesh: what is expected *)
From Coq Require Import List Arith Bool ZArith.
From Verif Require Import Common Mesh_Model Mesh_Spec Elem_Model Single_Model VDof_Model.
Import ListNotations.

(** the sides (p, q) of the closed walk through the given points *)
Definition sides (w : list nat) : list (nat * nat) := combine w (tl w ++ firstn 1 w).
(** an edge is listed with its smaller point first *)
Definition edge_of (s : nat * nat) : edge := if fst s <? snd s then [fst s; snd s] else [snd s; fst s].

(** the numbers of the unknowns inside edge number [i], from its smaller to its larger point *)
Definition inner (npts k i : nat) : list nat := seq (npts + i * (k - 1)) (k - 1).
(** in the direction of the side (p, q) *)
Definition along (s : nat * nat) (l : list nat) : list nat := if fst s <? snd s then l else rev l.
(** position of an edge in the mesh *)
Fixpoint position (es : list edge) (e : edge) : nat :=
  match es with [] => 0 | f :: r => if arr_eqb f e then 0 else S (position r e) end.
(** the unknowns met on a side: at its first point, then inside it *)
Definition side_unknowns (npts k : nat) (es : list edge) (s : nat * nat) : list nat :=
  fst s :: along s (inner npts k (position es (edge_of s))).

Section Mesh.
  Context {C : Type}.
  Variable walk : C -> list nat.     (* the points of a cell, in the order of a walk around it *)
  Record good_mesh (m : vmesh C) : Prop := {
    gm_faces : sorted_unique lex_ltb (vm_faces m);
    gm_edges : forall e, In e (vm_faces m) -> exists a b, e = [a; b] /\ a < b /\ b < vm_points m;
    gm_binfo : length (vm_binfo m) = length (vm_faces m);
    gm_cells : forall c, In c (vm_cells m) -> NoDup (walk c) /\ 3 <= length (walk c) /\
        forall s, In s (sides (walk c)) -> In (edge_of s) (vm_faces m) }.
End Mesh.

(** the walk around a triangle, a quadrangle of a cartesian mesh and a polygon *)
Definition tri_walk (t : list nat) : list nat := t.
Definition quad_walk (t : list nat) : list nat := match t with [a; b; c; d] => [a; b; d; c] | _ => [] end.
Definition poly_walk (c : gcell) : list nat := gc_pts c.
(** the points of a triangle are in increasing order; those of a quadrangle have the least first and the greatest last;
    the faces of a polygon are the sides of its walk, each once *)
Definition tri_ok (t : list nat) : Prop := exists a b c, t = [a; b; c] /\ a < b /\ b < c.
Definition quad_ok (t : list nat) : Prop := exists a b c d, t = [a; b; c; d] /\ a < b /\ a < c /\ b < d /\ c < d.
Definition poly_ok (es : list edge) (c : gcell) : Prop :=
  NoDup (gc_faces c) /\ (forall i, In i (gc_faces c) -> i < length es) /\
  (forall s, In s (sides (gc_pts c)) -> exists i, In i (gc_faces c) /\ nth_error es i = Some (edge_of s)).

(** twice the signed area of the polygon with the given corners: positive when they are met counterclockwise *)
Open Scope Z_scope.
Definition signed_area2 (ps : list (Z * Z)) : Z :=
  fold_right Z.add 0 (map (fun '((x, y), (x', y')) => x * y' - x' * y) (combine ps (tl ps ++ firstn 1 ps))).
Close Scope Z_scope.

(** the meshes that have a dof_mapper: how they list the faces of a cell, and the walk around it *)
Inductive planar : forall {C : Type}, (C -> outcome (list (edge * bool))) -> (C -> list nat) -> vmesh C -> Prop :=
| planar_tri (m : vmesh (list nat)) : (forall t, In t (vm_cells m) -> tri_ok t) -> planar tri_faces_ccw tri_walk m
| planar_quad (m : vmesh (list nat)) : (forall t, In t (vm_cells m) -> quad_ok t) -> planar quad_faces_ccw quad_walk m
| planar_poly (m : vmesh gcell) : (forall c, In c (vm_cells m) -> poly_ok (vm_faces m) c) -> planar (poly_faces_ccw (vm_faces m)) poly_walk m.
(** all the unknowns of edge number [i], end points included *)
Definition edge_unknowns (npts k i : nat) (e : edge) : list nat := nth 0 e 0 :: inner npts k i ++ [nth 1 e 0].
(** edges whose unknowns bnd_to_global gives *)
Definition on_boundary {C} (m : vmesh C) (i : nat) : bool :=
  match nth_error (vm_binfo m) i with Some d => bd_is_b d && negb (bd_is_int d) | None => false end.
