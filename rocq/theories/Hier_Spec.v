(** Vocabulary for the statements about the mesh hierarchy. *)
From Coq Require Import List Arith Bool Reals.
From Verif Require Import Common Mesh_Model Mesh_Spec Elem_Model Elem_Spec Refine_Proofs Mesher_Model Mesher_Spec.
Import ListNotations.

(** A conforming triangular mesh, as any of the loaders or meshers produces it: sorted containers, every edge of a triangle
    stored, boundary edges in one triangle and the others in two. *)
Record triangle_mesh (s : store) : Prop := {
  tm_points : length (s_points s) = length (s_nodes s);
  tm_nodes : s_nodes s = seq 0 (length (s_nodes s));
  tm_edges : forall e, In e (s_edges s) -> exists a b, e = [a; b] /\ a < b < length (s_nodes s);
  tm_edges_sorted : sorted_unique lex_ltb (s_edges s);
  tm_cells : forall t, In t (s_surfs s) -> exists a b c, t = [a; b; c] /\ a < b /\ b < c < length (s_nodes s) /\
     In [a; b] (s_edges s) /\ In [b; c] (s_edges s) /\ In [a; c] (s_edges s);
  tm_cells_sorted : sorted_unique lex_ltb (s_surfs s);
  tm_owners : owners_match feq tri_faces (s_surfs s) (s_edges s) (s_binfo s)
}.

(** Triangle number [t] of the mesh contains the point. *)
Definition contains (s : store) (t : nat) (p : pt) : Prop := exists c, nth_error (s_surfs s) t = Some c /\ in_hull s c p 2.
Definition nondegenerate (s : store) : Prop := forall c, In c (s_surfs s) -> (0 < area_of s c)%R.
