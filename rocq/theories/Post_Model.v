(** Model of PostMesh for three-dimensional meshes (output/postMesh.hpp:170-353), the
    simplicial mesh on which solutions are written.  Simplifications: a face of a
    cell is given by its position in the mesh (the result of msh.lookup, Mesh_Model);
    exact reals; the vector of nodes of the new mesh, which holds the identifiers
    0, 1, 2 ... of its points, is only counted. *)
From Coq Require Import List Arith Reals.
From Verif Require Import Common Poly_Spec Geo_Model Mesher_Model.
Import ListNotations.

(** mesh_storage of the input: points, number of nodes, point_ids of the edges and
    faces, point_ids and faces of the cells *)
Record mesh3 := mkM3 { i_points : list Poly_Spec.pt; i_nodes : nat; i_edges : list (list nat); i_faces : list (list nat); i_cells : list (list nat * list nat) }.
(** storage of post_mesh, num_points, list_face_nodes and list_cell_nodes *)
Record post := mkPost { o_points : list Poly_Spec.pt; o_nodes : nat; o_edges : list (list nat); o_vols : list (list nat);
  num_points : nat; face_list : list (list nat); cell_list : list (list nat) }.

(** points(msh, elem): geometry_all.hpp:92-107 *)
Fixpoint points_of (P : list Poly_Spec.pt) (ids : list nat) : outcome (list Poly_Spec.pt) :=
  match ids with [] => Ok [] | i :: r => do p <- vget P i; do t <- points_of P r; Ok (p :: t) end.

(** postMesh.hpp:274-278: one turn of the copy of the points *)
Definition copy_point (m : mesh3) (i : nat) (s : post) : outcome post :=
  do p <- vget (i_points m) i;
  Ok (mkPost (o_points s ++ [p]) (S (o_nodes s)) (o_edges s) (o_vols s) (num_points s) (face_list s) (cell_list s)).
(** postMesh.hpp:285-289: one turn of the copy of the edges *)
Definition copy_edge (e : list nat) (s : post) : outcome post :=
  do a <- vget e 0; do b <- vget e 1;
  Ok (mkPost (o_points s) (o_nodes s) (o_edges s ++ [sord [a; b]]) (o_vols s) (num_points s) (face_list s) (cell_list s)).
(** postMesh.hpp:223-227, 312-316: a new point *)
Definition add_point (bar : Poly_Spec.pt) (s : post) : post :=
  mkPost (o_points s ++ [bar]) (S (o_nodes s)) (o_edges s) (o_vols s) (S (num_points s)) (face_list s) (cell_list s).
(** postMesh.hpp:213-231: one face of the mesh *)
Definition split_face (m : mesh3) (fc : list nat) (s : post) : outcome post :=
  do r <- (if 3 <? length fc then do c <- points_of (i_points m) fc; do bar <- barycenter c; Ok (add_point bar s, fc ++ [num_points s]) else Ok (s, fc));
  let (s', pts) := r in
  Ok (mkPost (o_points s') (o_nodes s') (o_edges s') (o_vols s') (num_points s') (face_list s' ++ [pts]) (cell_list s')).
(** postMesh.hpp:234-254: the triangles of a face; back() of an empty vector is undefined *)
Definition face_triangles (s : post) (f : nat) : outcome (list (nat * nat * nat)) :=
  do pts <- vget (face_list s) f;
  if length pts =? 3 then do a <- vget pts 0; do b <- vget pts 1; do c <- vget pts 2; Ok [(a, b, c)]
  else do bar <- vget pts (length pts - 1);
    each (fun i ret => do a <- vget pts i; do b <- vget pts ((i + 1) mod (length pts - 1)); Ok (ret ++ [(a, b, bar)])) (seq 0 (length pts - 1)) [].
(** volume_type({...}) of a simplicial mesh *)
Definition push_volume (v : list nat) (s : post) : post :=
  mkPost (o_points s) (o_nodes s) (o_edges s) (o_vols s ++ [sord v]) (num_points s) (face_list s) (cell_list s).
(** postMesh.hpp:319-329: one face of a cell; the state is completed by pts *)
Definition cell_face (bar_id : nat) (f : nat) (st : post * list nat) : outcome (post * list nat) :=
  let (s, pts) := st in
  do triangles <- face_triangles s f;
  do pts' <- (if 1 <? length triangles then do t <- vget triangles 1; Ok (pts ++ [snd t]) else Ok pts);
  Ok (fold_left (fun s t => push_volume [fst (fst t); snd (fst t); snd t; bar_id] s) triangles s, pts').
(** postMesh.hpp:299-333: one cell *)
Definition split_cell (m : mesh3) (cl : list nat * list nat) (s : post) : outcome post :=
  let (pts, fcs) := cl in
  do r <- (if length pts =? 4 then
      do a <- vget pts 0; do b <- vget pts 1; do c <- vget pts 2; do d <- vget pts 3; Ok (push_volume [a; b; c; d] s, pts)
    else do c <- points_of (i_points m) pts; do bar <- barycenter c;
      each (cell_face (num_points s)) fcs (add_point bar s, pts ++ [num_points s]));
  let (s', pts') := r in
  Ok (mkPost (o_points s') (o_nodes s') (o_edges s') (o_vols s') (num_points s') (face_list s') (cell_list s' ++ [pts'])).
(** postMesh.hpp:263-334: the constructor *)
Definition post_mesh3 (m : mesh3) : outcome post :=
  do s <- each (copy_point m) (seq 0 (i_nodes m)) (mkPost [] 0 [] [] (i_nodes m) [] []);
  do s <- each copy_edge (i_edges m) s;
  do s <- each (split_face m) (i_faces m) s;
  each (split_cell m) (i_cells m) s.
(** postMesh.hpp:348-352 *)
Definition nodes_cell (s : post) (cell_id : nat) : outcome (list nat) := vat (cell_list s) cell_id.
