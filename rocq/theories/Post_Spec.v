(** Vocabulary for C196-C197: meshes given by numbered points. *)
From Coq Require Import Reals List Permutation.
From Verif Require Import Poly_Spec Quad_Spec Geo_Spec Shape_Spec Polyh_Spec Post_Model.
Import ListNotations.
Open Scope R_scope.

(** the point of number i, the points of an element *)
Definition coord (P : list pt) (i : nat) : pt := nth i P (fun _ => 0).
Definition coords (P : list pt) (ids : list nat) : list pt := map (coord P) ids.
(** one node per point, numbers in range, polygonal faces, non-empty cells *)
Definition valid_mesh (m : mesh3) : Prop :=
  i_nodes m = length (i_points m) /\
  (forall e, In e (i_edges m) -> length e = 2%nat) /\
  (forall f, In f (i_faces m) -> (3 <= length f)%nat /\ forall i, In i f -> (i < length (i_points m))%nat) /\
  (forall c, In c (i_cells m) -> fst c <> [] /\ (forall i, In i (fst c) -> (i < length (i_points m))%nat) /\
     forall f, In f (snd c) -> (f < length (i_faces m))%nat).
(** x is in the closed tetrahedron whose vertices have the four numbers of t, in any order *)
Definition in_numbered (P : list pt) (t : list nat) (x : pt) : Prop := exists a b c d, Permutation t [a; b; c; d] /\
  in_tetra (coord P a) (coord P b) (coord P c) (coord P d) x.
(** the mean of some points *)
Definition is_mean (pts : list pt) (b : pt) : Prop := forall k, b k = sumR (map (fun q => q k) pts) / INR (length pts).
(** the faces of a cell of the mesh, with their directions *)
Definition cell_faces (m : mesh3) (flags : list bool) (c : list nat * list nat) : list oface :=
  combine flags (map (fun f => coords (i_points m) (nth f (i_faces m) [])) (snd c)).
Definition big_face (m : mesh3) (f : nat) : bool := Nat.ltb 3 (length (nth f (i_faces m) [])).
(** y is in the closed triangle with these numbers *)
Definition in_numbered_triangle (P : list pt) (t : nat * nat * nat) (y : pt) : Prop := in_triangle3 (coord P (fst (fst t))) (coord P (snd (fst t))) (coord P (snd t)) y.
