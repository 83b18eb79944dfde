(** Vocabulary for the statements about the meshers; independent of how the meshes are built. *)
From Coq Require Import List Arith Bool Reals.
From Verif Require Import Common Mesh_Model Mesh_Spec Mesher_Model.
Import ListNotations.
Local Open Scope R_scope.

(** Coordinates of vertex [v] of the mesh. *)
Definition vertex (s : store) (v : nat) : pt := nth v (s_points s) (fun _ => 0).

(** Sides of the unit square by number: bottom, right, top, left. *)
Definition on_side (k : nat) (p : pt) : Prop :=
  match k with 0%nat => p 1%nat = 0 | 1%nat => p 0%nat = 1 | 2%nat => p 1%nat = 1 | 3%nat => p 0%nat = 0 | _ => False end.
Definition in_square (p : pt) : Prop := 0 <= p 0%nat <= 1 /\ 0 <= p 1%nat <= 1.

(** Area of the triangle of three points. *)
Definition tri_det (a b c : pt) : R := (b 0%nat - a 0%nat) * (c 1%nat - a 1%nat) - (c 0%nat - a 0%nat) * (b 1%nat - a 1%nat).
Definition tri_area (a b c : pt) : R := Rabs (tri_det a b c) / 2.
Definition area_of (s : store) (c : list nat) : R :=
  match c with [a; b; d] => tri_area (vertex s a) (vertex s b) (vertex s d) | _ => 0 end.

Definition rsum (l : list R) : R := fold_right Rplus 0 l.

(** [p] is a convex combination of the vertices [c]. *)
Definition in_hull (s : store) (c : list nat) (p : pt) (dim : nat) : Prop :=
  exists w : list R, length w = length c /\ (forall x, In x w -> 0 <= x) /\ rsum w = 1 /\
    forall i, (i < dim)%nat -> p i = rsum (map (fun wv => fst wv * vertex s (snd wv) i) (combine w c)).

(** A face belongs to one cell when it is marked as boundary, to two otherwise. *)
Definition owners_match (feq : forall a b : list nat, {a = b} + {a <> b}) (faces_of : list nat -> list (list nat))
    (cells faces : list (list nat)) (binfo : list bdesc) : Prop :=
  length binfo = length faces /\
  forall i f d, nth_error faces i = Some f -> nth_error binfo i = Some d ->
    incidences feq faces_of cells f = if bd_is_b d then 1%nat else 2%nat.

(** [a b c d] are the corners of an axis-aligned square of side [h]: [b] and [c] are the neighbours of [a]
    along the two axes (in either order and either direction) and [d] is the corner opposite to [a]. *)
Definition square_cell (h : R) (a b c d : pt) : Prop :=
  exists i j, ((i = 0%nat /\ j = 1%nat) \/ (i = 1%nat /\ j = 0%nat)) /\
    Rabs (b i - a i) = h /\ b j = a j /\ Rabs (c j - a j) = h /\ c i = a i /\ d i = b i /\ d j = c j.
Definition is_square_cell (s : store) (h : R) (c : list nat) : Prop :=
  match c with [x; y; z; w] => square_cell h (vertex s x) (vertex s y) (vertex s z) (vertex s w) | _ => False end.
(** The numbering south-west, south-east, north-west, north-east. *)
Definition sw_se_nw_ne (s : store) (c : list nat) : Prop :=
  match c with
  | [x; y; z; w] =>
      let A := vertex s x in let B := vertex s y in let C := vertex s z in let D := vertex s w in
      A 0%nat < B 0%nat /\ C 0%nat < D 0%nat /\ A 0%nat = C 0%nat /\ B 0%nat = D 0%nat /\
      A 1%nat < C 1%nat /\ B 1%nat < D 1%nat /\ A 1%nat = B 1%nat /\ C 1%nat = D 1%nat
  | _ => False
  end.
(** Area of the parallelogram spanned by the two edges that leave the first vertex. *)
Definition quad_area_of (s : store) (c : list nat) : R :=
  match c with [x; y; z; w] => Rabs (tri_det (vertex s x) (vertex s y) (vertex s z)) | _ => 0 end.

(** ** Three dimensions *)
(** Sides of the unit cube by number: z = 0, y = 0, x = 0, z = 1, y = 1, x = 1. *)
Definition on_cube_side (k : nat) (p : pt) : Prop :=
  match k with
  | 0%nat => p 2%nat = 0 | 1%nat => p 1%nat = 0 | 2%nat => p 0%nat = 0
  | 3%nat => p 2%nat = 1 | 4%nat => p 1%nat = 1 | 5%nat => p 0%nat = 1
  | _ => False
  end.
Definition in_cube (p : pt) : Prop := 0 <= p 0%nat <= 1 /\ 0 <= p 1%nat <= 1 /\ 0 <= p 2%nat <= 1.

(** Volume of the tetrahedron of four points. *)
Definition tet_det (a b c d : pt) : R :=
  let u i := b i - a i in let v i := c i - a i in let w i := d i - a i in
  u 0%nat * (v 1%nat * w 2%nat - v 2%nat * w 1%nat) - u 1%nat * (v 0%nat * w 2%nat - v 2%nat * w 0%nat)
  + u 2%nat * (v 0%nat * w 1%nat - v 1%nat * w 0%nat).
Definition tet_vol (a b c d : pt) : R := Rabs (tet_det a b c d) / 6.
Definition volume_of (s : store) (c : list nat) : R :=
  match c with [x; y; z; w] => tet_vol (vertex s x) (vertex s y) (vertex s z) (vertex s w) | _ => 0 end.
(** The same mesh with other points. *)
Definition with_points (s : store) (pts : list pt) : store :=
  mkS pts (s_nodes s) (s_edges s) (s_surfs s) (s_vols s) (s_binfo s) (s_sub s).
