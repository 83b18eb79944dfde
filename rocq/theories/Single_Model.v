(** Model of the make_single_element_mesh family, mesh/meshgen.hpp:864-1140.
    Coordinates are exact reals; the storage is the record of Mesher_Model. *)
From Coq Require Import List Arith Bool Reals.
From Verif Require Import Common Mesh_Model Elem_Model Mesher_Model.
Import ListNotations.
Local Open Scope nat_scope.

(** 902-932: one triangle.  boundary_info is not resized. *)
Definition single_triangle (a b c : pt) : store :=
  mkS [a; b; c] [0; 1; 2] [sord [0; 1]; sord [0; 2]; sord [1; 2]] [sord [0; 1; 2]] [] [] 1.

(** 934-981: one tetrahedron.  The surfaces are not sorted, there are no nodes and no boundary_info. *)
Definition single_tetra (a b c d : pt) : store :=
  mkS [a; b; c; d] []
    [sord [0; 1]; sord [0; 2]; sord [1; 2]; sord [0; 3]; sord [1; 3]; sord [2; 3]]
    [sord [0; 1; 2]; sord [0; 1; 3]; sord [1; 2; 3]; sord [0; 2; 3]]
    [sord [0; 1; 2; 3]] [] 1.

(** 983-1017: one rectangle *)
Definition single_rect (base : pt) (hx hy : R) : store :=
  let x := base 0 in let y := base 1 in
  mkS [pt2 x y; pt2 (x + hx) y; pt2 x (y + hy); pt2 (x + hx) (y + hy)] [0; 1; 2; 3]
    [[0; 1]; [0; 3]; [1; 2]; [2; 3]] [[0; 1; 2; 3]] [] [] 1.

(** 1020-1083: one box *)
Definition single_box (base : pt) (hx hy hz : R) : store :=
  let x := base 0 in let y := base 1 in let z := base 2 in
  mkS [pt3 x y z; pt3 (x + hx) y z; pt3 x (y + hy) z; pt3 (x + hx) (y + hy) z;
       pt3 x y (z + hz); pt3 (x + hx) y (z + hz); pt3 x (y + hy) (z + hz); pt3 (x + hx) (y + hy) (z + hz)]
    [0; 1; 2; 3; 4; 5; 6; 7]
    (std_sort lex_ltb [[0;1]; [0;2]; [1;3]; [2;3]; [0;4]; [1;5]; [3;7]; [2;6]; [4;6]; [6;7]; [4;5]; [5;7]])
    (std_sort lex_ltb [[0;1;3;2]; [4;5;7;6]; [0;2;6;4]; [1;3;7;5]; [0;1;5;4]; [2;3;7;6]])
    [[0; 1; 2; 3; 4; 5; 6; 7]] [] 1.

(** faces(msh, cl) of a hexahedron, geometry_hexahedral.hpp:168-188 *)
Definition box_faces (t : list nat) : list (list nat) :=
  match t with
  | [p0; p1; p2; p3; p4; p5; p6; p7] =>
      [[p0; p2; p6; p4]; [p1; p3; p7; p5]; [p0; p1; p3; p2]; [p4; p5; p7; p6]; [p0; p4; p5; p1]; [p2; p6; p7; p3]]
  | _ => []
  end.

(** Generic meshes: cells list the ids of their faces (element_generic.hpp:72-160) and their points. *)
Record gcell := mkGC { gc_faces : list nat; gc_pts : list nat }.
Definition gcell_ltb (a b : gcell) : bool := lex_ltb (gc_faces a) (gc_faces b).      (* 186-189 *)
Record gstore := mkG { g_points : list pt; g_edges : list gedge; g_surfs : list gcell; g_binfo : list bdesc; g_sub : nat }.

(** 1086-1140: one regular polygon; with fewer than three faces the mesh is left empty *)
Definition polygon_edge (n i : nat) : gedge :=
  let n0 := i in let n1 := (i + 1) mod n in
  if i + 1 =? n then gedge_make n1 n0 else gedge_make n0 n1.
Definition single_polygon (radius : R) (n : nat) : gstore :=
  if n <? 3 then mkG [] [] [] [] 0
  else
    let es := map (polygon_edge n) (seq 0 n) in
    mkG (map (fun k => pt2 (radius * cos (2 * INR k * PI / INR n)) (radius * sin (2 * INR k * PI / INR n))) (seq 0 n))
        (std_sort gedge_ltb es) [mkGC (seq 0 n) (seq 0 n)] (map (fun _ => bd_make 0 true) es) 1.

(** faces(msh, cl) of a generic mesh, geometry_generic.hpp:91-109 *)
Fixpoint faces_by_id {F} (fs : list F) (ids : list nat) : outcome (list F) :=
  match ids with [] => Ok [] | i :: r => do f <- vget fs i; do r' <- faces_by_id fs r; Ok (f :: r') end.

(** 866-900: one interval.  The faces are the two nodes, the cell is an edge; nodes are compared by
    their point (element_generic.hpp:219-222). *)
Record istore := mkI { i_points : list R; i_nodes : list nat; i_edges : list gedge; i_binfo : list bdesc }.
Definition single_interval (a b : R) : istore :=
  mkI [a; b] [0; 1] [gedge_make 0 1] [bd_make 0 true; bd_make 0 true].
