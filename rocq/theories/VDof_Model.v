(** Model of the numbering of the unknowns of the virtual element method: faces_ccw and dof_mapper of
    methods/implementation_vem/methods_vem_2d.hpp (lines 24-183).

    An edge is the list of its two point numbers, which is what its operator< compares and what point_ids() returns;
    for generic meshes this is so when the node numbers are the point numbers in increasing order, as faces_ccw asserts
    (89-90).  Numbers are natural numbers and do not wrap. *)
From Coq Require Import List Arith Bool.
From Verif Require Import Common Mesh_Model Elem_Model Mesher_Model Single_Model Asm_Model.
Import ListNotations.

Notation edge := (list nat).

(** faces_ccw of a triangle, 35-49: [t] is cl.point_ids() *)
Definition tri_faces_ccw (t : list nat) : outcome (list (edge * bool)) :=
  let fcs := tri_faces t in
  do f0 <- vget fcs 0; do f1 <- vget fcs 1; do f2 <- vget fcs 2;
  Ok [(f0, false); (f1, false); (f2, true)].
(** of a quadrangle of a cartesian mesh, 51-66 *)
Definition quad_faces_ccw (t : list nat) : outcome (list (edge * bool)) :=
  let fcs := quad_faces t in
  do f0 <- vget fcs 0; do f2 <- vget fcs 2; do f3 <- vget fcs 3; do f1 <- vget fcs 1;
  Ok [(f0, false); (f2, false); (f3, true); (f1, true)].
(** of a cell of a generic mesh, 69-103; the inner loop is over the faces of the cell *)
Definition match_face (n0 n1 : nat) (flipped : bool) (fc : edge) (reorder : list (edge * bool)) : outcome (list (edge * bool)) :=
  do a <- vget fc 0; do b <- vget fc 1;
  Ok (if (a =? n0) && (b =? n1) then reorder ++ [(fc, flipped)] else reorder).
Definition poly_step (fcs : list edge) (ptids : list nat) (i : nat) (reorder : list (edge * bool)) : outcome (list (edge * bool)) :=
  do n0 <- vget ptids i; do n1 <- vget ptids ((i + 1) mod length ptids);
  let '(n0, n1, flipped) := if n1 <? n0 then (n1, n0, true) else (n0, n1, false) in
  floop (match_face n0 n1 flipped) fcs reorder.
Definition poly_faces_ccw (es : list edge) (cl : gcell) : outcome (list (edge * bool)) :=
  do fcs <- faces_by_id es (gc_faces cl);
  floop (poly_step fcs (gc_pts cl)) (seq 0 (length (gc_pts cl))) [].

(** the tables of a dof_mapper, 107-110; the map from face numbers holds one entry per key *)
Record mapper := mkDM { byface : list (list nat); bycell : list (list nat); bndfaces : list (nat * list nat) }.
Definition empty_mapper : mapper := mkDM [] [] [].
Fixpoint map_set (m : list (nat * list nat)) (key : nat) (x : list nat) : list (nat * list nat) :=
  match m with
  | [] => [(key, x)]
  | (a, y) :: r => if a =? key then (key, x) :: r else (a, y) :: map_set r key x
  end.
Fixpoint map_find (m : list (nat * list nat)) (key : nat) : option (list nat) :=
  match m with [] => None | (a, y) :: r => if a =? key then Some y else map_find r key end.

Section Mapper.
  Context {C : Type}.
  Variable faces_ccw : C -> outcome (list (edge * bool)).
  (** points_size(), faces(msh) and boundary_info, cells *)
  Record vmesh := mkVM { vm_points : nat; vm_faces : list edge; vm_binfo : list bdesc; vm_cells : list C }.

  (** the unknowns of the edges, 125-133; the state is (pts_base, l2g_byface) *)
  Definition own_step (i : nat) (st : nat * list nat) : outcome (nat * list nat) :=
    let '(pts_base, l2g) := st in do l2g <- vset l2g i pts_base; Ok (S pts_base, l2g).
  Definition face_step (k : nat) (fc : edge) (st : nat * list (list nat)) : outcome (nat * list (list nat)) :=
    let '(pts_base, faces) := st in
    let l2g := repeat 0 (k + 1) in
    do p0 <- vget fc 0; do l2g <- vset l2g 0 p0;
    do r <- floop own_step (seq 1 (k - 1)) (pts_base, l2g);
    let '(pts_base, l2g) := r in
    do p1 <- vget fc 1; do l2g <- vset l2g k p1;
    Ok (pts_base, faces ++ [l2g]).
  (** one face of a cell, 143-163; the state is (cl_l2g, bnd_face_dofs) *)
  Definition side_step (m : vmesh) (bf : list (list nat)) (ff : edge * bool) (st : list nat * list (nat * list nat)) : outcome (list nat * list (nat * list nat)) :=
    let '(fc, flip) := ff in let '(cl_l2g, bnd) := st in
    do fcofs <- offset edge lex_ltb (vm_faces m) fc;
    do l2g <- vget bf fcofs;
    let dir := if flip : bool then rev l2g else l2g in
    let cl_l2g := cl_l2g ++ removelast dir in
    do fid <- lookup edge lex_ltb (vm_faces m) fc;
    do bi <- vat (vm_binfo m) fid;
    let bnd := if bd_is_b bi && negb (bd_is_int bi) then map_set bnd fcofs dir else bnd in
    Ok (cl_l2g, bnd).
  Definition cell_step (m : vmesh) (bf : list (list nat)) (cl : C) (st : list (list nat) * list (nat * list nat)) : outcome (list (list nat) * list (nat * list nat)) :=
    let '(cells, bnd) := st in
    do fcs <- faces_ccw cl;
    do r <- floop (side_step m bf) fcs ([], bnd);
    let '(cl_l2g, bnd) := r in
    Ok (cells ++ [cl_l2g], bnd).
  (** recompute, 117-167: the tables are not cleared *)
  Definition recompute (m : vmesh) (k : nat) (d : mapper) : outcome mapper :=
    if k <? 1 then Throw InvalidArgument
    else
      do r <- floop (face_step k) (vm_faces m) (vm_points m, byface d);
      let bf := snd r in
      do s <- floop (cell_step m bf) (vm_cells m) (bycell d, bndfaces d);
      Ok (mkDM bf (fst s) (snd s)).
  (** the constructor, 113-115 *)
  Definition dof_mapper (m : vmesh) (k : nat) : outcome mapper := recompute m k empty_mapper.
  (** 169-182 *)
  Definition face_to_global (d : mapper) (i : nat) : outcome (list nat) := vget (byface d) i.
  Definition cell_to_global (d : mapper) (i : nat) : outcome (list nat) := vget (bycell d) i.
  Definition bnd_to_global (d : mapper) (i : nat) : list nat := match map_find (bndfaces d) i with Some l => l | None => [] end.
End Mapper.
Arguments vmesh : clear implicits.
