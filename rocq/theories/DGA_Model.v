(** Model of methods/implementation_dga/methods_dga.hpp: the discrete geometric approach on tetrahedra.
    Coordinates are real numbers.  The vertices of an element are the array of its point identifiers
    (two, three or four by type); [P] gives the points of the mesh.  Small fixed matrices are lists of
    columns.  integrate_on_primal_faces and integrate_on_dual_faces on a triangle call functions that do
    not exist and integrate_on_primal_faces on a tetrahedron writes a fourth entry into a vector of
    three; they are not modelled. *)
From Coq Require Import Reals List Arith Bool.
From Verif Require Import Common Poly_Spec Quad_Model Geo_Model Elem_Model Mesh_Model.
Import ListNotations.
Open Scope R_scope.

(** point_ids()[i] *)
Definition pid (e : list nat) (i : nat) : nat := nth i e 0%nat.
(** edge_type({..}), surface_type({..}): element_simplicial.hpp:56-60 *)
Definition simplex (l : list nat) : list nat := std_sort Nat.ltb l.
(** 125-141, 143-162 *)
Definition edges_surf (s : list nat) : list (list nat) :=
  [simplex [pid s 0; pid s 1]; simplex [pid s 0; pid s 2]; simplex [pid s 1; pid s 2]].
Definition edges_vol (v : list nat) : list (list nat) :=
  [simplex [pid v 0; pid v 1]; simplex [pid v 0; pid v 2]; simplex [pid v 0; pid v 3];
   simplex [pid v 1; pid v 2]; simplex [pid v 1; pid v 3]; simplex [pid v 2; pid v 3]].
(** geometry_simplicial.hpp:140-158 *)
Definition faces_vol (v : list nat) : list (list nat) :=
  [simplex [pid v 1; pid v 2; pid v 3]; simplex [pid v 0; pid v 2; pid v 3];
   simplex [pid v 0; pid v 1; pid v 3]; simplex [pid v 0; pid v 1; pid v 2]].
(** offset of an edge 184-194: lower_bound, then a comparison *)
Definition edge_offset (edges : list (list nat)) (e : list nat) : outcome nat :=
  do i <- lower_bound (list nat) lex_ltb edges e;
  match nth_error edges i with
  | None => Throw InvalidArgument
  | Some f => if arr_eqb f e then Ok i else Throw InvalidArgument
  end.
(** edge_ids 196-221 *)
Fixpoint offsets (edges : list (list nat)) (es : list (list nat)) : outcome (list nat) :=
  match es with [] => Ok [] | e :: es => do i <- edge_offset edges e; do l <- offsets edges es; Ok (i :: l) end.
Definition edge_ids_surf (edges : list (list nat)) (s : list nat) : outcome (list nat) := offsets edges (edges_surf s).
Definition edge_ids_vol (edges : list (list nat)) (v : list nat) : outcome (list nat) := offsets edges (edges_vol v).

(** array element [i] *)
Definition vnth (l : list pt) (i : nat) : pt := nth i l (fun _ => 0).
Notation pneg := (pscale (-1)).

Section Geometry.
  Context (P : nat -> pt).
  Definition P_ (e : list nat) (i : nat) : pt := P (pid e i).
  (** 91-119 *)
  Definition volume_signed (v : list nat) : R :=
    dot 3 (psubt (P_ v 1) (P_ v 0)) (vcross (psubt (P_ v 2) (P_ v 0)) (psubt (P_ v 3) (P_ v 0))) / 6.
  Definition volume_unsigned (v : list nat) : R :=
    Rabs (dot 3 (psubt (P_ v 1) (P_ v 0)) (vcross (psubt (P_ v 2) (P_ v 0)) (psubt (P_ v 3) (P_ v 0))) / 6).
  (** primal_edge_vectors 226-273 *)
  Definition pev_edge (e : list nat) : pt := psubt (P_ e 1) (P_ e 0).
  Definition pev_surf (s : list nat) : list pt := [psubt (P_ s 1) (P_ s 0); psubt (P_ s 2) (P_ s 0); psubt (P_ s 2) (P_ s 1)].
  Definition pev_vol (v : list nat) : list pt :=
    [psubt (P_ v 1) (P_ v 0); psubt (P_ v 2) (P_ v 0); psubt (P_ v 3) (P_ v 0);
     psubt (P_ v 2) (P_ v 1); psubt (P_ v 3) (P_ v 1); psubt (P_ v 3) (P_ v 2)].
  (** primal_area_vectors 276-301 *)
  Definition pav_vol (v : list nat) : list pt :=
    let evecs := map pev_edge (edges_vol v) in
    [pscale (/ 2) (vcross (vnth evecs 3) (vnth evecs 4)); pscale (/ 2) (vcross (vnth evecs 1) (vnth evecs 2));
     pscale (/ 2) (vcross (vnth evecs 0) (vnth evecs 2)); pscale (/ 2) (vcross (vnth evecs 0) (vnth evecs 1))].
  (** barycenter of an element (geometry_all.hpp:117-124); the arrays are not empty *)
  Definition bary (e : list nat) : pt := match barycenter (map P e) with Ok p => p | _ => fun _ => 0 end.
  (** dual_edge_vectors of a face seen from a volume, 304-341 *)
  Definition dev_surf (t parent : list nat) : outcome (list pt) :=
    let negative := if Rlt_dec (volume_signed parent) 0 then true else false in
    let fcs := faces_vol parent in
    let same i := arr_eqb (nth i fcs []) t in
    let face := if same 3%nat then Some 3%nat else if same 2%nat then Some 2%nat else if same 1%nat then Some 1%nat
                else if same 0%nat then Some 0%nat else None in
    match face with
    | None => Throw InvalidArgument
    | Some face =>
      let p := negb negative && ((face =? 0)%nat || (face =? 2)%nat) in
      let q := negative && ((face =? 1)%nat || (face =? 3)%nat) in
      let sign := if p || q then 1 else -1 in
      let fb := bary t in
      let es := edges_surf t in
      Ok [pscale sign (psubt fb (bary (nth 0 es []))); pscale sign (psubt fb (bary (nth 1 es [])));
          pscale sign (pneg (psubt fb (bary (nth 2 es []))))]
    end.
  (** dual_edge_vectors of a volume, 364-387 *)
  Definition dev_vol (v : list nat) : list pt :=
    let fb := map bary (faces_vol v) in
    let vb := bary v in
    let sign := if Rlt_dec (volume_signed v) 0 then -1 else 1 in
    [pscale sign (psubt (vnth fb 0) vb); pscale sign (psubt vb (vnth fb 1)); pscale sign (psubt (vnth fb 2) vb); pscale sign (psubt vb (vnth fb 3))].
  (** dual_area_vectors 391-423 *)
  Definition dav_vol (v : list nat) : list pt :=
    let ebs := map bary (edges_vol v) in
    let fbs := map bary (faces_vol v) in
    let vb := bary v in
    let sign := if Rlt_dec (volume_signed v) 0 then - / 2 else / 2 in
    let area i a b := pscale sign (vcross (psubt vb (vnth ebs i)) (psubt (vnth fbs a) (vnth fbs b))) in
    [area 0%nat 2%nat 3%nat; area 1%nat 3%nat 1%nat; area 2%nat 1%nat 2%nat; area 3%nat 0%nat 3%nat; area 4%nat 2%nat 0%nat; area 5%nat 0%nat 1%nat].
  (** integrate_on_primal_edges 428-458, integrate_on_dual_edges 512-527, integrate_on_dual_faces 546-561 *)
  Definition integrate_on (vectors : list pt) (f : pt) : list R := map (fun x => dot 3 f x) vectors.
  (** normals 566-613; dividing by a zero norm gives [None] (NaN) *)
  Definition unit (p : pt) : option pt := if Req_EM_T (norm 3 p) 0 then None else Some (pscale (/ norm 3 p) p).
  Definition normals_surf (t : list nat) : list (option pt) :=
    let pev := pev_surf t in
    let normal := vcross (vnth pev 0) (vnth pev 2) in
    [unit (vcross (vnth pev 0) normal); unit (vcross (vnth pev 1) normal); unit (pneg (vcross (vnth pev 2) normal))].
  Definition normals_vol (t : list nat) : list (option pt) :=
    let pav := pav_vol t in
    let neg o := match o with Some p => Some (pneg p) | None => None end in
    if Rlt_dec 0 (volume_signed t) then
      [unit (vnth pav 0); neg (unit (vnth pav 1)); unit (vnth pav 2); neg (unit (vnth pav 3))]
    else
      [neg (unit (vnth pav 0)); unit (vnth pav 1); neg (unit (vnth pav 2)); unit (vnth pav 3)].
End Geometry.

(** grad_matrix 633-646, curl_matrix 648-659: lists of rows as written *)
Definition grad_matrix : list (list R) :=
  [[-1;  1;  0;  0];
   [-1;  0;  1;  0];
   [-1;  0;  0;  1];
   [ 0; -1;  1;  0];
   [ 0; -1;  0;  1];
   [ 0;  0; -1;  1]].
Definition curl_matrix : list (list R) :=
  [[ 0;  0;  0;  1; -1;  1];
   [ 0;  1; -1;  0;  0;  1];
   [ 1;  0; -1;  0;  1;  0];
   [ 1; -1;  0;  1;  0;  0]].

(** edge_matrix_simplicial_element 666-716 *)
Definition edge_element (pav Ppav : list pt) : list (list R) :=
  let d i j := dot 3 (vnth pav i) (vnth Ppav j) in
  let r10 := - d 1%nat 2%nat in let r20 := d 1%nat 3%nat in let r30 := - d 0%nat 2%nat in let r40 := d 0%nat 3%nat in
  let r21 := - d 2%nat 3%nat in let r31 := - d 0%nat 1%nat in let r51 := d 0%nat 3%nat in
  let r42 := - d 0%nat 1%nat in let r52 := d 0%nat 2%nat in
  let r43 := - d 2%nat 3%nat in let r53 := - d 1%nat 3%nat in
  let r54 := - d 1%nat 2%nat in
  [[d 0%nat 0%nat + d 1%nat 1%nat; r10; r20; r30; r40; 0];
   [r10; d 0%nat 0%nat + d 2%nat 2%nat; r21; r31; 0; r51];
   [r20; r21; d 0%nat 0%nat + d 3%nat 3%nat; 0; r42; r52];
   [r30; r31; 0; d 1%nat 1%nat + d 2%nat 2%nat; r43; r53];
   [r40; 0; r42; r43; d 1%nat 1%nat + d 3%nat 3%nat; r54];
   [0; r51; r52; r53; r54; d 2%nat 2%nat + d 3%nat 3%nat]].
(** face_matrix_simplicial_element 719-748 *)
Definition face_element (pev Ppev : list pt) : list (list R) :=
  let d i j := dot 3 (vnth pev i) (vnth Ppev j) in
  let r10 := - d 3%nat 1%nat - d 4%nat 2%nat in let r20 := - d 3%nat 0%nat + d 5%nat 2%nat in let r30 := d 4%nat 0%nat + d 5%nat 1%nat in
  let r21 := - d 1%nat 0%nat - d 5%nat 4%nat in let r31 := d 2%nat 0%nat - d 3%nat 5%nat in
  let r32 := - d 2%nat 1%nat - d 4%nat 3%nat in
  [[d 0%nat 0%nat + d 1%nat 1%nat + d 2%nat 2%nat; r10; r20; r30];
   [r10; d 0%nat 0%nat + d 3%nat 3%nat + d 4%nat 4%nat; r21; r31];
   [r20; r21; d 1%nat 1%nat + d 3%nat 3%nat + d 5%nat 5%nat; r32];
   [r30; r31; r32; d 2%nat 2%nat + d 4%nat 4%nat + d 5%nat 5%nat]].
(** a 3x3 matrix times a vector; a 3x3 matrix divided by a number *)
Definition tmul (k : nat -> nat -> R) (p : pt) : pt := fun i => dot 3 (k i) p.
Definition tdiv (k : nat -> nat -> R) (c : R) : nat -> nat -> R := fun i j => k i j / c.
(** edge_matrix 752-783, face_matrix 785-816, with a scalar and with a tensor *)
Definition edge_matrix_scalar (P : nat -> pt) (v : list nat) (k : R) : list (list R) :=
  let mult := k / (36 * volume_unsigned P v) in let pav := pav_vol P v in edge_element pav (map (pscale mult) pav).
Definition edge_matrix (P : nat -> pt) (v : list nat) (k : nat -> nat -> R) : list (list R) :=
  let mult := tdiv k (36 * volume_unsigned P v) in let pav := pav_vol P v in edge_element pav (map (tmul mult) pav).
Definition face_matrix_scalar (P : nat -> pt) (v : list nat) (k : R) : list (list R) :=
  let mult := k / (36 * volume_unsigned P v) in let pev := pev_vol P v in face_element pev (map (pscale mult) pev).
Definition face_matrix (P : nat -> pt) (v : list nat) (k : nat -> nat -> R) : list (list R) :=
  let mult := tdiv k (36 * volume_unsigned P v) in let pev := pev_vol P v in face_element pev (map (tmul mult) pev).
