(** What it means that a plane mesh is that of a file of polygons. *)
From Coq Require Import List Arith Bool Sorted.
From Verif Require Import Common Mesh_Model Mesh_Spec Conn_Model Conn_Spec Load_Spec Plane_Model.
Import ListNotations.
Local Open Scope nat_scope.

(** [a] and [b] are consecutive corners of the polygon [ns], which is closed. *)
Definition consecutive (ns : list nat) (a b : nat) : Prop :=
  exists i, i < length ns /\ nth_error ns i = Some a /\ nth_error ns (if S i =? length ns then 0 else S i) = Some b.
(** The edge of the mesh between the points [a] and [b] of the file (counted from 1) *)
Definition joins (e : list nat) (a b : nat) : Prop := e = [Nat.min a b - 1; Nat.max a b - 1].
Definition same_ends (a b c d : nat) : Prop := (a = c /\ b = d) \/ (a = d /\ b = c).

(** A cell of the mesh: its points, and the positions of its edges in increasing order *)
Definition cell_of (edges : list (list nat)) (ns : list nat) (is_edge : list nat -> Prop) (x : gelem) : Prop :=
  g_pts x = map (fun v => v - 1) ns /\ StronglySorted lt (g_sub x) /\
  forall j, In j (g_sub x) <-> exists e, nth_error edges j = Some e /\ is_edge e.

(** ** medit *)
Definition m2_side (ns : list nat) (e : list nat) : Prop := exists a b, consecutive ns a b /\ joins e a b.
Definition m2_item (f : medit2_file) (edges : list (list nat)) (k : nat) (x : gelem) : Prop :=
  exists ns id, nth_error (m2_polys f) k = Some (ns, id) /\ cell_of edges ns (m2_side ns) x.

(** ** fvca5 *)
Definition f5_polys (bs : list f5_block) : list (list nat * nat) :=
  flat_map (fun b => match b with FPolys l => l | _ => [] end) bs.
Definition f5_bnds (bs : list f5_block) : list (nat * nat) :=
  flat_map (fun b => match b with FBoundary l => l | _ => [] end) bs.
Definition f5_edges (bs : list f5_block) : list f5_edge :=
  flat_map (fun b => match b with FEdges l => l | _ => [] end) bs.

(** polygon number [k] (from 0) is a neighbour of the edge *)
Definition neighbour (x : f5_edge) (k : nat) : Prop := e5_l x = S k \/ e5_r x = S k.
Definition ends_ok (a b : nat) : Prop := 1 <= a /\ 1 <= b /\ a <> b.
Definition listed (bs : list f5_block) (x : f5_edge) : Prop :=
  exists a b, In (a, b) (f5_bnds bs) /\ same_ends a b (e5_a x) (e5_b x).

(** Every edge has two different ends, and polygons stand before the edges that refer to them. *)
Record f5_readable (bs : list f5_block) : Prop := {
  v5_edges : Forall (fun x => ends_ok (e5_a x) (e5_b x)) (f5_edges bs);
  v5_bnds : Forall (fun b => ends_ok (fst b) (snd b)) (f5_bnds bs);
  v5_order : forall pre l post, bs = pre ++ FEdges l :: post ->
    Forall (fun x => e5_l x <= length (f5_polys pre) /\ e5_r x <= length (f5_polys pre)) l
}.

Record f5_valid (bs : list f5_block) : Prop := {
  v5_readable : f5_readable bs;
  (* every edge is given once *)
  v5_once : forall i j x y, nth_error (f5_edges bs) i = Some x -> nth_error (f5_edges bs) j = Some y ->
    same_ends (e5_a x) (e5_b x) (e5_a y) (e5_b y) -> i = j;
  (* boundary edges are edges *)
  v5_known : Forall (fun b => exists x, In x (f5_edges bs) /\ same_ends (fst b) (snd b) (e5_a x) (e5_b x)) (f5_bnds bs);
  (* no two polygons have the same edges *)
  v5_cells : forall k k', k < length (f5_polys bs) -> k' < length (f5_polys bs) ->
    (forall x, In x (f5_edges bs) -> (neighbour x k <-> neighbour x k')) -> k = k'
}.

Definition f5_edge_item (bs : list f5_block) (i : nat) (e : list nat) : Prop :=
  exists x, nth_error (f5_edges bs) i = Some x /\ joins e (e5_a x) (e5_b x).
Definition f5_cell_item (bs : list f5_block) (edges : list (list nat)) (k : nat) (x : gelem * nat) : Prop :=
  exists ns, nth_error (f5_polys bs) k = Some (ns, snd x) /\
    cell_of edges ns (fun e => exists y, In y (f5_edges bs) /\ neighbour y k /\ joins e (e5_a y) (e5_b y)) (fst x).

(** The file gives every polygon its own sides as edges. *)
Definition f5_closed (bs : list f5_block) : Prop :=
  forall k ns id, nth_error (f5_polys bs) k = Some (ns, id) -> Forall (fun v => 1 <= v) ns /\
    forall a b, (exists a' b', consecutive ns a' b' /\ same_ends a' b' a b) <->
                (exists x, In x (f5_edges bs) /\ neighbour x k /\ same_ends (e5_a x) (e5_b x) a b).

(** [k] is the only neighbour of the edge *)
Definition only_neighbour (x : f5_edge) (k : nat) : Prop := neighbour x k /\ forall k', neighbour x k' -> k' = k.

(** The descriptor of every edge of the file.  [outer_known]: boundary_number knows the side of every edge with one neighbour only. *)
Definition outer_known (bs : list f5_block) (cells : list gelem) (pv : nat -> nat) (bnum : list nat -> list nat -> option nat) : Prop :=
  forall x k e c, In x (f5_edges bs) -> only_neighbour x k -> joins e (e5_a x) (e5_b x) -> nth_error cells (pv k) = Some c -> bnum (g_sub c) e <> None.

Definition f5_described (bs : list f5_block) (cells : list gelem) (pe pv : nat -> nat) (bnum : list nat -> list nat -> option nat) (bi : list bdesc) : Prop :=
  length bi = length (f5_edges bs) /\
  forall i x, nth_error (f5_edges bs) i = Some x ->
    (* between two polygons *)
    (forall k k', neighbour x k -> neighbour x k' -> k <> k' ->
       (listed bs x -> nth_error bi (pe i) = Some (mkB 0 0 true true)) /\
       (~ listed bs x -> nth_error bi (pe i) = Some (mkB 0 0 false false))) /\
    (* of one polygon *)
    (forall k, only_neighbour x k ->
       (outer_known bs cells pv bnum -> forall c e s, nth_error cells (pv k) = Some c -> joins e (e5_a x) (e5_b x) -> bnum (g_sub c) e = Some s ->
          nth_error bi (pe i) = Some (mkB s s true false)) /\
       (~ outer_known bs cells pv bnum ->
          (listed bs x -> nth_error bi (pe i) = Some (mkB 0 0 true false)) /\
          (~ listed bs x -> nth_error bi (pe i) = Some (mkB 0 0 false false)))) /\
    (* of none *)
    ((forall k, ~ neighbour x k) ->
       (listed bs x -> nth_error bi (pe i) = Some (mkB 0 0 true false)) /\
       (~ listed bs x -> nth_error bi (pe i) = Some (mkB 0 0 false false))).

(** Some edge refers to a polygon that does not stand before it. *)
Definition f5_dangling (bs : list f5_block) : Prop :=
  exists pre l post l1 x l2, bs = pre ++ FEdges l :: post /\ l = l1 ++ x :: l2 /\ ends_ok (e5_a x) (e5_b x) /\
    (length (f5_polys pre) < e5_l x \/ length (f5_polys pre) < e5_r x) /\
    (* and what stands before it is readable *)
    f5_readable (pre ++ [FEdges l1]).
