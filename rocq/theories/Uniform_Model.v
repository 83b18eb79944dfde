(** Model of loaders/loader_uniform.hpp (1D uniform meshes); coordinates are exact reals. *)
From Coq Require Import List Arith Bool Reals.
From Verif Require Import Common Mesh_Model Elem_Model.
Import ListNotations.

(** storage of generic_mesh<T,1>: mesh_storage.hpp; nodes are their point ids *)
Record storage1 := mkSt { s_points : list R; s_nodes : list nat; s_edges : list gedge; s_binfo : list bdesc }.

(** the three fields m_h, m_x_min, m_x_max and the element count, 42-43; constructors 46-54 *)
Record uloader := mkUL { m_h : R; m_x_min : R; m_x_max : R; m_nelem : nat }.
Definition uloader_make (x_min x_max : R) (N : nat) : uloader :=
  mkUL (Rabs (x_max - x_min) / INR N) x_min x_max N.

(** the loop of lines 71-81, [n] turns left, at index [i] *)
Fixpoint points_loop (l : uloader) (n i : nat) (pts : list R) (edges : list gedge) : outcome (list R * list gedge) :=
  match n with
  | O => Ok (pts, edges)
  | S n =>
    do pts <- vset_at pts i (m_x_min l + m_h l * INR i)%R;
    do pts <- vset_at pts (i + 1) (m_x_min l + m_h l * INR (i + 1))%R;
    do edges <- vset_at edges i (gedge_make i (i + 1));
    points_loop l n (i + 1) pts edges
  end.
(** the loop of lines 83-84 *)
Fixpoint nodes_loop (n i : nat) (nodes : list nat) : outcome (list nat) :=
  match n with
  | O => Ok nodes
  | S n => do nodes <- vset_at nodes i i; nodes_loop n (i + 1) nodes
  end.
(** populate_mesh, 56-92, on an empty mesh; resize fills with default values *)
Definition populate_mesh (l : uloader) : outcome storage1 :=
  let num_edges := m_nelem l in
  let num_nodes := m_nelem l + 1 in
  do pe <- points_loop l num_edges 0 (repeat 0%R num_nodes) (repeat (mkGE [] []) num_edges);
  do nodes <- nodes_loop num_nodes 0 (repeat 0 num_nodes);
  let bi := bd_make 0 true in
  do b <- vset_at (repeat bd_default num_nodes) 0 bi;
  do b <- vset_at b (num_nodes - 1) bi;
  Ok (mkSt (fst pe) nodes (snd pe) b).

(** the stored elements as seen by lookup and the iterators *)
Definition as_mesh (s : storage1) : mesh (list nat) nat := mkMesh (map ge_sub (s_edges s)) (s_nodes s) (s_binfo s).
