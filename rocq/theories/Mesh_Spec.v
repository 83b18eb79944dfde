(** Vocabulary for the statements about lookup, iteration and connectivity. *)
From Coq Require Import List Arith Bool Sorted QArith.
From Verif Require Import Common Mesh_Model.
Import ListNotations.
Local Open Scope nat_scope.

(** [operator<] is a strict total order. *)
Record strict_total_order {E} (ltb : E -> E -> bool) : Prop := {
  sto_irrefl : forall a, ltb a a = false;
  sto_trans : forall a b c, ltb a b = true -> ltb b c = true -> ltb a c = true;
  sto_total : forall a b, ltb a b = false -> ltb b a = false -> a = b
}.

(** Sorted and duplicate free container. *)
Definition sorted_unique {E} (ltb : E -> E -> bool) (l : list E) : Prop :=
  StronglySorted (fun a b => ltb a b = true) l.

(** [i]-th element *)
Definition stored {E} (l : list E) (i : nat) (e : E) : Prop := nth_error l i = Some e.

(** The descriptors that go with the faces, in storage order. *)
Definition select {F} (keep : bdesc -> bool) (fs : list F) (ds : list bdesc) : list F :=
  map fst (filter (fun p => keep (snd p)) (combine fs ds)).

(** Cell number [c] has face [f]. *)
Definition owns {C F} (faces_of : C -> list F) (cells : list C) (c : nat) (f : F) : Prop :=
  exists cl, nth_error cells c = Some cl /\ In f (faces_of cl).

(** Number of (cell, face) incidences of face [f]. *)
Definition incidences {C F} (feq : forall a b : F, {a = b} + {a <> b}) (faces_of : C -> list F)
  (cells : list C) (f : F) : nat :=
  list_sum (map (fun c => count_occ feq (faces_of c) f) cells).

(** Componentwise order of points. *)
Definition ple (p q : list Q) : Prop := Forall2 Qle p q.

(** Well-formed storage: containers sorted without duplicates, one boundary descriptor per face,
    and the faces of every cell are distinct and stored. *)
Record wf_mesh {C F} (cltb : C -> C -> bool) (fltb : F -> F -> bool) (faces_of : C -> list F)
    (m : mesh C F) : Prop := {
  wf_faces : sorted_unique fltb (m_faces m);
  wf_cells : sorted_unique cltb (m_cells m);
  wf_binfo : length (m_binfo m) = length (m_faces m);
  wf_stored : forall c, In c (m_cells m) -> incl (faces_of c) (m_faces m);
  wf_nodup : forall c, In c (m_cells m) -> NoDup (faces_of c)
}.
