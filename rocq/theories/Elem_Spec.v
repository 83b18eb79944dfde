(** Vocabulary for the statements about mesh elements and sorted containers. *)
From Coq Require Import List Arith Bool.
From Verif Require Import Common.
Import ListNotations.

(** Two vertex lists describe the same set of vertices. *)
Definition same_set {E} (a b : list E) : Prop := forall x, In x a <-> In x b.

(** An equality test that never fails and decides equality. *)
Definition decides_eq {E} (eqb : E -> E -> outcome bool) : Prop :=
  forall a b, exists r, eqb a b = Ok r /\ (r = true <-> a = b).
