(** Vocabulary for C194, C195: cells given by a corner and the sides at it. *)
From Coq Require Import Reals List Arith.
From Verif Require Import Poly_Spec Geo_Spec Quad_Spec.
Import ListNotations.
Local Open Scope R_scope.

(** the corner reached from o along u (bit 0 of its number), v (bit 1), w (bit 2) *)
Definition step (b : bool) (u : R) : R := if b then u else 0.
Definition rect_cell (cell : list pt) (o u v : pt) : Prop := length cell = 4%nat /\
  forall bu bv i, (i < 2)%nat -> nth (Nat.b2n bu + 2 * Nat.b2n bv) cell (fun _ => 0) i = o i + step bu (u i) + step bv (v i).
Definition box_cell (cell : list pt) (o u v w : pt) : Prop := length cell = 8%nat /\
  forall bu bv bw i, (i < 3)%nat -> nth (Nat.b2n bu + 2 * Nat.b2n bv + 4 * Nat.b2n bw) cell (fun _ => 0) i = o i + step bu (u i) + step bv (v i) + step bw (w i).
(** area of the parallelogram, volume of the parallelepiped, with sign *)
Definition det2 (u v : pt) : R := u 0%nat * v 1%nat - u 1%nat * v 0%nat.
Definition det3 (u v w : pt) : R :=
  u 0%nat * (v 1%nat * w 2%nat - v 2%nat * w 1%nat) - u 1%nat * (v 0%nat * w 2%nat - v 2%nat * w 0%nat) + u 2%nat * (v 0%nat * w 1%nat - v 1%nat * w 0%nat).
Definition orthogonal3 (u v w : pt) : Prop := sprod 3 u v = 0 /\ sprod 3 v w = 0 /\ sprod 3 w u = 0.
Definition nonzero3 (u : pt) : Prop := u 0%nat <> 0 \/ u 1%nat <> 0 \/ u 2%nat <> 0.
