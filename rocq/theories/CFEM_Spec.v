(** Affine functions of the plane and forms on them. *)
From Coq Require Import Reals.
From Verif Require Import Poly_Spec Quad_Spec.
Open Scope R_scope.
(** x |-> c + g . x *)
Definition aff (c g0 g1 : R) (x : pt) : R := c + g0 * x 0%nat + g1 * x 1%nat.
Definition degenerate (p0 p1 p2 : pt) : Prop := cross2 p0 p1 p2 = 0.
Definition sum3 (f : nat -> R) : R := f 0%nat + f 1%nat + f 2%nat.
Definition form3 (M : nat -> nat -> R) (u v : nat -> R) : R := sum3 (fun i => sum3 (fun j => u i * M i j * v j)).
(** a 2x2 tensor applied to g, times h *)
Definition form2 (k : nat -> nat -> R) (h0 h1 g0 g1 : R) : R :=
  h0 * (k 0%nat 0%nat * g0 + k 0%nat 1%nat * g1) + h1 * (k 1%nat 0%nat * g0 + k 1%nat 1%nat * g1).
Definition area (p0 p1 p2 : pt) : R := Rabs (cross2 p0 p1 p2) / 2.
Definition vertex (p0 p1 p2 : pt) (i : nat) : pt := match i with 0%nat => p0 | 1%nat => p1 | _ => p2 end.
