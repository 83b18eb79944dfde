(** Domains of integration for the quadrature properties. *)
From Coq Require Import Reals.
From Verif Require Import Poly_Spec.
Open Scope R_scope.

(** cross product of b - a and c - a (plane vectors) *)
Definition cross2 (a b c : pt) : R :=
  (b 0%nat - a 0%nat) * (c 1%nat - a 1%nat) - (b 1%nat - a 1%nat) * (c 0%nat - a 0%nat).

(** p0 p1 p2 p3 is a convex quadrangle, listed counterclockwise (degenerate
    corners allowed) *)
Definition convex_ccw (p0 p1 p2 p3 : pt) : Prop :=
  0 <= cross2 p0 p1 p3 /\ 0 <= cross2 p1 p2 p0 /\ 0 <= cross2 p2 p3 p1 /\ 0 <= cross2 p3 p0 p2.

Definition parallelogram (D : nat) (p0 p1 p2 p3 : pt) : Prop :=
  forall i, (i < D)%nat -> p2 i = p1 i + p3 i - p0 i.

(** eight vertices: 0 1 2 3 counterclockwise, 4 5 6 7 above them *)
Definition parallelepiped (p : nat -> pt) : Prop :=
  forall i, (i < 3)%nat ->
    p 2%nat i = p 1%nat i + p 3%nat i - p 0%nat i /\ p 5%nat i = p 1%nat i + p 4%nat i - p 0%nat i /\
    p 6%nat i = p 1%nat i + p 3%nat i + p 4%nat i - 2 * p 0%nat i /\ p 7%nat i = p 3%nat i + p 4%nat i - p 0%nat i.

(** The bilinear parametrisation of the quadrangle by [-1,1]^2 and its
    Jacobian determinant d(x,y)/d(xi,eta). *)
Definition bilin (p0 p1 p2 p3 : pt) (z : pt) : pt := fun i =>
  ((1 - z 0%nat) * (1 - z 1%nat) * p0 i + (1 + z 0%nat) * (1 - z 1%nat) * p1 i +
   (1 + z 0%nat) * (1 + z 1%nat) * p2 i + (1 - z 0%nat) * (1 + z 1%nat) * p3 i) / 4.
Definition bilin_d0 (p0 p1 p2 p3 z : pt) (i : nat) : R :=
  ((1 - z 1%nat) * (p1 i - p0 i) + (1 + z 1%nat) * (p2 i - p3 i)) / 4.
Definition bilin_d1 (p0 p1 p2 p3 z : pt) (i : nat) : R :=
  ((1 - z 0%nat) * (p3 i - p0 i) + (1 + z 0%nat) * (p2 i - p1 i)) / 4.
Definition bilin_jac (p0 p1 p2 p3 z : pt) : R :=
  bilin_d0 p0 p1 p2 p3 z 0%nat * bilin_d1 p0 p1 p2 p3 z 1%nat -
  bilin_d0 p0 p1 p2 p3 z 1%nat * bilin_d1 p0 p1 p2 p3 z 0%nat.

(** [I] is the integral of [f] over the counterclockwise quadrangle *)
Definition is_int_quad (p0 p1 p2 p3 : pt) (f : pt -> R) (I : R) : Prop :=
  is_int_cube 2 (fun z => f (bilin p0 p1 p2 p3 z) * bilin_jac p0 p1 p2 p3 z) I.

(** [I] is the integral of [f] over the triangle abc of the plane *)
Definition is_int_triangle (a b c : pt) (f : pt -> R) (I : R) : Prop :=
  exists J, is_int_simplex 2 1 (fun z => f (fun i => a i + z 0%nat * (b i - a i) + z 1%nat * (c i - a i))) J /\
            I = Rabs (cross2 a b c) * J.

(** 3x3 determinant of b - a, c - a, d - a *)
Definition triple (a b c d : pt) : R :=
  let u i := b i - a i in let v i := c i - a i in let w i := d i - a i in
  u 0%nat * (v 1%nat * w 2%nat - v 2%nat * w 1%nat) - u 1%nat * (v 0%nat * w 2%nat - v 2%nat * w 0%nat) +
  u 2%nat * (v 0%nat * w 1%nat - v 1%nat * w 0%nat).
(** [I] is the integral of [f] over the tetrahedron abcd *)
Definition is_int_tetra (a b c d : pt) (f : pt -> R) (I : R) : Prop :=
  exists J, is_int_simplex 3 1 (fun z => f (fun i => a i + z 0%nat * (b i - a i) + z 1%nat * (c i - a i) + z 2%nat * (d i - a i))) J /\
            I = Rabs (triple a b c d) * J.
(** squared norm of the cross product of b - a and c - a in space *)
Definition cross3_sq (a b c : pt) : R :=
  let u i := b i - a i in let v i := c i - a i in
  (u 1%nat * v 2%nat - u 2%nat * v 1%nat) ^ 2 + (u 2%nat * v 0%nat - u 0%nat * v 2%nat) ^ 2 +
  (u 0%nat * v 1%nat - u 1%nat * v 0%nat) ^ 2.
(** [I] is the integral of [f] over the triangle abc of space *)
Definition is_int_triangle3 (a b c : pt) (f : pt -> R) (I : R) : Prop :=
  exists J, is_int_simplex 2 1 (fun z => f (fun i => a i + z 0%nat * (b i - a i) + z 1%nat * (c i - a i))) J /\
            I = sqrt (cross3_sq a b c) * J.
(** [I] is the integral of [f] over the parallelogram p0, p1, p1+p3-p0, p3 of
    space, and over the parallelepiped spanned at p0 by p1, p3, p4 *)
Definition is_int_pgram3 (p0 p1 p3 : pt) (f : pt -> R) (I : R) : Prop :=
  exists J, is_int_cube 2 (fun z => f (fun i => p0 i + (1 + z 0%nat) / 2 * (p1 i - p0 i) + (1 + z 1%nat) / 2 * (p3 i - p0 i))) J /\
            I = sqrt (cross3_sq p0 p1 p3) / 4 * J.
Definition is_int_ppiped (p0 p1 p3 p4 : pt) (f : pt -> R) (I : R) : Prop :=
  exists J, is_int_cube 3 (fun z => f (fun i => p0 i + (1 + z 0%nat) / 2 * (p1 i - p0 i) +
              (1 + z 1%nat) / 2 * (p3 i - p0 i) + (1 + z 2%nat) / 2 * (p4 i - p0 i))) J /\
            I = Rabs (triple p0 p1 p3 p4) / 8 * J.
