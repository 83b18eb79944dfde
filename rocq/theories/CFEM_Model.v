(** Model of cfem/cfem.hpp: linear finite elements on triangles.  Coordinates are real numbers; [p0], [p1], [p2]
    are points(msh, cl).  A 3-vector and a 3x3 matrix are functions of the indices 0, 1, 2. *)
From Coq Require Import Reals List Arith.
From Verif Require Import Poly_Spec Quad_Model Geo_Model.
Import ListNotations.
Open Scope R_scope.

Section Tri.
  Context (p0 p1 p2 : pt).
  (** the denominator m of eval_basis and eval_basis_grad, lines 42 and 63 *)
  Definition cf_m : R :=
    let x0 := p0 0%nat in let y0 := p0 1%nat in let x1 := p1 0%nat in let y1 := p1 1%nat in let x2 := p2 0%nat in let y2 := p2 1%nat in
    x1 * y2 - y1 * x2 - x0 * (y2 - y1) + y0 * (x2 - x1).
  (** eval_basis 29-49 *)
  Definition cf_basis (q : pt) (i : nat) : R :=
    let x0 := p0 0%nat in let y0 := p0 1%nat in let x1 := p1 0%nat in let y1 := p1 1%nat in let x2 := p2 0%nat in let y2 := p2 1%nat in
    match i with
    | 0%nat => (x1 * y2 - y1 * x2 - q 0%nat * (y2 - y1) + q 1%nat * (x2 - x1)) / cf_m
    | 1%nat => (x2 * y0 - y2 * x0 + q 0%nat * (y2 - y0) - q 1%nat * (x2 - x0)) / cf_m
    | _ => (x0 * y1 - y0 * x1 - q 0%nat * (y1 - y0) + q 1%nat * (x1 - x0)) / cf_m
    end.
  (** eval_basis_grad 51-73; row i is the gradient of the basis function i *)
  Definition cf_grad (i j : nat) : R :=
    let x0 := p0 0%nat in let y0 := p0 1%nat in let x1 := p1 0%nat in let y1 := p1 1%nat in let x2 := p2 0%nat in let y2 := p2 1%nat in
    match i, j with
    | 0%nat, 0%nat => (y1 - y2) / cf_m | 1%nat, 0%nat => (y2 - y0) / cf_m | _, 0%nat => (y0 - y1) / cf_m
    | 0%nat, _ => (x2 - x1) / cf_m | 1%nat, _ => (x0 - x2) / cf_m | _, _ => (x1 - x0) / cf_m
    end.
  (** measure(msh, cl): geometry_simplicial.hpp:322-347 *)
  Definition cf_meas : R := area_triangle_kahan 2 p0 p1 p2.
  (** mass_matrix 75-101: the three mid points of the edges *)
  Definition cf_mass (i j : nat) : R :=
    let q0 := pscale (/ 2) (padd p0 p1) in let q1 := pscale (/ 2) (padd p1 p2) in let q2 := pscale (/ 2) (padd p0 p2) in
    (cf_basis q0 i * cf_basis q0 j + cf_basis q1 i * cf_basis q1 j + cf_basis q2 i * cf_basis q2 j) * (cf_meas / 3).
  (** stiffness_matrix 103-115 *)
  Definition cf_stiff (i j : nat) : R := cf_meas * (cf_grad i 0 * cf_grad j 0 + cf_grad i 1 * cf_grad j 1).
  (** stiffness_matrix with a tensor 117-131 *)
  Definition cf_stiff_k (k : nat -> nat -> R) (i j : nat) : R :=
    let kd r := k r 0%nat * cf_grad j 0 + k r 1%nat * cf_grad j 1 in
    cf_meas * (cf_grad i 0 * kd 0%nat + cf_grad i 1 * kd 1%nat).
  (** make_rhs 133-149; barycenter of a triangle: geometry_all.hpp:117-125 *)
  Definition cf_rhs (f : pt -> R) (i : nat) : R := f (pscale (/ 3) (padd (padd p0 p1) p2)) * cf_meas * 1 / 3.
End Tri.
