(** Specification of the harmonic enrichments: harmonic functions, powers of a complex number, solid harmonics. *)
From Coq Require Import List Arith Reals.
Import ListNotations.
Open Scope R_scope.

(** real and imaginary parts of (y + i z)^n *)
Fixpoint cpow (y z : R) (n : nat) : R * R :=
  match n with O => (1, 0) | S n => (y * fst (cpow y z n) - z * snd (cpow y z n), z * fst (cpow y z n) + y * snd (cpow y z n)) end.
Definition cre (y z : R) (n : nat) := fst (cpow y z n).
Definition cim (y z : R) (n : nat) := snd (cpow y z n).

(** f has first and second derivatives everywhere and its Laplacian vanishes *)
Definition harmonic2 (f : R -> R -> R) : Prop :=
  exists fx fy fxx fyy : R -> R -> R,
    (forall x y, derivable_pt_lim (fun t => f t y) x (fx x y)) /\ (forall x y, derivable_pt_lim (fun t => f x t) y (fy x y)) /\
    (forall x y, derivable_pt_lim (fun t => fx t y) x (fxx x y)) /\ (forall x y, derivable_pt_lim (fun t => fy x t) y (fyy x y)) /\
    forall x y, fxx x y + fyy x y = 0.
Definition harmonic3 (f : R -> R -> R -> R) : Prop :=
  exists fx fy fz fxx fyy fzz : R -> R -> R -> R,
    (forall x y z, derivable_pt_lim (fun t => f t y z) x (fx x y z)) /\
    (forall x y z, derivable_pt_lim (fun t => f x t z) y (fy x y z)) /\
    (forall x y z, derivable_pt_lim (fun t => f x y t) z (fz x y z)) /\
    (forall x y z, derivable_pt_lim (fun t => fx t y z) x (fxx x y z)) /\
    (forall x y z, derivable_pt_lim (fun t => fy x t z) y (fyy x y z)) /\
    (forall x y z, derivable_pt_lim (fun t => fz x y t) z (fzz x y z)) /\
    forall x y z, fxx x y z + fyy x y z + fzz x y z = 0.

(** the zonal factor of the solid harmonic of degree m + j and order m along the x axis, q = x^2+y^2+z^2:
    1, x and the three-term recursion (2m+j+2) A(j+2) = (2m+2j+3) x A(j+1) - (j+1) q A(j) *)
Fixpoint zonal (m : nat) (x q : R) (j : nat) : R :=
  match j with
  | O => 1
  | S j' => match j' with
            | O => x
            | S j'' => (INR (2 * m + 2 * j'' + 3) * x * zonal m x q j' - INR (S j'') * q * zonal m x q j'') / INR (2 * m + j'' + 2)
            end
  end.
(** the solid harmonics of degree n and order m <= n: two for each m > 0 *)
Definition solid_c (n m : nat) (x y z : R) : R := zonal m x (x * x + y * y + z * z) (n - m) * cre y z m.
Definition solid_s (n m : nat) (x y z : R) : R := zonal m x (x * x + y * y + z * z) (n - m) * cim y z m.

(** coordinate i of a point relative to the barycenter, in units of half the diameter *)
Definition rel (bar : nat -> R) (diam : R) (x : nat -> R) (i : nat) : R := 2 * (x i - bar i) / diam.
