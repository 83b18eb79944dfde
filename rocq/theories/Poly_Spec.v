(** Polynomials and their integrals: the vocabulary in which the quadrature
    properties (C23-C28) are stated.  Nothing here refers to the program. *)
From Coq Require Import List Reals.
Import ListNotations.
Open Scope R_scope.

(** A point of R^n; only the coordinates below the dimension are used. *)
Definition pt := nat -> R.

(** Polynomial expressions in the coordinates.  Every polynomial is one. *)
Inductive pexp :=
| PC (c : R)
| PX (i : nat)
| PAdd (p q : pexp)
| PMul (p q : pexp).

Fixpoint peval (p : pexp) (x : pt) : R :=
  match p with
  | PC c => c
  | PX i => x i
  | PAdd p q => peval p x + peval q x
  | PMul p q => peval p x * peval q x
  end.

(** total degree *)
Fixpoint pdeg (p : pexp) : nat :=
  match p with
  | PC _ => 0
  | PX _ => 1
  | PAdd p q => Nat.max (pdeg p) (pdeg q)
  | PMul p q => pdeg p + pdeg q
  end.

(** size of the polynomial when coordinate [i] is bounded by [r i]: the value
    obtained by replacing every constant by its absolute value and every
    coordinate by its bound *)
Fixpoint pmag (p : pexp) (r : pt) : R :=
  match p with
  | PC c => Rabs c
  | PX i => r i
  | PAdd p q => pmag p r + pmag q r
  | PMul p q => pmag p r * pmag q r
  end.

(** only the first [n] coordinates are mentioned *)
Fixpoint pvars (n : nat) (p : pexp) : Prop :=
  match p with
  | PC _ => True
  | PX i => (i < n)%nat
  | PAdd p q => pvars n p /\ pvars n q
  | PMul p q => pvars n p /\ pvars n q
  end.

(** The polynomial c0 + c1 x + c2 x^2 + ... *)
Fixpoint cpoly (c : list R) (x : R) : R :=
  match c with
  | [] => 0
  | a :: t => a + x * cpoly t x
  end.

(** [I] is the integral of [f] from [a] to [b] (fundamental theorem of
    calculus: the increment of an antiderivative). *)
Definition is_int1 (f : R -> R) (a b I : R) : Prop :=
  exists F, (forall x, derivable_pt_lim F x (f x)) /\ I = F b - F a.

(** the point (s, x_0, x_1, ...) *)
Definition scons (s : R) (x : pt) : pt := fun k => match k with O => s | S k => x k end.

(** [I] is the (iterated) integral of [f] over the simplex
    { x in R^n : x_i >= 0, x_0 + ... + x_(n-1) <= c }. *)
Fixpoint is_int_simplex (n : nat) (c : R) (f : pt -> R) (I : R) : Prop :=
  match n with
  | O => I = f (fun _ => 0)
  | S m => exists G, (forall s, is_int_simplex m (c - s) (fun x => f (scons s x)) (G s)) /\ is_int1 G 0 c I
  end.

(** [I] is the (iterated) integral of [f] over the cube [-1,1]^n. *)
Fixpoint is_int_cube (n : nat) (f : pt -> R) (I : R) : Prop :=
  match n with
  | O => I = f (fun _ => 0)
  | S m => exists G, (forall s, is_int_cube m (fun x => f (scons s x)) (G s)) /\ is_int1 G (-1) 1 I
  end.

(** Value of a quadrature rule: the weighted sum of [f] over its points. *)
Fixpoint qsum {P : Type} (rule : list (P * R)) (f : P -> R) : R :=
  match rule with
  | [] => 0
  | (x, w) :: t => w * f x + qsum t f
  end.
