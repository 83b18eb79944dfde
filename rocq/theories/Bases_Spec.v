(** Specification of the scalar bases: monomials, enumerations of exponents, partial derivatives. *)
From Coq Require Import List Arith ZArith Reals Factorial.
From Verif Require Import Common Poly_Spec.
Import ListNotations.
Open Scope R_scope.

(** n = (k + d)! / (k! d!) *)
Definition is_binomial (k d n : nat) : Prop := (n * (fact k * fact d) = fact (k + d))%nat.
(** (k+1) ... (k+d) *)
Fixpoint rising (k d : nat) : Z := match d with O => 1 | S d' => rising k d' * Z.of_nat (k + d) end.
(** the product fits a 64 bit unsigned integer *)
Definition fits (k d : nat) : Prop := (rising k d < 2 ^ 64)%Z.

(** E lists every exponent of a monomial of degree at most deg in d variables, once *)
Definition enumerates (deg d : nat) (E : list (list nat)) : Prop :=
  NoDup E /\ forall a, In a E <-> length a = d /\ (list_sum a <= deg)%nat.
(** y_i^a_0 y_(i+1)^a_1 ... *)
Fixpoint monomial (a : list nat) (y : nat -> R) (i : nat) : R :=
  match a with [] => 1 | e :: a => y i ^ e * monomial a y (S i) end.
(** a basis evaluates to all monomials of degree <= deg in the reference coordinates, each once, in an
    order that does not depend on the point *)
Definition lists_monomials (deg d size : nat) (ref : (nat -> R) -> nat -> R) (eval : (nat -> R) -> outcome (list R)) : Prop :=
  exists E, enumerates deg d E /\ length E = size /\ is_binomial deg d size /\
    forall x, eval x = Ok (map (fun a => monomial a (ref x) 0) E).

(** the same point with coordinate c moved to t *)
Definition move (x : nat -> R) (c : nat) (t : R) : nat -> R := fun i => if (i =? c)%nat then t else x i.
(** the j-th function of a basis *)
Definition function_of {P : Type} (eval : P -> outcome (list R)) (j : nat) (x : P) : R :=
  match eval x with Ok l => nth j l 0 | _ => 0 end.
(** entry (j, c) of the gradients is the partial derivative of function j along coordinate c of space *)
Definition gradients_ok (d size : nat) (eval : (nat -> R) -> outcome (list R)) (grad : (nat -> R) -> outcome (list (list R))) : Prop :=
  forall x, exists G, grad x = Ok G /\ length G = size /\
    forall j, (j < size)%nat -> exists row, nth_error G j = Some row /\ length row = d /\
      forall c, (c < d)%nat -> derivable_pt_lim (fun t => function_of eval j (move x c t)) (x c) (nth c row 0).
(** the same on a line *)
Definition derivatives_ok (size : nat) (eval grad : R -> outcome (list R)) : Prop :=
  forall x, exists G, grad x = Ok G /\ length G = size /\
    forall j, (j < size)%nat -> derivable_pt_lim (function_of eval j) x (nth j G 0).

(** coordinate i of a point in a frame with origin bar, axes in columns, lengths len of the box *)
Definition local_coord (d : nat) (bar : nat -> R) (axes : nat -> nat -> R) (len : nat -> R) (x : nat -> R) (i : nat) : R :=
  2 / len i * fold_right Rplus 0 (map (fun j => axes j i * (x j - bar j)) (seq 0 d)).
(** coordinate i through a matrix *)
Definition matrix_coord (d : nat) (M : nat -> nat -> R) (bar x : nat -> R) (i : nat) : R :=
  fold_right Rplus 0 (map (fun j => M i j * (x j - bar j)) (seq 0 d)).
(** orthonormal on [-1, 1] *)
Definition orthonormal_on (a b : R) (size : nat) (f : nat -> R -> R) : Prop :=
  forall i j, (i < size)%nat -> (j < size)%nat ->
    is_int1 (fun x => f i x * f j x) a b (if (i =? j)%nat then 1 else 0).

(** nested integrals over the box with centre bar and side lengths len *)
Definition is_int_box2 (f : R -> R -> R) (bar len : nat -> R) (I : R) : Prop :=
  exists G, (forall s, is_int1 (f s) (bar 1%nat - len 1%nat / 2) (bar 1%nat + len 1%nat / 2) (G s)) /\
    is_int1 G (bar 0%nat - len 0%nat / 2) (bar 0%nat + len 0%nat / 2) I.
Definition is_int_box3 (f : R -> R -> R -> R) (bar len : nat -> R) (I : R) : Prop :=
  exists G, (forall s t, is_int1 (f s t) (bar 2%nat - len 2%nat / 2) (bar 2%nat + len 2%nat / 2) (G s t)) /\ is_int_box2 G bar len I.
(** points of the plane and of space *)
Definition xy (s t : R) (i : nat) : R := match i with 0%nat => s | 1%nat => t | _ => 0 end.
Definition xyz (s t u : R) (i : nat) : R := match i with 0%nat => s | 1%nat => t | _ => u end.

(** two unit vectors of space, orthogonal *)
Definition inner (a b : nat -> R) : R := a 0%nat * b 0%nat + a 1%nat * b 1%nat + a 2%nat * b 2%nat.
Definition orthonormal2 (e0 e1 : nat -> R) : Prop := inner e0 e0 = 1 /\ inner e1 e1 = 1 /\ inner e0 e1 = 0.
(** the angle at [q] between the edges to [p] and [r] is neither zero nor straight *)
Definition corner (p q r : nat -> R) : Prop :=
  let u := fun i => p i - q i in let v := fun i => r i - q i in
  0 < inner u u * inner v v - inner u v * inner u v.
(** its cosine is below 0.99 (about 8 degrees) *)
Definition wide_corner (p q r : nat -> R) : Prop :=
  let u := fun i => p i - q i in let v := fun i => r i - q i in
  inner u v < 99 / 100 * sqrt (inner u u * inner v v).
(** e is a combination of u and v *)
Definition spanned (u v e : nat -> R) : Prop := exists a b, forall i, e i = a * u i + b * v i.
