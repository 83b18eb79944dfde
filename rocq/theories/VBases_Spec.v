(** Specification of the vector and matrix bases: which functions, their number, linear independence,
    Jacobians. *)
From Coq Require Import List Arith Reals.
From Verif Require Import Common Tensor_Spec Bases_Spec.
Import ListNotations.
Open Scope R_scope.

(** E lists every exponent of a monomial of degree exactly deg in d variables, once *)
Definition enumerates_top (deg d : nat) (E : list (list nat)) : Prop :=
  NoDup E /\ forall a, In a E <-> length a = d /\ list_sum a = deg.
(** the vector with value v at component c *)
Definition axis (d c : nat) (v : R) : list R := map (fun a => if (a =? c)%nat then v else 0) (seq 0 d).
(** component a of the j-th function of a basis of vectors, entry (a, b) for a basis of matrices *)
Definition vcomp {P : Type} (eval : P -> outcome (list (list R))) (j a : nat) (x : P) : R :=
  match eval x with Ok L => nth a (nth j L []) 0 | _ => 0 end.
Definition entry (m : list (list R)) (a b : nat) : R := nth b (nth a m []) 0.
Definition mcomp {P : Type} (eval : P -> outcome (list (list (list R)))) (j a b : nat) (x : P) : R :=
  match eval x with Ok L => entry (nth j L []) a b | _ => 0 end.

(** evaluation succeeds at every point and returns exactly [size] vectors of [d] components *)
Definition returns_vectors {P : Type} (d size : nat) (eval : P -> outcome (list (list R))) : Prop :=
  forall x, exists L, eval x = Ok L /\ length L = size /\ Forall (fun r => length r = d) L.
Definition returns_matrices {P : Type} (d size : nat) (eval : P -> outcome (list (list (list R)))) : Prop :=
  forall x, exists L, eval x = Ok L /\ length L = size /\ Forall (fun m => length m = d /\ Forall (fun r => length r = d) m) L.
(** no combination of the functions with a non-zero coefficient vanishes at every point *)
Definition vindependent {P : Type} (d size : nat) (eval : P -> outcome (list (list R))) : Prop :=
  forall k : nat -> R, (forall x a, (a < d)%nat -> sig size (fun j => k j * vcomp eval j a x) = 0) -> forall j, (j < size)%nat -> k j = 0.
Definition mindependent {P : Type} (d size : nat) (eval : P -> outcome (list (list (list R)))) : Prop :=
  forall k : nat -> R, (forall x a b, (a < d)%nat -> (b < d)%nat -> sig size (fun j => k j * mcomp eval j a b x) = 0) ->
    forall j, (j < size)%nat -> k j = 0.

(** D is the Jacobian matrix at x of the j-th function *)
Definition jacobian (d : nat) (eval : (nat -> R) -> outcome (list (list R))) (j : nat) (x : nat -> R) (D : nat -> nat -> R) : Prop :=
  forall a b, (a < d)%nat -> (b < d)%nat -> derivable_pt_lim (fun t => vcomp eval j a (move x b t)) (x b) (D a b).
(** every value of a differential operator is computed by [op] from the Jacobian matrix of the function *)
Definition operator_ok {A} (d size : nat) (eval : (nat -> R) -> outcome (list (list R))) (oper : (nat -> R) -> outcome (list A))
  (op : (nat -> nat -> R) -> A) : Prop :=
  forall x, exists G, oper x = Ok G /\ length G = size /\
    forall j, (j < size)%nat -> exists D, jacobian d eval j x D /\ nth_error G j = Some (op D).
Definition as_matrix (d : nat) (D : nat -> nat -> R) : list (list R) := map (fun a => map (fun b => D a b) (seq 0 d)) (seq 0 d).
Definition sym_gradient (d : nat) (D : nat -> nat -> R) : list (list R) := as_matrix d (fun a b => (D a b + D b a) / 2).
Definition divergence (d : nat) (D : nat -> nat -> R) : R := sig d (fun a => D a a).
Definition curl3 (D : nat -> nat -> R) : list R := [D 2%nat 1%nat - D 1%nat 2%nat; D 0%nat 2%nat - D 2%nat 0%nat; D 1%nat 0%nat - D 0%nat 1%nat].
Definition curl2 (D : nat -> nat -> R) : R := D 1%nat 0%nat - D 0%nat 1%nat.

(** the reference coordinates take every value *)
Definition onto (d : nat) (ref : (nat -> R) -> nat -> R) : Prop := forall y, exists x, forall i, (i < d)%nat -> ref x i = y i.
