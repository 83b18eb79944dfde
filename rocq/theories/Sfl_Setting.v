(** What is assumed of a basis of the reconstruction that is not the monomial one. *)
From Coq Require Import List Arith Reals.
From Verif Require Import Poly_Spec HHO_Spec HHO_Model HHO_Setting.
Import ListNotations.
Open Scope R_scope.

(** polynomials of degree at most [rd], independent on the cell; the first is 1 *)
Record rec_basis (d : nat) (P : polytope) (rd : nat) (rb : sbasis) : Prop := {
  rb_one : (0 < b_size rb)%nat /\ forall x, peval (b_poly rb 0) x = 1;
  rb_ind : forall k, (forall x, po_on P x -> peval (lincomb (b_size rb) k (b_poly rb)) x = 0) -> forall j, (j < b_size rb)%nat -> k j = 0;
  rb_degree : forall j, (j < b_size rb)%nat -> deg_le (b_poly rb j) rd;
  rb_vars : forall j, pvars d (b_poly rb j) }.
(** it starts with the monomial basis of degree [k] *)
Definition starts_with (c : scell) (k : nat) (rb : sbasis) : Prop :=
  (b_size (el_basis (cl_elem c) k) <= b_size rb)%nat /\
  forall j, (j < b_size (el_basis (cl_elem c) k))%nat -> b_poly rb j = b_poly (el_basis (cl_elem c) k) j.
Definition in_span (rb : sbasis) (w : pexp) : Prop := exists k, forall x, peval w x = peval (lincomb (b_size rb) k (b_poly rb)) x.
(** the function that the matrix [oper] reconstructs from the unknowns [u] *)
Definition span_fun (rb : sbasis) (N : nat) (oper : mtx) (u : nat -> R) : pexp :=
  lincomb (b_size rb - 1) (fun i => sg N (fun j => oper i j * u j)) (fun j => b_poly rb (S j)).
