(** What the HHO operators assume of their surroundings: the cell they are given describes a polytope, its bases
    span the polynomials of their degree and its quadratures are exact for their degree; the linear solver solves
    symmetric positive definite systems. *)
From Coq Require Import List Arith Reals.
From Verif Require Import Poly_Spec HHO_Spec HHO_Model.
Import ListNotations.
Open Scope R_scope.

Definition solves_spd (ldlt : nat -> mtx -> (nat -> R) -> nat -> R) : Prop :=
  forall n A b, spd n A -> forall i, (i < n)%nat -> sg n (fun j => A i j * ldlt n A b j) = b i.

Record elem_fits (on : pt -> Prop) (I : pexp -> R) (e : selem) : Prop := {
  fit_quad : exact (el_quad e) I;
  fit_basis : forall deg, basis_on on deg (b_size (el_basis e deg)) (b_poly (el_basis e deg));
  fit_deg : forall deg, b_deg (el_basis e deg) = deg }.
Record cell_fits (d : nat) (P : polytope) (c : scell) : Prop := {
  cf_poly : is_polytope d P;
  cf_elem : elem_fits (po_on P) (po_int P) (cl_elem c);
  cf_diam : el_diam (cl_elem c) = po_diam P;
  (** the first function of the cell basis is 1 *)
  cf_one : forall deg, (0 < b_size (el_basis (cl_elem c) deg))%nat /\ forall x, peval (b_poly (el_basis (cl_elem c) deg) 0) x = 1;
  (** it consists of polynomials in the [d] coordinates, and all those of its degree are combinations of it *)
  cf_vars : forall deg j, pvars d (b_poly (el_basis (cl_elem c) deg) j);
  cf_span : forall deg p, pvars d p -> deg_le p deg -> exists k, forall x,
    peval p x = peval (lincomb (b_size (el_basis (cl_elem c) deg)) k (b_poly (el_basis (cl_elem c) deg))) x;
  (** the basis of a degree starts with the bases of the lower degrees *)
  cf_nested : forall deg deg', (deg <= deg')%nat ->
    (b_size (el_basis (cl_elem c) deg) <= b_size (el_basis (cl_elem c) deg'))%nat /\
    forall j, (j < b_size (el_basis (cl_elem c) deg))%nat ->
      b_poly (el_basis (cl_elem c) deg') j = b_poly (el_basis (cl_elem c) deg) j;
  cf_faces : Forall2 (fun f fc => elem_fits (fa_on f) (fa_int f) (fc_elem fc) /\ fc_normal fc = fa_normal f /\
                                el_diam (fc_elem fc) = fa_diam f)
               (po_facets P) (cl_faces c) }.

(** the tensor given, or the identity *)
Definition tensor_of (K : option mtx) : mtx := match K with None => delta | Some K => K end.
(** the cell and face bases that carry the unknowns of a cell *)
Definition cell_fun (c : scell) (cd : nat) (u : nat -> R) : pexp :=
  let b := el_basis (cl_elem c) cd in lincomb (b_size b) u (b_poly b).
Definition bases_of (c : scell) (fdi : list (option nat)) : list (option (nat * (nat -> pexp))) :=
  map (fun fi => match snd fi with
                 | None => None
                 | Some fd => let b := el_basis (fc_elem (fst fi)) fd in Some (b_size b, b_poly b)
                 end) (combine (cl_faces c) fdi).
Definition all_faces (c : scell) (fd : nat) : list (option nat) := map (fun _ => Some fd) (cl_faces c).
Definition faces_funs (c : scell) (cd : nat) (fdi : list (option nat)) (u : nat -> R) : list (option pexp) :=
  face_funs (b_size (el_basis (cl_elem c) cd)) (bases_of c fdi) u.
Definition num_dofs (c : scell) (cd : nat) (fdi : list (option nat)) : nat :=
  b_size (el_basis (cl_elem c) cd) + face_dofs (bases_of c fdi).
(** the function reconstructed from the unknowns [u] by the matrix [oper]: the coefficients of the functions of
    the basis of degree [rd] after the first *)
Definition rec_fun (c : scell) (rd N : nat) (oper : mtx) (u : nat -> R) : pexp :=
  let b := el_basis (cl_elem c) rd in
  lincomb (b_size b - 1) (fun i => sg N (fun j => oper i j * u j)) (fun j => b_poly b (S j)).
