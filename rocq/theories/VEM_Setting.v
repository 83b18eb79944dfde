(** What the virtual element functions assume of their surroundings *)
From Coq Require Import List Arith Reals.
From Verif Require Import Poly_Spec HHO_Spec HHO_Model VEM_Spec VEM_Model.
Import ListNotations.
Open Scope R_scope.

(** a solver of regular systems *)
Definition solves_regular (lu : nat -> mtx -> (nat -> R) -> nat -> R) : Prop :=
  forall n A b, (forall x, (forall i, (i < n)%nat -> sg n (fun j => A i j * x j) = 0) -> forall i, (i < n)%nat -> x i = 0) ->
  forall i, (i < n)%nat -> sg n (fun j => A i j * lu n A b j) = b i.
(** the nodes of the faces of a cell *)
Definition nodes_of (gl : nat -> pt -> pt -> list (pt * R)) (k : nat) (v : vcell) : list (list (pt * R)) :=
  map (face_nodes gl k) (vc_faces v).
Record vem_fits (gl : nat -> pt -> pt -> list (pt * R)) (k : nat) (P : polytope) (v : vcell) : Prop := {
  vfit_poly : is_polytope 2 P;
  vfit_fat : fat (po_on P);
  vfit_quad : exact (vc_quad v) (po_int P);
  (** the rule asked for degree 0 integrates affine functions *)
  vfit_quad0 : forall p, (pdeg p <= 1)%nat -> qsum (vc_quad v 0) (peval p) = po_int P p;
  vfit_meas : vc_meas v = po_int P (PC 1);
  vfit_scal : vc_fx v <> 0 /\ vc_fy v <> 0;
  vfit_faces : Forall2 (fun f vf => vf_normal vf = fa_normal f /\ lobatto k f (face_nodes gl k vf)) (po_facets P) (vc_faces v);
  vfit_chain : closed_chain (nodes_of gl k v) }.
(** the functions of the cell with given coefficients, and the projection of the unknowns [u] *)
Definition cell_poly (v : vcell) (k : nat) (c : nat -> R) : pexp := lincomb (basis_size k) c (b_poly (vbasis v k)).
Definition projected (v : vcell) (k N : nat) (PI : mtx) (u : nat -> R) : pexp := cell_poly v k (fun i => sg N (fun j => PI i j * u j)).
(** the unknowns of a polynomial on the cell, and the projection of unknowns that projector_nabla stands for *)
Definition dofs_of (gl : nat -> pt -> pt -> list (pt * R)) (k : nat) (P : polytope) (v : vcell) (p : pexp) : nat -> R :=
  unknowns k P (nodes_of gl k v) (b_poly (vbasis v (k - 2))) p.
Definition nabla gl lu (v : vcell) (k : nat) (u : nat -> R) : pexp := projected v k (vdofs v k) (projector_nabla gl lu v k (matrix_G v k)) u.
(** the one that projector_zero stands for, with the degree k - 1 of compute_local *)
Definition zero_proj gl lu ldlt (v : vcell) (k : nat) (u : nat -> R) : pexp :=
  projected v (k - 1) (vdofs v k) (projector_zero ldlt v k (k - 1) (projector_nabla gl lu v k (matrix_G v k))) u.
(** the mean of the unknowns at the vertices, k = 1 *)
Definition vertex_mean (v : vcell) (u : nat -> R) : R := sg (nfaces v) u / INR (nfaces v).
