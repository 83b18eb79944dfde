(** Vocabulary for the properties of the stabilisations: differences on the faces.  [faces_nested] is what the
    difference operator assumes of the face bases; the rest does not refer to the program. *)
From Coq Require Import List Arith Reals.
From Verif Require Import Poly_Spec HHO_Spec HHO_Model HHO_Setting.
Import ListNotations.
Open Scope R_scope.

(** the basis of a face of some degree starts with the bases of the lower degrees *)
Definition faces_nested (c : scell) : Prop :=
  Forall (fun fc => forall deg deg', (deg <= deg')%nat ->
    (b_size (el_basis (fc_elem fc) deg) <= b_size (el_basis (fc_elem fc) deg'))%nat /\
    forall j, (j < b_size (el_basis (fc_elem fc) deg))%nat ->
      b_poly (el_basis (fc_elem fc) deg') j = b_poly (el_basis (fc_elem fc) deg) j) (cl_faces c).
(** differences on a face have the larger of the degrees of the cell and of the face *)
Definition diff_degrees (cd : nat) (fdi : list (option nat)) : list (option nat) :=
  map (fun o => match o with None => None | Some fd => Some (Nat.max cd fd) end) fdi.
(** the functions on the faces with coefficients [x], without unknowns of the cell *)
Definition diff_funs (c : scell) (cd : nat) (fdi : list (option nat)) (x : nat -> R) : list (option pexp) :=
  face_funs 0 (bases_of c (diff_degrees cd fdi)) x.
Definition num_diffs (c : scell) (cd : nat) (fdi : list (option nat)) : nat := face_dofs (bases_of c (diff_degrees cd fdi)).
(** the matrix [A] with [n] columns times [u] *)
Definition times (n : nat) (A : mtx) (u : nat -> R) : nat -> R := fun i => sg n (fun j => A i j * u j).
(** [Q] holds of the two functions of every face that carries unknowns, the same faces for both *)
Fixpoint on_facets2 (fs : list facet) (us ws : list (option pexp)) (Q : facet -> pexp -> pexp -> Prop) : Prop :=
  match fs, us, ws with
  | [], [], [] => True
  | f :: fs, Some u :: us, Some w :: ws => Q f u w /\ on_facets2 fs us ws Q
  | _ :: fs, None :: us, None :: ws => on_facets2 fs us ws Q
  | _, _, _ => False
  end.
(** the solver of the fluxes: a system with [m] equations and [n] unknowns that has a solution, and no more than one,
    is solved *)
Definition solves_full_rank (qr : nat -> nat -> mtx -> (nat -> R) -> nat -> R) : Prop :=
  forall m n B b, (forall x, (forall i, (i < m)%nat -> sg n (fun j => B i j * x j) = 0) -> forall j, (j < n)%nat -> x j = 0) ->
    (exists x, forall i, (i < m)%nat -> sg n (fun j => B i j * x j) = b i) ->
    forall i, (i < m)%nat -> sg n (fun j => B i j * qr m n B b j) = b i.
