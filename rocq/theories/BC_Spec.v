(** What a history of calls says about one face, independently of how the class stores it. *)
From Coq Require Import List Arith Bool.
From Verif Require Import Common Mesh_Model BC_Model.
Import ListNotations.

Inductive kind := Dirichlet | Neumann | Robin | Contact.

(** What a registration says: type, reported boundary id, user function if any. *)
Record registration {P V} := mkReg { r_type : nat; r_id : nat; r_func : option (P -> V) }.
Arguments registration : clear implicits.

(** [says k d op]: what call [op] registers, for kind [k], on a face with descriptor [d]; a call
    concerns the boundary faces with the given boundary id (all boundary faces for
    addDirichletEverywhere, which reports id 0 and type DIRICHLET). *)
Definition says {Sc P V} (k : kind) (d : bdesc) (op : bc_op Sc P V) : option (registration P V) :=
  if negb (bd_is_b d) then None
  else match k, op with
       | Dirichlet, AddDirichlet t id fn => if bd_id d =? id then Some (mkReg _ _ t id (Some fn)) else None
       | Dirichlet, AddDirichletAll fn => Some (mkReg _ _ DIRICHLET 0 (Some fn))
       | Neumann, AddNeumann t id fn => if bd_id d =? id then Some (mkReg _ _ t id (Some fn)) else None
       | Robin, AddRobin t id fn => if bd_id d =? id then Some (mkReg _ _ t id (Some fn)) else None
       | Contact, AddContact t id => if bd_id d =? id then Some (mkReg _ _ t id None) else None
       | Contact, AddContactF t id fn => if bd_id d =? id then Some (mkReg _ _ t id (Some fn)) else None
       | _, _ => None
       end.

(** The last registration of kind [k] covering the face. *)
Fixpoint last_reg {Sc P V} (k : kind) (d : bdesc) (ops : list (bc_op Sc P V)) (acc : option (registration P V))
  : option (registration P V) :=
  match ops with
  | [] => acc
  | op :: r => last_reg k d r (match says k d op with Some x => Some x | None => acc end)
  end.

(** Number of registrations of kind [k] covering the face. *)
Definition times {Sc P V} (k : kind) (d : bdesc) (ops : list (bc_op Sc P V)) : nat :=
  length (filter (fun op => match says k d op with Some _ => true | None => false end) ops).

(** Last factor set. *)
Fixpoint last_factor {Sc P V} (ops : list (bc_op Sc P V)) (x : Sc) : Sc :=
  match ops with
  | [] => x
  | SetFactor y :: r => last_factor r y
  | _ :: r => last_factor r x
  end.

Definition is_some {A} (o : option A) : bool := match o with Some _ => true | None => false end.

(** type reported when nothing is registered *)
Definition default_type (k : kind) : nat :=
  match k with Dirichlet => NOTHING | Neumann => FREE | Robin => WHATEVER | Contact => NO_CONTACT end.

(** The API queries of each kind, for statements that range over kinds. *)
Section Api.
  Context {C F Sc P V : Type} (fltb : F -> F -> bool) (m : mesh C F) (s : bc Sc P V).
  Definition is_face (k : kind) (f : F) : outcome bool :=
    match k with
    | Dirichlet => is_dirichlet_face C F Sc P V fltb m f s
    | Neumann => is_neumann_face C F Sc P V fltb m f s
    | Robin => is_robin_face C F Sc P V fltb m f s
    | Contact => is_contact_face C F Sc P V fltb m f s
    end.
  Definition type_of (k : kind) (f : F) : outcome nat :=
    match k with
    | Dirichlet => dirichlet_boundary_type C F Sc P V fltb m f s
    | Neumann => neumann_boundary_type C F Sc P V fltb m f s
    | Robin => robin_boundary_type C F Sc P V fltb m f s
    | Contact => contact_boundary_type C F Sc P V fltb m f s
    end.
  Definition nb_faces (k : kind) : nat :=
    match k with
    | Dirichlet => nb_faces_dirichlet Sc P V s
    | Neumann => nb_faces_neumann Sc P V s
    | Robin => nb_faces_robin Sc P V s
    | Contact => nb_faces_contact Sc P V s
    end.
  (** faces reported by is_X_face *)
  Definition reported (k : kind) : list F :=
    filter (fun f => match is_face k f with Ok true => true | _ => false end) (m_faces m).
End Api.
