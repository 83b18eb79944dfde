(** Vocabulary for the statements about polynomial degrees. *)
From Coq Require Import List Arith Bool.
From Verif Require Import Common Degree_Model.
Import ListNotations.

(** The degrees an HHO method accepts: cell degree within one of the face degree, gradient at
    least the face degree, reconstruction one more than the face degree. *)
Definition cell_face_ok (c f : nat) : Prop := f <= c + 1 /\ c <= f + 1.
Definition admissible (d : hho_degrees) : Prop :=
  cell_face_ok (cell_deg d) (face_deg d) /\ face_deg d <= grad_deg d /\ rec_deg d = face_deg d + 1.

(** What a history of setter calls says about one element: the last degree and the last flag set
    for it, or the initial ones. *)
Section Last.
  Context {C F : Type} (ceq : forall a b : C, {a = b} + {a <> b}) (feq : forall a b : F, {a = b} + {a <> b}).
  Fixpoint last_cell (c : C) (ops : list (deg_op C F)) (d : degree_info) : degree_info :=
    match ops with
    | [] => d
    | SetCellDegree c' k :: r => last_cell c r (if ceq c' c then mkDI (has_unknowns d) k else d)
    | SetCellUnknowns c' b :: r => last_cell c r (if ceq c' c then mkDI b (di_degree d) else d)
    | _ :: r => last_cell c r d
    end.
  Fixpoint last_face (f : F) (ops : list (deg_op C F)) (d : degree_info) : degree_info :=
    match ops with
    | [] => d
    | SetFaceDegree f' k :: r => last_face f r (if feq f' f then mkDI (has_unknowns d) k else d)
    | SetFaceUnknowns f' b :: r => last_face f r (if feq f' f then mkDI b (di_degree d) else d)
    | _ :: r => last_face f r d
    end.
  (** The element an operation is about. *)
  Definition about (cells : list C) (faces : list F) (op : deg_op C F) : Prop :=
    match op with
    | SetCellDegree c _ | SetCellUnknowns c _ => In c cells
    | SetFaceDegree f _ | SetFaceUnknowns f _ => In f faces
    end.
End Last.
