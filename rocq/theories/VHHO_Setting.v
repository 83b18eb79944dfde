(** The functions that the unknowns of the vector and matrix operators stand for. *)
From Coq Require Import List Arith Reals.
From Verif Require Import Poly_Spec HHO_Spec VHHO_Spec HHO_Model VHHO_Model HHO_Setting.
Import ListNotations.
Open Scope R_scope.

(** the function with coefficients given by the rows of [oper] applied to the unknowns [u] *)
Definition oper_fun (b : vbasis) (N : nat) (oper : mtx) (u : nat -> R) : tf :=
  vlin (v_size b) (fun i => sg N (fun j => oper i j * u j)) (v_comp b).
(** vector unknowns: the cell function, the face functions, their number *)
Definition vcell_fun (d : nat) (c : scell) (cd : nat) (u : nat -> R) : tf :=
  let b := vec_basis d (el_basis (cl_elem c) cd) in vlin (v_size b) u (v_comp b).
Definition vbases_of (d : nat) (c : scell) (fdi : list (option nat)) : list (option (nat * (nat -> tf))) :=
  map (fun fi => match snd fi with
                 | None => None
                 | Some fd => let b := vec_basis d (el_basis (fc_elem (fst fi)) fd) in Some (v_size b, v_comp b)
                 end) (combine (cl_faces c) fdi).
Definition vfaces_funs (d : nat) (c : scell) (cd : nat) (fdi : list (option nat)) (u : nat -> R) : list (option tf) :=
  vface_funs (v_size (vec_basis d (el_basis (cl_elem c) cd))) (vbases_of d c fdi) u.
Definition vnum_dofs (d : nat) (c : scell) (cd : nat) (fdi : list (option nat)) : nat :=
  v_size (vec_basis d (el_basis (cl_elem c) cd)) + vface_dofs (vbases_of d c fdi).
(** the vector function reconstructed by [oper]: the coefficients of the functions after the constants *)
Definition vrec_fun (d : nat) (c : scell) (rd N : nat) (oper : mtx) (u : nat -> R) : tf :=
  let b := vec_basis d (el_basis (cl_elem c) rd) in
  vlin (v_size b - d) (fun i => sg N (fun j => oper i j * u j)) (fun j => v_comp b (d + j)).
