(** Model of apply_dirichlet_via_nitsche (methods/implementation_hho/scalar_hho_laplacian.hpp:573-635).  The conventions
    are those of HHO_Model.v. *)
From Coq Require Import List Arith Bool Reals.
From Verif Require Import Poly_Spec HHO_Spec HHO_Model Stab_Model.
Import ListNotations.
Open Scope R_scope.

(** v.block(r0, 0, n, 1) += s *)
Definition add_seg (v : nat -> R) (r0 n : nat) (s : nat -> R) : nat -> R :=
  fun i => if ((r0 <=? i) && (i <? r0 + n))%nat then v i + s (i - r0)%nat else v i.

(** 594-634: one face.  [bnd] is msh.is_boundary(fc), [hf] is measure(msh, fc); [n] is the number of columns of rec_op,
    which is the number of unknowns.  The state is (face_i, lhs, rhs). *)
Definition nitsche_face (d : nat) (c : scell) (hdi : degs) (n : nat) (rec_op : mtx) (g : pt -> R) (penalization : R)
    (st : nat * mtx * (nat -> R)) (fi : sface * (bool * R)) : nat * mtx * (nat -> R) :=
  let '(face_i, lhs, rhs) := st in
  let '(fc, (bnd, hf)) := fi in
  if bnd then
    let rb := el_basis (cl_elem c) (reconstruction_degree hdi) in
    let cbs := b_size (el_basis (cl_elem c) (cell_degree hdi)) in
    let fb := el_basis (fc_elem fc) (face_degree hdi) in
    let rbs := b_size rb in let fbs := b_size fb in
    let blkofs := (cbs + fbs * face_i)%nat in
    let qps := el_quad (fc_elem fc) (2 * reconstruction_degree hdi) in
    let r_dphi_n := rdn d None rb (fc_normal fc) in
    let trace := accumulate qps (phi fb) r_dphi_n zeroM in
    let mass := accumulate qps (phi fb) (phi fb) zeroM in
    let vec1 := fold_left (fun v qp => let '(x, w) := qp in fun i => v i + w * r_dphi_n x i * g x) qps zeroV in
    let rhs := fold_left (fun r qp => let '(x, w) := qp in
                 add_seg r blkofs fbs (fun i => w * phi fb x i * (penalization / hf) * g x)) qps rhs in
    let l := mprod (rbs - 1) trace rec_op in
    let lhs := add_block lhs blkofs 0 fbs n (mopp l) in
    let lhs := add_block lhs 0 blkofs n fbs (mopp (mtrans l)) in
    let lhs := add_block lhs blkofs blkofs fbs fbs (mscalm (penalization / hf) mass) in
    let rhs := fun i => rhs i - sg (rbs - 1) (fun k => rec_op k i * vec1 k) in
    (S face_i, lhs, rhs)
  else (S face_i, lhs, rhs).
(** the whole function: the updated (lhs, rhs); [bnd] gives is_boundary and measure of each face *)
Definition apply_dirichlet_via_nitsche (d : nat) (c : scell) (bnd : list (bool * R)) (rec_op lhs : mtx) (rhs : nat -> R) (hdi : degs) (n : nat)
    (g : pt -> R) (penalization : R) : mtx * (nat -> R) :=
  let '(_, lhs, rhs) := fold_left (nitsche_face d c hdi n rec_op g penalization) (combine (cl_faces c) bnd) (0%nat, lhs, rhs) in
  (lhs, rhs).
