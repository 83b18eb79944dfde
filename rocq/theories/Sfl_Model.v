(** Model of make_sfl (methods/implementation_hho/scalar_hho_laplacian.hpp:341-495), and of the harmonic variants
    make_shl_harmonic and make_shl_face_proj_harmonic (298-337), which are [hho_laplacian] of HHO_Model.v with another basis.  The conventions are
    those of HHO_Model.v. *)
From Coq Require Import List Arith Bool Reals.
From Verif Require Import Poly_Spec HHO_Spec HHO_Model.
Import ListNotations.
Open Scope R_scope.

(** 378-382: Ko += w * (r_dphi * K^T) * r_dphi^T *)
Definition grad_grad (d : nat) (K : mtx) (rb : sbasis) (qps : list (pt * R)) : mtx :=
  fold_left (fun M qp => let '(x, w) := qp in fun i j =>
      M i j + sg d (fun k => w * tens d (Some K) (dphi rb x i) k * dphi rb x j k)) qps zeroM.

Section Sfl.
  Variable ldlt : nat -> mtx -> (nat -> R) -> nat -> R.
  (** 391-413: the faces of the inner reconstruction; the state is (offset, gr_rhs_inner) *)
  Definition sfl_inner_face (d : nat) (K : mtx) (rd_inner cd fd : nat) (rb_inner cb : sbasis) (st : nat * mtx) (fc : sface) : nat * mtx :=
    let '(off, M) := st in
    let fb := el_basis (fc_elem fc) fd in
    let qps_f := el_quad (fc_elem fc) (rd_inner + Nat.max cd fd) in
    ((off + b_size fb)%nat, lap_face_qps d (Some K) false rb_inner cb fb off (fc_normal fc) qps_f M).
  (** 423-470: the faces of the outer one (TEST_HARMONIC_BASIS is not defined); the state is (offset, Ro_rhs) *)
  Definition sfl_outer_face (d : nat) (K : mtx) (rd_outer cd fd : nat) (rb_inner rb_outer cb : sbasis) (Ri : mtx) (st : nat * mtx) (fc : sface) : nat * mtx :=
    let '(off, Ro_rhs) := st in
    let fb := el_basis (fc_elem fc) fd in
    let fbs := b_size fb in let cbs := b_size cb in let ri := (b_size rb_inner - 1)%nat in
    let qps_f := el_quad (fc_elem fc) (rd_outer + Nat.max cd fd) in
    let grad_v_n := rdn d (Some K) rb_outer (fc_normal fc) in
    let r_phi := fun x j => phi rb_inner x (S j) in
    let A := accumulate qps_f grad_v_n (phi fb) zeroM in
    let T := accumulate qps_f grad_v_n (phi cb) zeroM in
    let Q := accumulate qps_f grad_v_n r_phi zeroM in
    let Mf := accumulate qps_f (phi fb) (phi fb) zeroM in
    let Tr := accumulate qps_f (phi fb) r_phi zeroM in
    let Ro_rhs := add_cols Ro_rhs 0 cbs (mopp T) in
    let Ro_rhs := maddm Ro_rhs (mprod ri Q Ri) in
    let Ro_rhs := maddm Ro_rhs (mopp (mprod fbs A (solveM ldlt fbs Mf (mprod ri Tr Ri)))) in
    let Ro_rhs := add_cols Ro_rhs off fbs A in
    ((off + fbs)%nat, Ro_rhs).
  (** 341-495; [rb_outer] is the harmonic-top basis of degree reconstruction_degree with the full polynomials up to
      cell_degree + 2 *)
  Definition make_sfl (d : nat) (K : mtx) (c : scell) (hdi : degs) (rb_outer : sbasis) : mtx * mtx :=
    let cd := cell_degree hdi in let fd := face_degree hdi in
    let rd_inner := (face_degree hdi + 1)%nat in let rd_outer := reconstruction_degree hdi in
    let cb := el_basis (cl_elem c) cd in
    let rb_inner := el_basis (cl_elem c) rd_inner in
    let cbs := b_size cb in let ri := (b_size rb_inner - 1)%nat in let ro := (b_size rb_outer - 1)%nat in
    let Ko := grad_grad d K rb_outer (el_quad (cl_elem c) (2 * (rd_outer - 1))) in
    let Ki := shift 1 1 Ko in
    let gr_rhs_inner := add_cols zeroM 0 cbs (shift 1 0 Ko) in
    let gr_rhs_inner := snd (fold_left (sfl_inner_face d K rd_inner cd fd rb_inner cb) (cl_faces c) (cbs, gr_rhs_inner)) in
    let Ri := solveM ldlt ri Ki gr_rhs_inner in
    let Ro_rhs := add_cols zeroM 0 cbs (shift 1 0 Ko) in
    let Ro_rhs := snd (fold_left (sfl_outer_face d K rd_outer cd fd rb_inner rb_outer cb Ri) (cl_faces c) (cbs, Ro_rhs)) in
    let oper := solveM ldlt ro (shift 1 1 Ko) Ro_rhs in
    (oper, mprod ro (mtrans Ro_rhs) oper).
End Sfl.
