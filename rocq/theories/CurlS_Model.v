(** Model of methods/implementation_hho/curl.hpp, continued: the stabilisation that uses the reconstruction, the
    stabilisation in the plane, the reconstruction with a constraint on the divergence and the curl-curl matrix.  The
    conventions are those of Curl_Model. *)
From Coq Require Import List Arith Bool Reals.
From Verif Require Import Poly_Spec HHO_Spec VHHO_Spec Curl_Spec HHO_Model VHHO_Model Stab_Model Curl_Model.
Import ListNotations.
Open Scope R_scope.

Section CurlS.
  Variable ldlt : nat -> mtx -> (nat -> R) -> nat -> R.

  (** one face of curl_hho_stabilization, curl.hpp:1136-1180; [RprojC] is the matrix of the cell *)
  Definition chho_face (cb rb : vbasis) (rd : nat) (recop RprojC : mtx) (st : nat * mtx) (ft : sface * vbasis) : nat * mtx :=
    let '(off, stab) := st in
    let fb := snd ft in let n := fc_normal (fst ft) in
    let qps := el_quad (fc_elem (fst ft)) (2 * rd) in
    let Fmass := vaccumulate 3 qps (vphi fb) (vphi fb) zeroM in
    let CtraceF := vaccumulate 3 qps (vphi fb) (fun x j => cross3 n (cross3 (vphi cb x j) n)) zeroM in
    let RtraceF := vaccumulate 3 qps (vphi fb) (fun x j => cross3 n (cross3 (vphi rb x (3 + j)%nat) n)) zeroM in
    let RprojF := add_cols (mopp (solveM ldlt (v_size fb) Fmass (mprod (v_size rb - 3) RtraceF recop))) off (v_size fb) ident in
    let rf := solveM ldlt (v_size fb) Fmass (mprod (v_size cb) CtraceF RprojC) in
    let rhs := maddm RprojF rf in
    ((off + v_size fb)%nat,
     maddm stab (mscalm (/ el_diam (fc_elem (fst ft))) (mprod (v_size fb) (mprod (v_size fb) (mtrans rhs) Fmass) rhs))).
  (** curl_hho_stabilization, curl.hpp:1082-1183; [recop] is the operator of curl_reconstruction.  None:
      Rtrace.block(0, 0, cbs, cbs) reads columns that the matrix does not have (1124) *)
  Definition curl_hho_stabilization (c : scell) (cd rd : nat) (tb : list vbasis) (recop : mtx) : option mtx :=
    let cb := vec_basis 3 (el_basis (cl_elem c) cd) in let rb := vec_basis 3 (el_basis (cl_elem c) rd) in
    let Rtrace := vaccumulate 3 (el_quad (cl_elem c) (2 * rd)) (vphi cb) (vphi rb) zeroM in
    if (v_size cb <=? v_size rb)%nat then
      let RprojC := add_cols (solveM ldlt (v_size cb) Rtrace (mprod (v_size rb - 3) (shift 0 3 Rtrace) recop)) 0 (v_size cb) (mopp ident) in
      Some (snd (fold_left (chho_face cb rb rd recop RprojC) (combine (cl_faces c) tb) (v_size cb, zeroM)))
    else None.

  (** curl_hdg_stabilization, 2D, curl.hpp:650-708 *)
  Definition chdg2_face (cb : sbasis) (cd fd : nat) (st : nat * mtx) (fc : sface) : nat * mtx :=
    let '(off, stab) := st in
    let fb := el_basis (fc_elem fc) fd in
    let qps := el_quad (fc_elem fc) (2 * Nat.max cd fd + 2) in
    let mass := accumulate qps (fun x => phi fb x) (fun x => phi fb x) zeroM in
    let trace := accumulate qps (fun x => phi fb x) (fun x => phi cb x) zeroM in
    let rhs := add_cols (add_cols zeroM off (b_size fb) ident) 0 (b_size cb) (mopp (solveM ldlt (b_size fb) mass trace)) in
    ((off + b_size fb)%nat,
     maddm stab (mscalm (/ el_diam (fc_elem fc)) (mprod (b_size fb) (mprod (b_size fb) (mtrans rhs) mass) rhs))).
  Definition curl_hdg_stabilization_2d (c : scell) (cd fd : nat) : mtx :=
    let cb := el_basis (cl_elem c) cd in
    snd (fold_left (chdg2_face cb cd fd) (cl_faces c) (b_size cb, zeroM)).

  (** curl_reconstruction_div, 3D, curl.hpp:982-1079; [ldlt] is here FullPivLU.  The first part are the rows of the
      reconstruction, then those of the scalar functions, then three.  None: the blocks of the first cbs functions
      (1028-1030) leave the matrix.  The overload in the plane (974-980) returns nothing and is not modelled *)
  Definition cdiv_lhs_qp (rs : sbasis) (M : mtx) (qp : pt * R) : mtx :=
    let '(x, w) := qp in
    let rb := vec_basis 3 rs in let rbs := v_size rb in let dbs := b_size rs in
    let M := add_block M 0 0 rbs rbs (fun i j => sg 3 (fun a => w * eval_curls2 rs x i a * eval_curls2 rs x j a)) in
    let M := add_block M 0 rbs rbs dbs (fun i j => sg 3 (fun a => w * vphi rb x i a * dphi rs x j a)) in
    let M := add_block M rbs 0 dbs rbs (fun i j => sg 3 (fun a => w * dphi rs x i a * vphi rb x j a)) in
    add_block M (rbs + dbs) 0 3 rbs (fun a j => w * vphi rb x j a).
  Definition cdiv_lhs (rs : sbasis) (q : list (pt * R)) : mtx :=
    let rbs := v_size (vec_basis 3 rs) in let dbs := b_size rs in
    let M := fold_left (cdiv_lhs_qp rs) q zeroM in
    set_block M 0 (rbs + dbs) rbs 3 (mtrans (shift (rbs + dbs) 0 M)).
  Definition cdiv_rhs_qp (rs : sbasis) (cbs : nat) (M : mtx) (qp : pt * R) : mtx :=
    let '(x, w) := qp in
    let rb := vec_basis 3 rs in let rbs := v_size rb in let dbs := b_size rs in
    let M := add_block M 0 0 rbs cbs (fun i j => sg 3 (fun a => w * eval_curls2 rs x i a * eval_curls2 rs x j a)) in
    let M := add_block M rbs 0 dbs cbs (fun i j => - (w * phi rs x i * vdivphi 3 rb x j)) in
    add_block M (rbs + dbs) 0 3 cbs (fun a j => w * vphi rb x j a).
  Definition cdiv_face (rs : sbasis) (cb : vbasis) (rd : nat) (st : nat * mtx) (ft : sface * vbasis) : nat * mtx :=
    let '(off, M) := st in
    let fb := snd ft in let n := fc_normal (fst ft) in
    let rbs := v_size (vec_basis 3 rs) in let dbs := b_size rs in
    let cphi_n := fun x i a => cross3 (eval_curls2 rs x i) n a in
    ((off + v_size fb)%nat,
     fold_left (fun M qp => let '(x, w) := qp in
         let M := add_block M 0 0 rbs (v_size cb) (fun i j => - sg 3 (fun a => w * cphi_n x i a * vphi cb x j a)) in
         let M := add_block M 0 off rbs (v_size fb) (fun i j => sg 3 (fun a => w * cphi_n x i a * vphi fb x j a)) in
         add_block M rbs 0 dbs (v_size cb) (fun i j => w * phi rs x i * sg 3 (fun a => vphi cb x j a * n a)))
       (el_quad (fc_elem (fst ft)) (2 * rd)) M).
  Definition curl_reconstruction_div (c : scell) (cd rd : nat) (tb : list vbasis) : option (mtx * mtx) :=
    let rs := el_basis (cl_elem c) rd in
    let cb := vec_basis 3 (el_basis (cl_elem c) cd) in
    let rbs := v_size (vec_basis 3 rs) in
    let nunk := (rbs + b_size rs + 3)%nat in
    let qps := el_quad (cl_elem c) (2 * rd) in
    if (v_size cb <=? rbs)%nat then
      let lhs := cdiv_lhs rs qps in
      let rhs := snd (fold_left (cdiv_face rs cb rd) (combine (cl_faces c) tb)
                        (v_size cb, fold_left (cdiv_rhs_qp rs (v_size cb)) qps zeroM)) in
      let oper := solveM ldlt nunk lhs rhs in
      Some (oper, mprod rbs (mtrans rhs) oper)
    else None.
End CurlS.

(** make_curl_curl_matrix on the vector basis of degree [k] of a cell, curl.hpp:947-966 *)
Definition make_curl_curl_matrix (c : scell) (k di : nat) : mtx :=
  let b := el_basis (cl_elem c) k in
  vaccumulate 3 (el_quad (cl_elem c) (2 * (k + di))) (eval_curls2 b) (eval_curls2 b) zeroM.
