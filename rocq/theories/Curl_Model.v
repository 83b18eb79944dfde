(** Model of methods/implementation_hho/curl.hpp: the HHO operators for the curl.  The conventions are those of
    HHO_Model and VHHO_Model.  Scalars are real (ScalT = double): complex coefficients are not modelled.  The
    tangential bases of the faces are given by their functions, one [vbasis] per face of the cell in order. *)
From Coq Require Import List Arith Bool Reals.
From Verif Require Import Poly_Spec HHO_Spec VHHO_Spec Curl_Spec HHO_Model VHHO_Model Stab_Model Nit_Model.
Import ListNotations.
Open Scope R_scope.

(** scaled_monomial_vector_tangential_basis, bases_vector.hpp:360-437: for each scalar function of the face, that
    function times e0 and times e1 *)
Definition tang_basis (e0 e1 : pt) (b : sbasis) : vbasis :=
  mkVB (b_deg b) (2 * b_size b) (fun j a => pscal (if (j mod 2 =? 0)%nat then e0 a else e1 a) (b_poly b (j / 2)%nat)).

(** f.cross(g) for one row, vcross, curl.hpp:15-59 *)
Definition cross3 (f g : nat -> R) (a : nat) : R :=
  if (a =? 0)%nat then f 1%nat * g 2%nat - f 2%nat * g 1%nat
  else if (a =? 1)%nat then f 2%nat * g 0%nat - f 0%nat * g 2%nat
  else f 0%nat * g 1%nat - f 1%nat * g 0%nat.
(** vcross(field, normal) in the plane, curl.hpp:61-78 *)
Definition cross2 (f n : nat -> R) : R := - (n 0%nat * f 1%nat - n 1%nat * f 0%nat).
(** eval_curls2 of the vector basis over the scalar basis [b], bases_vector.hpp:228-258 *)
Definition eval_curls2 (b : sbasis) (x : pt) (j a : nat) : R :=
  let D := dphi b x (j / 3)%nat in
  if (j mod 3 =? 0)%nat then (if (a =? 1)%nat then D 2%nat else if (a =? 2)%nat then - D 1%nat else 0)
  else if (j mod 3 =? 1)%nat then (if (a =? 0)%nat then - D 2%nat else if (a =? 2)%nat then D 0%nat else 0)
  else (if (a =? 0)%nat then D 1%nat else if (a =? 1)%nat then - D 0%nat else 0).
(** eval_curls2 of the scalar basis in the plane, bases_scalar.hpp:288-302 *)
Definition eval_curls2_2d (b : sbasis) (x : pt) (j a : nat) : R := if (a =? 0)%nat then dphi b x j 1%nat else - dphi b x j 0%nat.

Section Curl.
  Variable ldlt : nat -> mtx -> (nat -> R) -> nat -> R.

  (** curl_reconstruction_pk, curl.hpp:420-485, and curl_reconstruction_nedelec, 487-552: the same with the Nedelec
      functions on the faces.  [tb] are the bases of the faces *)
  Definition pk_face (rb : vbasis) (rd : nat) (st : nat * mtx) (ft : sface * vbasis) : nat * mtx :=
    let '(off, M) := st in
    let fb := snd ft in
    ((off + v_size fb)%nat,
     fold_left (fun M qp => let '(x, w) := qp in
         add_cols M off (v_size fb) (fun i j => sg 3 (fun a => w * cross3 (vphi rb x i) (fc_normal (fst ft)) a * vphi fb x j a)))
       (el_quad (fc_elem (fst ft)) (2 * rd + 2)) M).
  Definition curl_reconstruction_pk (c : scell) (cd rd : nat) (tb : list vbasis) : mtx * mtx :=
    let rs := el_basis (cl_elem c) rd in
    let cb := vec_basis 3 (el_basis (cl_elem c) cd) in let rb := vec_basis 3 rs in
    let qps := el_quad (cl_elem c) (2 * cd + 2) in
    let mass := vaccumulate 3 qps (vphi rb) (vphi rb) zeroM in
    let rhs := fold_left (fun M qp => let '(x, w) := qp in
                   add_cols M 0 (v_size cb) (fun i j => sg 3 (fun a => w * eval_curls2 rs x i a * vphi cb x j a))) qps zeroM in
    let rhs := snd (fold_left (pk_face rb rd) (combine (cl_faces c) tb) (v_size cb, rhs)) in
    let oper := solveM ldlt (v_size rb) mass rhs in
    (oper, mprod (v_size rb) (mtrans rhs) oper).

  (** curl_reconstruction, 3D, curl.hpp:298-370; [ldlt] is here FullPivLU.  None: stiff.block(3, 0, rbs-3, cbs) reads
      columns that the matrix does not have (342) *)
  Definition curl_face (rs : sbasis) (cb : vbasis) (rd : nat) (st : nat * mtx) (ft : sface * vbasis) : nat * mtx :=
    let '(off, M) := st in
    let fb := snd ft in
    let cphi_n := fun x i a => cross3 (eval_curls2 rs x (3 + i)) (fc_normal (fst ft)) a in
    ((off + v_size fb)%nat,
     fold_left (fun M qp => let '(x, w) := qp in
         let M := add_cols M 0 (v_size cb) (fun i j => - sg 3 (fun a => w * cphi_n x i a * vphi cb x j a)) in
         add_cols M off (v_size fb) (fun i j => sg 3 (fun a => w * cphi_n x i a * vphi fb x j a)))
       (el_quad (fc_elem (fst ft)) (2 * rd)) M).
  Definition curl_reconstruction (c : scell) (cd rd : nat) (tb : list vbasis) : option (mtx * mtx) :=
    let rs := el_basis (cl_elem c) rd in
    let cb := vec_basis 3 (el_basis (cl_elem c) cd) in let rb := vec_basis 3 rs in
    let stiff := vaccumulate 3 (el_quad (cl_elem c) (2 * rd)) (eval_curls2 rs) (eval_curls2 rs) zeroM in
    if (v_size cb <=? v_size rb)%nat then
      let lhs := shift 3 3 stiff in
      let rhs := snd (fold_left (curl_face rs cb rd) (combine (cl_faces c) tb)
                        (v_size cb, add_cols zeroM 0 (v_size cb) (shift 3 0 stiff))) in
      let oper := solveM ldlt (v_size rb - 3) lhs rhs in
      Some (oper, mprod (v_size rb - 3) (mtrans rhs) oper)
    else None.

  (** curl_reconstruction, 2D, curl.hpp:229-296 *)
  Definition curl2_face (rs cb : sbasis) (rd fd : nat) (st : nat * mtx) (fc : sface) : nat * mtx :=
    let '(off, M) := st in
    let fb := el_basis (fc_elem fc) fd in
    let cphi_n := fun x i => cross2 (eval_curls2_2d rs x (1 + i)) (fc_normal fc) in
    ((off + b_size fb)%nat,
     fold_left (fun M qp => let '(x, w) := qp in
         let M := add_cols M 0 (b_size cb) (fun i j => - (w * cphi_n x i * phi cb x j)) in
         add_cols M off (b_size fb) (fun i j => w * cphi_n x i * phi fb x j))
       (el_quad (fc_elem fc) (2 * rd)) M).
  Definition curl_reconstruction_2d (c : scell) (h : degs) : option (mtx * mtx) :=
    let rd := reconstruction_degree h in
    let rs := el_basis (cl_elem c) rd in let cb := el_basis (cl_elem c) (cell_degree h) in
    let stiff := vaccumulate 2 (el_quad (cl_elem c) (2 * rd)) (eval_curls2_2d rs) (eval_curls2_2d rs) zeroM in
    if (b_size cb <=? b_size rs)%nat then
      let lhs := shift 1 1 stiff in
      let rhs := snd (fold_left (curl2_face rs cb rd (face_degree h)) (cl_faces c)
                        (b_size cb, add_cols zeroM 0 (b_size cb) (shift 1 0 stiff))) in
      let oper := solveM ldlt (b_size rs - 1) lhs rhs in
      Some (oper, mprod (b_size rs - 1) (mtrans rhs) oper)
    else None.

  (** curl_hdg_stabilization, 3D, curl.hpp:712-783, curl_hdg_stabilization_nedelec, 787-858, and
      curl_Z_stabilization, 870-941.  The three differ in the quadrature degree [qd], the coefficients [kF] and [kT] of
      the face and cell blocks of the matrix (1 and -1 for the first two, -jwmu0/Z and jwmu0/Z for the third) and the
      final factor [s] (1/ht for the second, 1 for the others) *)
  Definition chdg_face (cb : vbasis) (qd : nat) (kF kT s : R) (st : nat * mtx) (ft : sface * vbasis) : nat * mtx :=
    let '(off, stab) := st in
    let fb := snd ft in let n := fc_normal (fst ft) in
    let qps := el_quad (fc_elem (fst ft)) qd in
    let mass := vaccumulate 3 qps (vphi fb) (vphi fb) zeroM in
    let trace := vaccumulate 3 qps (vphi fb) (fun x j => cross3 n (cross3 (vphi cb x j) n)) zeroM in
    let rhs := add_cols (add_cols zeroM off (v_size fb) (mscalm kF ident)) 0 (v_size cb)
                 (mscalm kT (solveM ldlt (v_size fb) mass trace)) in
    ((off + v_size fb)%nat, maddm stab (mscalm s (mprod (v_size fb) (mprod (v_size fb) (mtrans rhs) mass) rhs))).
  Definition chdg (c : scell) (cd qd : nat) (kF kT s : R) (tb : list vbasis) : mtx :=
    let cb := vec_basis 3 (el_basis (cl_elem c) cd) in
    snd (fold_left (chdg_face cb qd kF kT s) (combine (cl_faces c) tb) (v_size cb, zeroM)).
  Definition curl_hdg_stabilization (c : scell) (cd fd : nat) (tb : list vbasis) : mtx :=
    chdg c cd (2 * Nat.max cd fd + 2) 1 (-1) 1 tb.
  Definition curl_hdg_stabilization_nedelec (c : scell) (cd fd : nat) (tb : list vbasis) : mtx :=
    chdg c cd (2 * Nat.max cd fd + 2) 1 (-1) (/ el_diam (cl_elem c)) tb.
  Definition curl_Z_stabilization (c : scell) (cd fd : nat) (jwmu0 Z : R) (tb : list vbasis) : mtx :=
    chdg c cd (2 * Nat.max cd fd) (- jwmu0 / Z) (jwmu0 / Z) 1 tb.

  (** maxwell_prj, curl.hpp:372-418.  On the faces the integrals are taken over the cell: integrate(msh, cl, ...)
      (403) *)
  Definition prj_elem (q : list (pt * R)) (b : vbasis) (f : pt -> nat -> R) : nat -> R :=
    ldlt (v_size b) (vaccumulate 3 q (vphi b) (vphi b) zeroM)
      (fold_left (fun r qp => let '(x, w) := qp in fun i => r i + sg 3 (fun a => w * vphi b x i a * f x a)) q zeroV).
  Definition maxwell_prj (c : scell) (cd fd : nat) (tb : list vbasis) (f : pt -> nat -> R) : nat -> R :=
    let cb := vec_basis 3 (el_basis (cl_elem c) cd) in
    snd (fold_left (fun st fb => let '(off, ret) := st in
             ((off + v_size fb)%nat, set_seg ret off (v_size fb) (prj_elem (el_quad (cl_elem c) (2 * fd)) fb f)))
           tb (v_size cb, set_seg zeroV 0 (v_size cb) (prj_elem (el_quad (cl_elem c) (2 * cd)) cb f))).
End Curl.

(** make_vector_mass_oper, curl.hpp:80-113 *)
Definition make_vector_mass_oper (c : scell) (cd : nat) : mtx :=
  let cb := vec_basis 3 (el_basis (cl_elem c) cd) in
  fold_left (fun M qp => let '(x, w) := qp in
      add_block M 0 0 (v_size cb) (v_size cb) (fun i j => sg 3 (fun a => w * vphi cb x i a * vphi cb x j a)))
    (el_quad (cl_elem c) (2 * cd + 2)) zeroM.
(** make_plane_wave_term on a face, curl.hpp:142-170; its first part is make_impedance_term on a face, 115-140 *)
Definition make_plane_wave_term (fc : sface) (fb : vbasis) (fd : nat) (f : pt -> nat -> R) : mtx * (nat -> R) :=
  let qps := el_quad (fc_elem fc) (2 * fd) in
  (vaccumulate 3 qps (vphi fb) (vphi fb) zeroM,
   fold_left (fun r qp => let '(x, w) := qp in fun i => r i + sg 3 (fun a => w * vphi fb x i a * f x a)) qps zeroV).
(** make_impedance_term on a cell, curl.hpp:172-224; [bnd] says of each face whether it is on the boundary with the
    given number *)
Definition imp_face (z : R) (fd : nat) (st : nat * (mtx * (nat -> R))) (ft : sface * vbasis * bool) : nat * (mtx * (nat -> R)) :=
  let '(off, (Y, y)) := st in let '(fc, fb, on) := ft in
  ((off + v_size fb)%nat,
   if on then
     fold_left (fun Yy qp => let '(x, w) := qp in
        (add_block (fst Yy) off off (v_size fb) (v_size fb) (fun i j => sg 3 (fun a => w * z * vphi fb x i a * vphi fb x j a)),
         add_seg (snd Yy) off (v_size fb) (fun i => w * z * vphi fb x i 2%nat)))
       (el_quad (fc_elem fc) (2 * fd)) (Y, y)
   else (Y, y)).
Definition make_impedance_term (c : scell) (cd fd : nat) (tb : list vbasis) (bnd : list bool) (z : R) : mtx * (nat -> R) :=
  snd (fold_left (imp_face z fd) (combine (combine (cl_faces c) tb) bnd)
         (v_size (vec_basis 3 (el_basis (cl_elem c) cd)), (zeroM, zeroV))).
