(** Model of the local matrices of the virtual element method on polygons: namespace vem_2d of
    methods/implementation_vem/methods_vem_2d.hpp (lines 248-671).

    As for HHO (HHO_Model), numbers are exact reals, matrices are functions of their indices, and the mesh is seen
    through what the functions ask of it: the quadrature, measure and barycenter of the cell, and its faces in the
    order of faces_ccw with the points, the flag and the normal of each.  The nodes and weights of
    gauss_lobatto(degree, a, b) are a parameter [gl]; the program throws where its table ends (degree 38 and more:
    C24), [gl] does not.  Eigen's lu() and ldlt() are oracles.  Degrees are not zero (asserted) and do not wrap. *)
From Coq Require Import List Arith Bool Reals.
From Verif Require Import Poly_Spec HHO_Spec HHO_Model.
Import ListNotations.
Open Scope R_scope.

(** one entry of faces_ccw with points(msh, fc) and normal(msh, cl, fc) *)
Record vface := mkVF { vf_p0 : pt; vf_p1 : pt; vf_flip : bool; vf_normal : pt }.
(** integrate(msh, cl, degree), barycenter(msh, cl), scaling_factor(), measure(msh, cl), faces_ccw(msh, cl) *)
Record vcell := mkVC { vc_quad : nat -> list (pt * R); vc_bar : pt; vc_fx : R; vc_fy : R; vc_meas : R; vc_faces : list vface }.

(** the exponents of the basis, in the order of the loops of bases_scalar.hpp:219-244 *)
Definition row_pows (k : nat) : list (nat * nat) := map (fun i => (k - i, i)%nat) (seq 0 (S k)).
Definition pows (degree : nat) : list (nat * nat) := flat_map row_pows (seq 0 (S degree)).
(** scaling_point: (pt - bar) times the factors; no inertia axes.  iexp_pow is the power (C18). *)
Fixpoint ppower (p : pexp) (e : nat) : pexp := match e with O => PC 1 | S e => PMul p (ppower p e) end.
Definition lin (c : nat) (b f : R) : pexp := PMul (PC f) (PAdd (PX c) (PC (- b))).
Definition smono (v : vcell) (ab : nat * nat) : pexp :=
  PMul (ppower (lin 0 (vc_bar v 0%nat) (vc_fx v)) (fst ab)) (ppower (lin 1 (vc_bar v 1%nat) (vc_fy v)) (snd ab)).
(** scalar_basis_size(k, 2), bases_scalar.hpp:42-54 *)
Definition basis_size (k : nat) : nat := ((k + 1) * (k + 2)) / 2.
(** make_scalar_monomial_basis(msh, cl, degree) *)
Definition vbasis (v : vcell) (degree : nat) : sbasis :=
  mkSB degree (basis_size degree) (fun j => smono v (nth j (pows degree) (0, 0)%nat)).
Definition velem (v : vcell) : selem := mkElem (vc_quad v) (vbasis v) 0.
Definition nfaces (v : vcell) : nat := length (vc_faces v).
(** lbs: (degree == 1) ? 0 : scalar_basis_size(degree - 2, 2) *)
Definition inner_size (degree : nat) : nat := if (degree =? 1)%nat then 0%nat else basis_size (degree - 2).
Definition vdofs (v : vcell) (degree : nat) : nat := (nfaces v * degree + inner_size degree)%nat.

(** M.row(0) op= ..., M.row(r) = ..., M(r, c) = x, M(r, c) += x *)
Definition upd_row (r : nat) (f : (nat -> R) -> nat -> R) (M : mtx) : mtx := fun i j => if (i =? r)%nat then f (M i) j else M i j.
Definition set_entry (r c : nat) (x : R) (M : mtx) : mtx := fun i j => if ((i =? r) && (j =? c))%nat then x else M i j.
Definition add_col1 (c : nat) (f : nat -> R) (M : mtx) : mtx := fun i j => if (j =? c)%nat then M i j + f i else M i j.
(** M.block(0, c0, rows, n) = B; M.block(r0, 0, n, cols) += B; M.block(r0, 0, n, cols) /= x *)
Definition set_cols (c0 n : nat) (B M : mtx) : mtx := fun i j => if ((c0 <=? j) && (j <? c0 + n))%nat then B i (j - c0)%nat else M i j.
Definition map_rows (r0 n : nat) (f : nat -> nat -> R -> R) (M : mtx) : mtx :=
  fun i j => if ((r0 <=? i) && (i <? r0 + n))%nat then f (i - r0)%nat j (M i j) else M i j.

Section VEM.
  Variable gl : nat -> pt -> pt -> list (pt * R).
  (** lu n A b, ldlt n A b: the solution for the right hand side b *)
  Variables lu ldlt : nat -> mtx -> (nat -> R) -> nat -> R.
  Variable v : vcell.

  (** matrix_G 276-300 *)
  Definition matrix_G (degree : nat) : mtx :=
    let cb := vbasis v degree in
    let M := make_stiffness_matrix 2 (velem v) cb in
    let M := fold_left (fun M qp => let '(x, w) := qp in upd_row 0 (fun r j => r j + w * phi cb x j) M) (vc_quad v (2 * (degree - 1))) M in
    upd_row 0 (fun r j => r j / vc_meas v) M.

  (** the oriented end points and the nodes of a face, 324-332 and 477-483 *)
  Definition face_nodes (degree : nat) (f : vface) : list (pt * R) :=
    if vf_flip f then gl (2 * degree - 1) (vf_p1 f) (vf_p0 f) else gl (2 * degree - 1) (vf_p0 f) (vf_p1 f).
  (** matrix_BF 304-350; the states are (qcount, BF) and (iface, BF) *)
  Definition bf_node (cb : sbasis) (n : pt) (num_dofs_bnd : nat) (st : nat * mtx) (qp : pt * R) : nat * mtx :=
    let '(qcount, BF) := st in let '(x, w) := qp in
    (S qcount, add_col1 (qcount mod num_dofs_bnd) (fun i => w * sg 2 (fun c => dphi cb x i c * n c)) BF).
  Definition bf_face (degree : nat) (cb : sbasis) (num_dofs_bnd : nat) (st : nat * mtx) (f : vface) : nat * mtx :=
    let '(iface, BF) := st in
    (S iface, snd (fold_left (bf_node cb (vf_normal f) num_dofs_bnd) (face_nodes degree f) ((iface * degree)%nat, BF))).
  Definition matrix_BF (degree : nat) : mtx :=
    snd (fold_left (bf_face degree (vbasis v degree) (nfaces v * degree)) (vc_faces v) (0%nat, zeroM)).

  (** matrix_BT 353-414; the state is (ipol, BT) *)
  Definition bt_step (st : nat * mtx) (ki : nat * nat) : nat * mtx :=
    let '(ipol, BT) := st in let '(k, i) := ki in
    let ipol := S ipol in
    let powx := (k - i)%nat in let powy := i in
    let coeff_xx := (powx * (powx - 1))%nat in let coeff_yy := (powy * (powy - 1))%nat in
    let idx row col := (((row + 1) * row) / 2 + col)%nat in
    let BT := if (0 <? coeff_xx)%nat then set_entry ipol (idx (k - 2) i)%nat (- INR coeff_xx * (vc_fx v * vc_fx v)) BT else BT in
    let BT := if (0 <? coeff_yy)%nat then set_entry ipol (idx (k - 2) (i - 2))%nat (- INR coeff_yy * (vc_fy v * vc_fy v)) BT else BT in
    (ipol, BT).
  Definition bt_loop (degree : nat) : list (nat * nat) :=
    flat_map (fun k => map (fun i => (k, i)) (seq 0 (S k))) (seq 2 (degree - 1)).
  Definition matrix_BT (degree : nat) : mtx := mscalm (vc_meas v) (snd (fold_left bt_step (bt_loop degree) (2%nat, zeroM))).

  (** matrix_B 417-450 *)
  Definition matrix_B (degree : nat) : mtx :=
    let offset := (nfaces v * degree)%nat in
    let B := set_cols 0 offset (matrix_BF degree) zeroM in
    if (degree =? 1)%nat then upd_row 0 (fun _ _ => 1 / INR (nfaces v)) B
    else set_entry 0 offset 1 (set_cols offset (inner_size degree) (matrix_BT degree) B).

  (** matrix_D 453-515; the state is (count, D) *)
  Definition d_node (cb : sbasis) (st : nat * mtx) (qp : pt * R) : nat * mtx :=
    let '(count, D) := st in (S count, upd_row count (fun _ => phi cb (fst qp)) D).
  Definition d_face (degree : nat) (cb : sbasis) (st : nat * mtx) (f : vface) : nat * mtx :=
    let qps := face_nodes degree f in fold_left (d_node cb) (firstn (length qps - 1) qps) st.
  Definition matrix_D (degree : nat) : mtx :=
    let cb := vbasis v degree in
    let D := snd (fold_left (d_face degree cb) (vc_faces v) (0%nat, zeroM)) in
    if (degree =? 1)%nat then D
    else
      let lb := vbasis v (degree - 2) in
      let off := (nfaces v * degree)%nat in
      let D := fold_left (fun D qp => let '(x, w) := qp in
          map_rows off (inner_size degree) (fun l j d => d + w * phi lb x l * phi cb x j) D) (vc_quad v (2 * degree - 2)) D in
      map_rows off (inner_size degree) (fun _ _ d => d / vc_meas v) D.

  (** projector_nabla 518-526 *)
  Definition projector_nabla (degree : nat) (G : mtx) : mtx :=
    let B := matrix_B degree in fun i j => lu (basis_size degree) G (fun r => B r j) i.

  (** projector_zero 529-571 *)
  Definition projector_zero (degree proj_degree : nat) (PIN : mtx) : mtx :=
    let pbs := basis_size proj_degree in
    let pb := vbasis v proj_degree in
    let H := make_mass_matrix (velem v) pb 0 in
    let offset := (nfaces v * degree)%nat in
    let C :=
      if (degree =? 1)%nat then mprod pbs H PIN
      else
        let lbs := basis_size (degree - 2) in
        fun i j =>
          if (i <? lbs)%nat then if ((offset <=? j) && (j <? offset + lbs))%nat then delta i (j - offset) * vc_meas v else 0
          else mprod pbs H PIN i j in
    solveM ldlt pbs H C.

  (** local_stiffness_matrix 574-605 *)
  Definition local_stiffness_matrix (degree : nat) (G D PI : mtx) : mtx :=
    let cbs := basis_size degree in
    let num_dofs := vdofs v degree in
    let PI_stab := mprod cbs D PI in
    let Gt_PI := upd_row 0 (fun _ _ => 0) (mprod cbs G PI) in
    let A := mprod cbs (mtrans PI) Gt_PI in
    let E := maddm ident (mopp PI_stab) in
    maddm A (mprod num_dofs (mtrans E) E).

  (** local_rhs 608-641 *)
  Definition local_rhs (degree proj_degree : nat) (PI : mtx) (f : pt -> R) : nat -> R :=
    let pb := vbasis v proj_degree in
    fold_left (fun rhs qp => let '(x, w) := qp in
        fun i => rhs i + sg (basis_size proj_degree) (fun l => PI l i * phi pb x l) * (w * f x))
      (vc_quad v (2 * degree)) zeroV.

  (** compute_local 643-669 *)
  Definition compute_local (degree : nat) (f : pt -> R) : mtx * (nat -> R) :=
    let proj_degree := (degree - 1)%nat in
    let G := matrix_G degree in
    let D := matrix_D degree in
    let PIN := projector_nabla degree G in
    let PI0 := projector_zero degree proj_degree PIN in
    (local_stiffness_matrix degree G D PIN, local_rhs degree proj_degree PI0 f).
End VEM.
